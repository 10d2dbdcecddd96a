(** Concrete unscented filters, and the witness against time-varying functions
    passed as one-dimensional arrays. *)
From Coq Require Import String List.
From mathcomp Require Import all_ssreflect all_algebra.
From mathcomp Require Import ring.
From Verif Require Import Prelude Zmod LinAlg Numpy NumpyFacts Sklearn Standard Model KfSpec StandardInit StandardFacts
  EmSpec EmChain KfGlue Rng Unscented UscSpec UscFacts UscRefine UscLoop UscInit UscMain UscLinear UscOnline UscShape UscProps UscPsd
  Examples ExamplesEm.
Import GRing.Theory Num.Theory Order.Theory.

Set Implicit Arguments.
Unset Strict Implicit.
Unset Printing Implicit Defensive.
Local Open Scope ring_scope.

Section Ex.
Variable R : rcfType.

(** ** the linear model of ExamplesEm as an unscented one *)
Definition lin_f (t : nat) (x : 'cV[R]_2) := mA (em_M R) t *m x + mb (em_M R) t.
Definition lin_g (t : nat) (x : 'cV[R]_2) := mC (em_M R) t *m x + md (em_M R) t.
Definition add_o : ukf R := @ukf_of R 2 2 _ _ (@pyf1 R 2 2) (@pyf1 R 2 2) 3 lin_f lin_g (proj R + 1%:M) 1%:M (e0 R) (proj R + 1%:M) (Some (RsSeed 7)).
Definition aug_o : ukf R := @ukf_of R 2 2 _ _ (@pyf2 R 2 2 2) (@pyf2 R 2 2 2) 3 (fun t x w => lin_f t x + w) (fun t x v => lin_g t x + v)
  (proj R + 1%:M) 1%:M (e0 R) (proj R + 1%:M) (Some (RsSeed 7)).
Lemma add_o_model : aukf_model add_o 3 (fun t x => mA (em_M R) t *m x + mb (em_M R) t)
  (fun t x => mC (em_M R) t *m x + md (em_M R) t) (proj R + 1%:M) 1%:M (mmu (em_M R)) (mP (em_M R)).
Proof. exact: aukf_of_model. Qed.
Lemma aug_o_model : ukf_model aug_o 3 (fun t x w => mA (em_M R) t *m x + mb (em_M R) t + w)
  (fun t x v => mC (em_M R) t *m x + md (em_M R) t + v) (proj R + 1%:M) 1%:M (mmu (em_M R)) (mP (em_M R)).
Proof. exact: ukf_of_model. Qed.
Lemma em_M_pd mis : pd_model mis 3 (em_M R).
Proof. by split=> *; [exact: pp_pd|exact: pp_pd|exact: pd1]. Qed.

(** ** a non-linear one: two states, one observation *)
Definition sq_f (t : nat) (x : 'cV[R]_2) : 'cV[R]_2 := \col_i (x i 0 ^+ 2 + t%:R).
Definition sq_g (t : nat) (x : 'cV[R]_2) : 'cV[R]_1 := (x 0 0 * x 1 0)%:M.
Definition sq_o : ukf R := @ukf_of R 2 1 _ _ (@pyf1 R 2 2) (@pyf1 R 2 1) 3 sq_f sq_g 1%:M 1%:M (e0 R) (proj R + 1%:M) None.
Lemma sq_model : aukf_model sq_o 3 sq_f sq_g 1%:M 1%:M (e0 R) (proj R + 1%:M).
Proof. exact: aukf_of_model. Qed.
Definition sq_zs : seq (orow R 1) := [seq mk_row (t == 1%N) (const_mx t%:R) | t <- iota 0 3].
(** noise multiplies the state *)
Definition sq2_f (t : nat) (x w : 'cV[R]_2) : 'cV[R]_2 := \col_i (x i 0 * w i 0 + t%:R).
Definition sq2_g (t : nat) (x : 'cV[R]_2) (v : 'cV[R]_1) : 'cV[R]_1 := (x 0 0 * v 0 0)%:M.
Definition sq2_o : ukf R := @ukf_of R 2 1 _ _ (@pyf2 R 2 2 2) (@pyf2 R 2 1 1) 3 sq2_f sq2_g 1%:M 1%:M (e0 R) (proj R + 1%:M) None.
Lemma sq2_model : ukf_model sq2_o 3 sq2_f sq2_g 1%:M 1%:M (e0 R) (proj R + 1%:M).
Proof. exact: ukf_of_model. Qed.

(** arguments passed explicitly, the missing observation as [None] *)
Definition sq_us : seq (uuargs R) :=
  [:: UUArgs None (Some (pyf1 (sq_f 0))) None (Some (pyf1 (sq_g 1))) (Some (A2 (1%:M : 'M[R]_1)));
      UUArgs (Some (A1 (const_mx 2%:R : 'cV[R]_1), false)) (Some (pyf1 (sq_f 1))) (Some (A2 (1%:M : 'M[R]_2))) (Some (pyf1 (sq_g 2))) None].
Lemma sq_us_args j u r : List.nth_error sq_us j = Some u -> List.nth_error sq_zs (1 + j) = Some r ->
  aukf_args sq_o sq_f sq_g 1%:M 1%:M (0 + j) r u.
Proof.
case: j => [|[|j]] //=; last by case: j.
- case=> <- [<-]; split=> /=; try exact: pyf1E; rewrite /gives_cov /shows.
  + by rewrite missing_row; right; split=> //; left.
  + by right.
  + by left.
- case=> <- [<-]; split=> /=; try exact: pyf1E; rewrite /gives_cov /shows.
  + by rewrite missing_row; left.
  + by left.
  + by right.
Qed.
Definition sq2_us : seq (uuargs R) :=
  [:: UUArgs None (Some (pyf2 (sq2_f 0))) None (Some (pyf2 (sq2_g 1))) (Some (A2 (1%:M : 'M[R]_1)));
      UUArgs (Some (A1 (const_mx 2%:R : 'cV[R]_1), false)) (Some (pyf2 (sq2_f 1))) (Some (A2 (1%:M : 'M[R]_2))) (Some (pyf2 (sq2_g 2))) None].
Lemma sq2_us_args j u r : List.nth_error sq2_us j = Some u -> List.nth_error sq_zs (1 + j) = Some r ->
  ukf_args sq2_o sq2_f sq2_g 1%:M 1%:M (0 + j) r u.
Proof.
case: j => [|[|j]] //=; last by case: j.
- case=> <- [<-]; split=> /=; try exact: pyf2E; rewrite /gives_cov /shows.
  + by rewrite missing_row; right; split=> //; left.
  + by right.
  + by left.
- case=> <- [<-]; split=> /=; try exact: pyf2E; rewrite /gives_cov /shows.
  + by rewrite missing_row; left.
  + by left.
  + by right.
Qed.

(** ** random walk with drift [b t], never observed *)
Definition drift (b : nat -> R) : lgm R 1 1 :=
  LGM (fun _ => 1%:M) (fun t => (b t)%:M) (fun _ => 1%:M) (fun _ => 1%:M) (fun _ => 0) (fun _ => 1%:M) 0 1%:M.
Definition blind : seq (orow R 1) := nseq 3 (mk_row true 0).
Lemma blind_stream t : stream blind t = None.
Proof. by case: t => [|[|[|[|t]]]]; rewrite /stream //= missing_row. Qed.
Lemma drift_pd b mis : pd_model mis 3 (drift b).
Proof. by split=> *; exact: pd1. Qed.
Lemma drift_mean b : (filt (drift b) (stream blind) 2).1 = (b 0%N + b 1%N)%:M.
Proof.
have C t s : correct (drift b) (stream blind) t s = s by rewrite /correct blind_stream.
rewrite /filt C /pred !C /= !mul1mx add0r.
by apply/matrixP=> i j; rewrite !ord1 !mxE !eqxx !mulr1n.
Qed.
Definition shift (c : R) (x : 'cV[R]_1) : 'cV[R]_1 := 1%:M *m x + c%:M.
Definition shift2 (c : R) (x w : 'cV[R]_1) : 'cV[R]_1 := 1%:M *m x + c%:M + w.

Definition walk (f : fcont R) : ukf R := UKF (Some f) None None None None None 1 1 None.
Lemma walk_add b (fs : fcont R) : fgives (@fun1 R 1 1) fs 2 (fun t => shift (b t)) ->
  exists2 rows, aukf_filter (walk fs) (O2 1 blind) = Ok rows &
    List.nth_error rows 2 = Some (A1 ((b 0%N + b 1%N)%:M : 'cV[R]_1), A2 (filt (drift b) (stream blind) 2).2).
Proof.
move=> H; have HM : aukf_model (walk fs) 3 (fun t x => mA (drift b) t *m x + mb (drift b) t)
    (fun t x => mC (drift b) t *m x + md (drift b) t) 1%:M 1%:M (mmu (drift b)) (mP (drift b)).
  by split=> //= t _ x; rewrite mul1mx addr0.
have E := aukf_filterE HM (erefl : size blind = 3%N) erefl.
have Hpd := drift_pd b (fun t => ~~ isSome (stream blind t)).
have Hf := add_filt_lin Hpd (Q := 1%:M) (Rn := 1%:M) (fun _ _ => erefl) (fun _ _ => erefl).
rewrite (mapr_lift Hf) in E; rewrite E; eexists; first by [].
by rewrite [List.nth_error _ _]/= -drift_mean.
Qed.
Lemma walk_aug b (fs : fcont R) : fgives (@fun2 R 1 1 1) fs 2 (fun t => shift2 (b t)) ->
  exists2 rows, ukf_filter (walk fs) (O2 1 blind) = Ok rows &
    List.nth_error rows 2 = Some (A1 ((b 0%N + b 1%N)%:M : 'cV[R]_1), A2 (filt (drift b) (stream blind) 2).2).
Proof.
move=> H; have HM : ukf_model (walk fs) 3 (fun t x w => mA (drift b) t *m x + mb (drift b) t + w)
    (fun t x v => mC (drift b) t *m x + md (drift b) t + v) 1%:M 1%:M (mmu (drift b)) (mP (drift b)).
  by split=> //= t _ x w; rewrite mul1mx addr0 npE.
have E := ukf_filterE HM (erefl : size blind = 3%N) erefl.
have Hf := aug_filt_lin (M := drift b) (stream blind) (pd1 _ _) (pd1 _ _) (pd1 _ _) (T := 3) (fun _ _ => erefl) (fun _ _ => erefl).
rewrite (mapr_lift Hf) in E; rewrite E; eexists; first by [].
by rewrite [List.nth_error _ _]/= -drift_mean.
Qed.
Definition late (t : nat) : R := (t == 1%N)%:R.
Lemma late_refuted :
  (exists hs : seq (pyfun R), (forall t, (t < 2)%N -> fun1 (nth (fun _ => Err TypeError) hs t) (shift (late t))) /\
     aukf_filter (walk (F1 hs)) (O2 1 blind) <> aukf_filter (walk (F2 [seq [:: h] | h <- hs])) (O2 1 blind)) /\
  (exists hs : seq (pyfun R), (forall t, (t < 2)%N -> fun2 (nth (fun _ => Err TypeError) hs t) (shift2 (late t))) /\
     ukf_filter (walk (F1 hs)) (O2 1 blind) <> ukf_filter (walk (F2 [seq [:: h] | h <- hs])) (O2 1 blind)).
Proof.
have NE (P P' : 'M[R]_1) : (A1 ((0 + 0 : R)%:M : 'cV[R]_1), A2 P) <> (A1 ((0 + 1 : R)%:M : 'cV[R]_1), A2 P').
  rewrite addr0 add0r => /(congr1 (fun a : arr R * arr R => if a.1 is A1 k v then bget v 0 0 else 0)) /=.
  rewrite !(bgetE _ (ord0 : 'I_1) (ord0 : 'I_1)) !mxE /= => /esym /eqP; rewrite oner_eq0 //.
split.
- exists [:: pyf1 (shift 0); pyf1 (shift 1)] ; split; first by case=> [|[|]] // _; exact: pyf1E.
  have [|r1 -> N1] := @walk_add (fun _ => 0) (F1 [:: pyf1 (shift 0); pyf1 (shift 1)]); first by move=> q _; exact: pyf1E.
  have [|r2 -> N2] := @walk_add late (F2 [:: [:: pyf1 (shift 0)]; [:: pyf1 (shift 1)]]).
    by case=> [|[|]] // _; exact: pyf1E.
  by case=> E; rewrite E N2 in N1; move/Some_inj: N1 => /esym; exact: NE.
- exists [:: pyf2 (shift2 0); pyf2 (shift2 1)] ; split; first by case=> [|[|]] // _; exact: pyf2E.
  have [|r1 -> N1] := @walk_aug (fun _ => 0) (F1 [:: pyf2 (shift2 0); pyf2 (shift2 1)]); first by move=> q _; exact: pyf2E.
  have [|r2 -> N2] := @walk_aug late (F2 [:: [:: pyf2 (shift2 0)]; [:: pyf2 (shift2 1)]]).
    by case=> [|[|]] // _; exact: pyf2E.
  by case=> E; rewrite E N2 in N1; move/Some_inj: N1 => /esym; exact: NE.
Qed.

(** width-one data given to a filter of two-dimensional observations *)
Lemma one_column_accepted : exists (o : ukf R) (zs : seq (orow R 1)),
  [/\ o_m o = 2%N, has (fun z : orow R 1 => ~~ missing z) zs & is_ok (aukf_filter o (O2 1 zs))].
Proof.
exists add_o, (nseq 3 (mk_row false 0)); split=> //; first by rewrite /= missing_row.
rewrite (aukf_widen add_o_model) //.
set zs := [seq _ | _ <- _]; have Hsz : size zs = 3%N by [].
have [x [s [-> _ _]]] := aukf_pd add_o_model isT (pp_pd R) (pd1 R 2) (pp_pd R) Hsz erefl.
by [].
Qed.
End Ex.
