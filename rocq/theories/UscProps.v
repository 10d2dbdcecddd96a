(** Lemmas behind the property theorems about unscented.py. *)
From Coq Require Import String List.
From mathcomp Require Import all_ssreflect all_algebra.
From mathcomp Require Import ring.
From Verif Require Import Prelude Zmod LinAlg Numpy NumpyFacts Sklearn Standard Model KfSpec StandardInit StandardFacts
  EmSpec EmChain KfGlue Rng Unscented UscSpec UscFacts UscRefine UscLoop UscInit UscMain UscLinear UscOnline UscShape.
Import GRing.Theory Num.Theory Order.Theory.

Set Implicit Arguments.
Unset Strict Implicit.
Unset Printing Implicit Defensive.
Local Open Scope ring_scope.

Section Props.
Variable R : rcfType.

(** ** C37 *)
Lemma m2p_exact n (mu : 'cV[R]_n) (S : 'M[R]_n) a b k : pd S ->
  let al := odflt 1 a in
  0 < al * al * (n%:R + odflt (3%:R - n%:R) k) ->
  exists (P : 'M[R]_((n + n).+1, n)) (wm wc : 'cV[R]_((n + n).+1)),
    [/\ moments2points (A1 mu, A2 S) a b k = Ok (SigmaPoints (A2 P) (A1 wm) (A1 wc)),
        \sum_i wm i 0 = 1 &
        points2moments (SigmaPoints (A2 P) (A1 wm) (A1 wc)) None = Ok (A1 mu, A2 S)].
Proof.
move=> HS al c0; rewrite m2pE -/al //; set c := al * al * _ in c0 *.
rewrite (pd_sym HS); have [L EL] := chol_pd HS; rewrite EL; do 3 eexists; split; first by [].
- exact: (wt_sum n c0).
- have [ES _ _] := chol_spec (pd_sym HS) EL.
  have [H1 H2 H3 H4] := pts_sigma mu L c0 (1 - n%:R / c + (1 - al * al + odflt 0 b)).
  by rewrite (p2mE _ _ _ None) H2 /onoise /= addr0 /wcov H2 H4 -ES.
Qed.
Lemma m2p_not_pd n (mu : 'cV[R]_n) (S : 'M[R]_n) a b k : S^T = S -> ~ pd S ->
  moments2points (A1 mu, A2 S) a b k = Err LinAlgError.
Proof.
move=> SS H; rewrite /moments2points -[np_len _]/(Ok n) bO cholTE SS.
by case E: (chol S) => [L|//]; case: H; exact: chol_some_pd SS E.
Qed.

(** ** C38 *)
Lemma ut_affine n p (mu : 'cV[R]_n) (S : 'M[R]_n) a b k (F : pyfun R) (A : 'M[R]_(p, n)) (c : 'cV[R]_p) (N : option 'M[R]_p) pts :
  pd S -> 0 < odflt 1 a * odflt 1 a * (n%:R + odflt (3%:R - n%:R) k) ->
  fun1 F (fun x => A *m x + c) ->
  moments2points (A1 mu, A2 S) a b k = Ok pts ->
  exists pts', unscented_transform pts (Some F) None (omap (fun M : 'M_p => A2 M) N) =
    Ok (pts', (A1 (A *m mu + c), A2 (A *m S *m A^T + odflt 0 N))).
Proof.
move=> HS c0 HF; rewrite m2pE //; set cc := _ * _ * _ in c0 *.
rewrite (pd_sym HS); have [L EL] := chol_pd HS; rewrite EL => [] [<-].
have [ES _ _] := chol_spec (pd_sym HS) EL.
have HP := pts_sigma mu L c0 (1 - n%:R / cc + (1 - odflt 1 a * odflt 1 a + odflt 0 b)); rewrite -ES in HP.
eexists; rewrite (ut1E _ _ _ N HF) fmap_affine.
have [_ H2 _ H4] := aff_sigma A c HP.
by rewrite /wcov H2 H4.
Qed.

(** ** C39, C40 *)
Section Linear.
Variables (n m T : nat) (M : lgm R n m) (o : ukf R) (o' : kf R) (Q : 'M[R]_n) (Rn : 'M[R]_m).
Hypotheses (EQ : forall t, (t < T.-1)%N -> mQ M t = Q) (ER : forall t, (t < T)%N -> mR M t = Rn).
Hypothesis Ho' : kf_model o' T M.
Variables (zs : seq (orow R m)) (Hsz : size zs = T) (Hk : keeps zs).
Let HkT : (T != 1%N) || (m <= 1)%N. Proof. by move: Hk; rewrite /keeps Hsz. Qed.

Lemma aukf_is_kf :
  aukf_model o T (fun t x => mA M t *m x + mb M t) (fun t x => mC M t *m x + md M t) Q Rn (mmu M) (mP M) ->
  pd_model (fun t => ~~ isSome (stream zs t)) T M ->
  [/\ aukf_filter o (O2 m zs) = kf_filter o' (O2 m zs),
      (0 < T)%N -> aukf_smooth o (O2 m zs) = kf_smooth o' (O2 m zs) &
      is_ok (aukf_filter o (O2 m zs)) /\ ((0 < T)%N -> is_ok (aukf_smooth o (O2 m zs)))].
Proof.
move=> HM Hpd.
have Hf := add_filt_lin Hpd EQ ER.
have E1 := aukf_filterE HM Hsz Hk; rewrite (mapr_lift Hf) in E1.
have E2 : (0 < T)%N -> aukf_smooth o (O2 m zs) =
    Ok [seq (A1 (smo M (stream zs) (T.-1 - t) t).1, A2 (smo M (stream zs) (T.-1 - t) t).2) | t <- iota 0 T].
  move=> T0; rewrite (aukf_smoothE HM Hsz Hk T0 Hf).
  apply: (mapr_lift (x := fun t => smo M (stream zs) (T.-1 - t) t)) => t tT; apply: (add_backs_lin Hpd EQ).
  by rewrite subnKC -ltnS prednK.
split.
- by rewrite E1 (kf_filter_ok Ho' Hsz HkT).
- by move=> T0; rewrite (E2 T0) (kf_smooth_ok Ho' Hsz HkT T0).
- by rewrite E1; split=> // T0; rewrite (E2 T0).
Qed.
Lemma ukf_is_kf :
  ukf_model o T (fun t x w => mA M t *m x + mb M t + w) (fun t x v => mC M t *m x + md M t + v) Q Rn (mmu M) (mP M) ->
  pd (mP M) -> pd Q -> pd Rn ->
  [/\ ukf_filter o (O2 m zs) = kf_filter o' (O2 m zs),
      (0 < T)%N -> ukf_smooth o (O2 m zs) = kf_smooth o' (O2 m zs) &
      is_ok (ukf_filter o (O2 m zs)) /\ ((0 < T)%N -> is_ok (ukf_smooth o (O2 m zs)))].
Proof.
move=> HM HP HQ HR.
have Hf := aug_filt_lin (stream zs) HP HQ HR EQ ER.
have E1 := ukf_filterE HM Hsz Hk; rewrite (mapr_lift Hf) in E1.
have E2 : (0 < T)%N -> ukf_smooth o (O2 m zs) =
    Ok [seq (A1 (smo M (stream zs) (T.-1 - t) t).1, A2 (smo M (stream zs) (T.-1 - t) t).2) | t <- iota 0 T].
  move=> T0; rewrite (ukf_smoothE HM Hsz Hk T0 Hf).
  apply: (mapr_lift (x := fun t => smo M (stream zs) (T.-1 - t) t)) => t tT.
  apply: (aug_backs_lin (stream zs) HP HQ HR EQ ER).
  by rewrite subnKC -ltnS prednK.
split.
- by rewrite E1 (kf_filter_ok Ho' Hsz HkT).
- by move=> T0; rewrite (E2 T0) (kf_smooth_ok Ho' Hsz HkT T0).
- by rewrite E1; split=> // T0; rewrite (E2 T0).
Qed.
End Linear.

(** ** C42 *)
Definition with_f (o : ukf R) (f : option (fcont R)) : ukf R :=
  UKF f (o_g o) (o_tc o) (o_oc o) (o_im o) (o_ic o) (o_n o) (o_m o) (o_rs o).
Definition with_g (o : ukf R) (g : option (fcont R)) : ukf R :=
  UKF (o_f o) g (o_tc o) (o_oc o) (o_im o) (o_ic o) (o_n o) (o_m o) (o_rs o).

Lemma uloop_ext (st : ustep R) p1 p2 n k (zs : seq (orow R k)) :
  (forall t prev z, st p1 n t prev z = st p2 n t prev z) ->
  forall t prev, ufilter_loop st p1 n t prev zs = ufilter_loop st p2 n t prev zs.
Proof.
move=> H; elim: zs => [//|z zs IH] t prev; rewrite !uloop_cons H.
by case: (st p2 _ _ _ _) => [r|//]; rewrite !bO IH.
Qed.
Lemma usmooth_ext (bk : uback R) p1 p2 n :
  (forall t f s, bk p1 n t f s = bk p2 n t f s) ->
  forall rows t, usmooth_loop bk p1 n t rows = usmooth_loop bk p2 n t rows.
Proof.
move=> H; elim=> [//|r rows IH] t; case: rows IH => [//|r' rows] IH.
by rewrite -[LHS]/(bind (usmooth_loop bk p1 n t.+1 (r' :: rows)) _) IH; apply: bind_ext => ss; case: ss => [|s ss] //=; rewrite H.
Qed.
Lemma first_param (dflt : pyfun R) o h hs : seed_ok (o_rs o) ->
  let p fs := uinit_value dflt (with_f o (Some fs)) in
  (forall t, fun_at (u_f (p (F1 (h :: hs)))) t = fun_at (u_f (p (F0 h))) t) /\
  (forall fs, uinitialize dflt (with_f o (Some fs)) = Ok (p fs)).
Proof. by move=> Hs p; split=> // fs; exact: uinitializeE. Qed.

Lemma add_step_first o h hs n t prev z :
  let p fs := uinit_value (@add_default R) (with_f o (Some fs)) in
  add_step (p (F1 (h :: hs))) n t prev z = add_step (p (F0 h)) n t prev z.
Proof. by []. Qed.
Lemma aug_step_first o h hs n t prev z :
  let p fs := uinit_value (@aug_default R) (with_f o (Some fs)) in
  aug_step (p (F1 (h :: hs))) n t prev z = aug_step (p (F0 h)) n t prev z.
Proof. by []. Qed.

Lemma only_first o h hs X : seed_ok (o_rs o) ->
  let o' fs := with_f o (Some fs) in
  [/\ aukf_filter (o' (F1 (h :: hs))) X = aukf_filter (o' (F0 h)) X,
      aukf_smooth (o' (F1 (h :: hs))) X = aukf_smooth (o' (F0 h)) X,
      ukf_filter (o' (F1 (h :: hs))) X = ukf_filter (o' (F0 h)) X &
      ukf_smooth (o' (F1 (h :: hs))) X = ukf_smooth (o' (F0 h)) X].
Proof.
move=> Hs o'.
have [_ I1] := first_param (@add_default R) h hs Hs; have [_ I2] := first_param (@aug_default R) h hs Hs.
have E1 Y : aukf_filter (o' (F1 (h :: hs))) Y = aukf_filter (o' (F0 h)) Y.
  rewrite /aukf_filter /ufilter_with; case: (parse_observations Y) => k zs; rewrite !I1 !bO.
  by apply: bind_ext => n; apply: uloop_ext => t prev z; exact: add_step_first.
have E2 Y : ukf_filter (o' (F1 (h :: hs))) Y = ukf_filter (o' (F0 h)) Y.
  rewrite /ukf_filter /ufilter_with; case: (parse_observations Y) => k zs; rewrite !I2 !bO.
  by apply: bind_ext => n; apply: uloop_ext => t prev z; exact: aug_step_first.
split=> //.
- rewrite /aukf_smooth !I1 !bO E1; apply: bind_ext => rows; apply: bind_ext => n.
  by apply: usmooth_ext.
- rewrite /ukf_smooth; case: (parse_observations X) => k zs; rewrite !I2 !bO E2; apply: bind_ext => rows; apply: bind_ext => n.
  by apply: usmooth_ext.
Qed.

Lemma only_first_g o h hs X : seed_ok (o_rs o) ->
  let o' fs := with_g o (Some fs) in
  aukf_filter (o' (F1 (h :: hs))) X = aukf_filter (o' (F0 h)) X /\
  ukf_filter (o' (F1 (h :: hs))) X = ukf_filter (o' (F0 h)) X.
Proof.
move=> Hs o'; have I d fs : uinitialize d (with_g o (Some fs)) = Ok (uinit_value d (with_g o (Some fs))) by exact: uinitializeE.
split; rewrite /aukf_filter /ukf_filter /ufilter_with; case: (parse_observations X) => k zs; rewrite !I !bO;
by apply: bind_ext => n; apply: uloop_ext.
Qed.

(** Python functions standing for given mathematical ones: they check the
    number and the dimensions of their arguments *)
Definition pyf1 n p (f : 'cV[R]_n -> 'cV[R]_p) : pyfun R := fun args =>
  match args with
  | [:: @A1 _ k x] => match k =P n with
                      | ReflectT E => Ok (A1 (f (castmx (E, erefl 1%N) x)))
                      | ReflectF _ => Err ValueError
                      end
  | _ => Err TypeError
  end.
Definition pyf2 n q p (f : 'cV[R]_n -> 'cV[R]_q -> 'cV[R]_p) : pyfun R := fun args =>
  match args with
  | [:: @A1 _ k x; @A1 _ l w] =>
      match k =P n, l =P q with
      | ReflectT E, ReflectT E' => Ok (A1 (f (castmx (E, erefl 1%N) x) (castmx (E', erefl 1%N) w)))
      | _, _ => Err ValueError
      end
  | _ => Err TypeError
  end.
Lemma pyf1E n p (f : 'cV[R]_n -> 'cV[R]_p) : fun1 (pyf1 f) f.
Proof. by move=> x; rewrite /pyf1; case: eqP => // E; rewrite castmx_id. Qed.
Lemma pyf2E n q p (f : 'cV[R]_n -> 'cV[R]_q -> 'cV[R]_p) : fun2 (pyf2 f) f.
Proof. by move=> x w; rewrite /pyf2; case: eqP => // E; case: eqP => // E'; rewrite !castmx_id. Qed.

Lemma fgives_rows A (Rel : pyfun R -> A -> Prop) (f : nat -> A) (F : A -> pyfun R) T :
  (forall a, Rel (F a) a) -> fgives Rel (F2 [seq [:: F (f t)] | t <- iota 0 T]) T f.
Proof.
by move=> H t tT; rewrite (nth_map 0%N) ?size_iota // nth_iota // add0n; exact: H.
Qed.
(** an object with the given functions and moments, functions passed as two-dimensional arrays *)
Definition ukf_of n m AF AG (F : AF -> pyfun R) (G : AG -> pyfun R) T (f : nat -> AF) (g : nat -> AG)
    (Q : 'M[R]_n) (Rn : 'M[R]_m) (mu0 : 'cV[R]_n) (P0 : 'M[R]_n) (rs : option rspec) : ukf R :=
  UKF (Some (F2 [seq [:: F (f t)] | t <- iota 0 T.-1])) (Some (F2 [seq [:: G (g t)] | t <- iota 0 T]))
    (Some (A2 Q)) (Some (A2 Rn)) (Some (A1 mu0)) (Some (A2 P0)) n m rs.
Lemma aukf_of_model n m T (f : nat -> 'cV[R]_n -> 'cV[R]_n) (g : nat -> 'cV[R]_n -> 'cV[R]_m) Q Rn mu0 P0 rs : seed_ok rs ->
  aukf_model (ukf_of (@pyf1 n n) (@pyf1 n m) T f g Q Rn mu0 P0 rs) T f g Q Rn mu0 P0.
Proof. by move=> Hrs; split=> //; apply: fgives_rows => a; exact: pyf1E. Qed.
Lemma ukf_of_model n m T (f : nat -> 'cV[R]_n -> 'cV[R]_n -> 'cV[R]_n) (g : nat -> 'cV[R]_n -> 'cV[R]_m -> 'cV[R]_m) Q Rn mu0 P0 rs :
  seed_ok rs -> ukf_model (ukf_of (@pyf2 n n n) (@pyf2 n m m) T f g Q Rn mu0 P0 rs) T f g Q Rn mu0 P0.
Proof. by move=> Hrs; split=> //; apply: fgives_rows => a; exact: pyf2E. Qed.

End Props.
