(** Facts about byte orders and [sample]. *)
From Coq Require Import String List.
From mathcomp Require Import all_ssreflect all_algebra.
From mathcomp Require Import ring.
From Verif Require Import Prelude LinAlg Numpy NumpyFacts Sklearn SklearnFacts Standard Model StandardInit StandardFacts
  Rng Sample SampleSpec SampleFacts ByteOrder.
Import GRing.Theory Num.Theory Order.Theory.

Set Implicit Arguments.
Unset Strict Implicit.
Unset Printing Implicit Defensive.
Local Open Scope ring_scope.

Section Facts.
Variables (R : rcfType) (G : Type) (rl : rng_lib R G).

Lemma reads_unique m n (a : stored m n) (M M' : 'M[R]_(m, n)) : reads a M -> reads a M' -> M = M'.
Proof. by move=> H H'; apply/matrixP=> i j; have := H i j; rewrite H' => -[]. Qed.
Lemma native_same m n (a : stored m n) (M : 'M[R]_(m, n)) : st_order a = Little -> reads a M -> reads (newbyteorder a) M.
Proof. by move=> E H i j; rewrite -H /= E. Qed.

Lemma sample_storedE n m (o : kf R) (M : lgm R n m) (Q : 'M[R]_n) (V : 'M[R]_m) T x0 h w : kf_model o T M ->
  exists g' x z, trajectory rl M (fun=> Q) (fun=> V) T x0 (state_of rl h w) g' x z /\
    sample_stored rl o Q V T (omap (fun v : 'cV_n => A1 v) x0) h w =
    (after h w g', Ok [seq (A1 (x t), A1 (z t)) | t <- iota 0 T]).
Proof.
move=> HM; have Hp := kf_model_params HM.
pose M' := LGM (mA M) (mb M) (fun=> Q) (mC M) (md M) (fun=> V) (mmu M) (mP M).
pose g := state_of rl h w.
pose i : 'cV_n * G := if x0 is Some a then (a, g) else mvn rl (mmu M) (mP M) g.
rewrite /sample_stored initialize_parametersE; last exact: (km_rs HM).
set p := init_value o in Hp *; set p' := KFParams _ _ _ _ _ _ _ _.
have Hp' : params_model p' T M'.
  by case: Hp => *; split=> //; left; eexists.
exists (gs rl M' i.1 i.2 T), (xs rl M' i.1 i.2), (os rl M' i.1 i.2); split.
  have [[w1 [v1 [h1 [k1 [H1 H2 H3 H4]]]]]] :
      trajectory rl M' (fun=> Q) (fun=> V) T x0 g (gs rl M' i.1 i.2 T) (xs rl M' i.1 i.2) (os rl M' i.1 i.2).
    by apply: (@xs_trajectory _ _ rl n m M'); rewrite /i /M' /=; case: (x0) => //; case: (mvn _ _ _ _).
  by split; exists w1, v1, h1, k1; split.
apply: run_onE; rewrite -/g /sample_run.
apply: (etrans (@rbindE _ _ _ _ _ _ i.2 (A1 i.1) _)).
  rewrite /i; case: (x0) => [a|] //.
  by rewrite (pm_im Hp') (pm_ic Hp'); exact: mvnE.
exact: (sample_loop_ok rl Hp' i.1 i.2 (t := 0%N) (k := T)).
Qed.
End Facts.

(** one dimension, bytes of the number one in big-endian order *)
Section Swap.
Variable R : rcfType.
Definition bits8 (b7 b6 b5 b4 b3 b2 b1 b0 : bool) : byte := [:: b7; b6; b5; b4; b3; b2; b1; b0].
Definition one_be : seq byte :=
  bits8 false false true true true true true true :: bits8 true true true true false false false false ::
  nseq 6 (nseq 8 false).
Definition be1 : stored 1 1 := Stored Big (fun _ _ => one_be).
Definition le1 : stored 1 1 := Stored Little (fun _ _ => rev one_be).
Lemma two_neq0 k : 2%:R ^+ k != 0 :> R. Proof. by rewrite expf_neq0 // pnatr_eq0. Qed.
Lemma num_nat s : num_of_bits R s = (nat_of_bits s)%:R.
Proof.
have H : forall k : nat, foldl (fun a (b : bool) => 2%:R * a + b%:R) k%:R s =
    (foldl (fun a (b : bool) => (a.*2 + b)%N) k s)%:R :> R.
  by elim: s => //= b s IH k; rewrite -IH natrD -mul2n natrM.
exact: (H 0%N).
Qed.
Lemma f64_normal (s : seq bool) (e m : nat) : nth false s 0 = false -> nat_of_bits (take 11 (drop 1 s)) = e ->
  nat_of_bits (drop 12 s) = m -> e != 2047%N -> e != 0%N -> f64 R s = Some ((1 + m%:R / 2%:R ^+ 52) * 2%:R ^+ e / 2%:R ^+ 1023).
Proof. by rewrite /f64 num_nat => -> -> -> /negbTE -> /negbTE ->; rewrite mul1r. Qed.
Lemma f64_small (s : seq bool) (m : nat) : nth false s 0 = false -> nat_of_bits (take 11 (drop 1 s)) = 0%N ->
  nat_of_bits (drop 12 s) = m -> f64 R s = Some (m%:R / 2%:R ^+ 52 / 2%:R ^+ 1022).
Proof. by rewrite /f64 num_nat => -> -> -> ; rewrite mul1r. Qed.

Lemma one_beE : elem R Big one_be = Some 1.
Proof.
rewrite /elem (@f64_normal _ 1023 0) //.
by rewrite mul0r addr0 mul1r divff // two_neq0.
Qed.
Definition tiny : R := 61503%:R / 2%:R ^+ 52 / 2%:R ^+ 1022.
Lemma one_viewE : elem R Little one_be = Some tiny.
Proof. by rewrite /elem (@f64_small _ (16 * 3843 + 15)). Qed.
Lemma tiny_neq1 : tiny != 1.
Proof.
rewrite lt_eqF // /tiny -mulrA -invfM -exprD ltr_pdivr_mulr ?exprn_gt0 ?ltr0n // mul1r.
apply: (@lt_le_trans _ _ (2%:R ^+ 16)); last by apply: ler_weexpn2l => //; rewrite ler1n.
by rewrite -natrX ltr_nat.
Qed.

(** a random walk sampled from zero *)
Definition rw_o : kf R :=
  KF None None (Some (A2 (1%:M : 'M[R]_1))) (Some (A2 (1%:M : 'M[R]_1))) None None None None None None 1 1
    (EmNames default_em_vars).
Definition rw_M : lgm R 1 1 :=
  LGM (fun _ => 1%:M) (fun _ => 0) (fun _ => 1%:M) (fun _ => 1%:M) (fun _ => 0) (fun _ => 1%:M) 0 1%:M.
Lemma rw_model T : kf_model rw_o T rw_M.
Proof.
split=> //=; [by left; eexists| |by left; eexists].
by move=> t _; apply/matrixP=> i j; rewrite !mxE.
Qed.
Lemma be1_reads : reads be1 (1%:M : 'M[R]_1).
Proof. by move=> i j; rewrite /= one_beE !ord1 !mxE. Qed.
Lemma be1_view : reads (newbyteorder be1) (tiny%:M : 'M[R]_1).
Proof. by move=> i j; rewrite /= one_viewE !ord1 !mxE. Qed.
Lemma le1_reads : reads le1 (1%:M : 'M[R]_1).
Proof. by move=> i j; rewrite -[elem _ _ _]/(elem R Big one_be) one_beE !ord1 !mxE. Qed.
Lemma be1_sample (Q V : 'M[R]_1) (w : world unit) : reads (newbyteorder be1) Q -> reads (newbyteorder be1) V ->
  ~ exists g' x z, trajectory (det_lib R) rw_M (mQ rw_M) (mR rw_M) 2 (Some 0) tt g' x z /\
    sample_stored (det_lib R) rw_o Q V 2 (Some (A1 (0 : 'cV[R]_1))) HGlobal w =
    (after HGlobal w g', Ok [seq (A1 (x t), A1 (z t)) | t <- iota 0 2]).
Proof.
move=> /(reads_unique be1_view) <- _ [g' [x [z [[[ww [v [h [k [[H0 _] _ Hx _]]]]]] E]]]].
have [g1 [x1 [z1 [[[w1 [v1 [h1 [k1 [[H0' _] _ Hx' _]]]]]] E1]]]] :=
  sample_storedE (det_lib R) tiny%:M V (Some 0) HGlobal w (rw_model 2).
move: E1; rewrite [X in sample_stored _ _ _ _ _ X]/= E => E1.
have E2 : x 1%N 0 0 = x1 1%N 0 0.
  have E1' : [seq (A1 (x t), A1 (z t)) | t <- iota 0 2] = [seq (A1 (x1 t), A1 (z1 t)) | t <- iota 0 2].
    by exact: (f_equal (fun q => if q.2 is Ok s then s else [::]) E1).
  have := congr1 (fun s => getv (nth (A0 0, A0 0) s 1).1) E1'.
  by move=> q; rewrite -!getvE; exact: q.
have [Ew Ex] := Hx 0%N isT; have [Ew' Ex'] := Hx' 0%N isT.
move: E2; rewrite Ex Ex' H0 H0' /= !mulmx0 !addr0 !add0r.
have -> : ww 0%N 0 0 = 1.
  have := congr1 (fun q : 'cV[R]_1 * unit => q.1 0 0) Ew; rewrite /= mul1mx add0r !mxE; exact: esym.
have -> : w1 0%N 0 0 = tiny.
  have := congr1 (fun q : 'cV[R]_1 * unit => q.1 0 0) Ew'; rewrite /= mul_scalar_mx add0r !mxE mulr1; exact: esym.
by move=> /esym /eqP; rewrite (negbTE tiny_neq1).
Qed.
End Swap.

Section Glue.
Variables (R : rcfType) (G : Type) (rl : rng_lib R G).
Lemma sample_native n m (o : kf R) (M : lgm R n m) (tc : stored n n) (oc : stored m m) Q V T x0 h w :
  kf_model o T M -> (forall t, (t < T.-1)%N -> mQ M t = mQ M 0%N) -> (forall t, (t < T)%N -> mR M t = mR M 0%N) ->
  reads tc (mQ M 0%N) -> reads oc (mR M 0%N) -> st_order tc = Little -> st_order oc = Little ->
  reads (newbyteorder tc) Q -> reads (newbyteorder oc) V ->
  exists g' x z, trajectory rl M (mQ M) (mR M) T x0 (state_of rl h w) g' x z /\
    sample_stored rl o Q V T (omap (fun v : 'cV_n => A1 v) x0) h w =
    (after h w g', Ok [seq (A1 (x t), A1 (z t)) | t <- iota 0 T]).
Proof.
move=> HM HQ HR Hq Hr Lq Lr /(reads_unique (native_same Lq Hq)) <- /(reads_unique (native_same Lr Hr)) <-.
have [g' [x [z [H E]]]] := sample_storedE rl (mQ M 0%N) (mR M 0%N) x0 h w HM.
by exists g', x, z; split=> //; apply: trajectory_ext H => t tT; rewrite ?HQ ?HR.
Qed.
End Glue.
Lemma byte_order_refuted (R : rcfType) :
  exists (rl : rng_lib R unit) (o : kf R) (M : lgm R 1 1) (tc oc : stored 1 1),
  [/\ kf_model o 2 M, reads tc (mQ M 0%N) /\ reads oc (mR M 0%N),
      exists Q V : 'M[R]_1, reads (newbyteorder tc) Q /\ reads (newbyteorder oc) V &
      forall (Q V : 'M[R]_1) w, reads (newbyteorder tc) Q -> reads (newbyteorder oc) V ->
      ~ exists g' x z, trajectory rl M (mQ M) (mR M) 2 (Some 0) tt g' x z /\
        sample_stored rl o Q V 2 (Some (A1 (0 : 'cV[R]_1))) HGlobal w =
        (after HGlobal w g', Ok [seq (A1 (x t), A1 (z t)) | t <- iota 0 2])].
Proof.
exists (det_lib R), (rw_o R), (rw_M R), be1, be1; split; first exact: rw_model.
- by split; exact: be1_reads.
- by exists (tiny R)%:M, (tiny R)%:M; split; exact: be1_view.
- by move=> Q V w; exact: be1_sample.
Qed.
From Verif Require Import Unscented UscSpec UscProps ExamplesUsc.
Lemma same_draws_met (R : rcfType) (T : nat) (f := fun x : 'cV[R]_1 => 1%:M *m x + 0) :
  [/\ kf_model (rw_o R) T (rw_M R),
      aukf_model (walk (F0 (pyf1 f))) T (fun t x => mA (rw_M R) t *m x + mb (rw_M R) t)
        (fun t x => mC (rw_M R) t *m x + md (rw_M R) t) 1%:M 1%:M (mmu (rw_M R)) (mP (rw_M R)),
      ukf_model (walk (F0 (pyf2 (fun x w => f x + w)))) T (fun t x w => mA (rw_M R) t *m x + mb (rw_M R) t + w)
        (fun t x v => mC (rw_M R) t *m x + md (rw_M R) t + v) 1%:M 1%:M (mmu (rw_M R)) (mP (rw_M R)) &
      isSome (handle (if Some (RsSeed 7) is Some r then Some r else k_rs (rw_o R)))].
Proof.
split=> //; first exact: rw_model.
- split=> //=; first by move=> t _; exact: pyf1E.
  by move=> t _ x; rewrite mul1mx addr0.
- split=> //=; first by move=> t _; exact: pyf2E.
  by move=> t _ x v; rewrite mul1mx addr0 npE.
Qed.
