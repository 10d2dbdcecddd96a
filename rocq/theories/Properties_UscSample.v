(** Property theorems about sample of the unscented classes
    (pykalman/unscented.py:806-860, 1124-1176) and about the byte order of
    covariance arrays (pykalman/utils/_numpy.py). *)
From Coq Require Import String List.
From mathcomp Require Import all_ssreflect all_algebra.
From Verif Require Import Prelude LinAlg Numpy Sklearn Standard Model Rng Sample SampleSpec SampleFacts Unscented UscSpec
  UscInit UscSampleSpec UscSample UscProps ExamplesUsc ByteOrder BoFacts.
Import GRing.Theory Num.Theory.

Set Implicit Arguments.
Unset Strict Implicit.
Unset Printing Implicit Defensive.
Local Open Scope ring_scope.

(** ** C34 *)
Theorem C34_additive_unscented_sample (R : rcfType) G (rl : rng_lib R G) n m (o : ukf R) T f g (Q : 'M[R]_n) (V : 'M[R]_m)
    mu0 P0 x0 rs h w (HM : aukf_model o T f g Q V mu0 P0) :
  handle (if rs is Some r then Some r else o_rs o) = Some h ->
  exists s' x z, utrajectory rl (noisy f) (noisy g) Q V mu0 P0 T x0 (state_of rl h w) s' x z /\
    aukf_sample rl o T (omap (fun v : 'cV_n => A1 v) x0) rs w =
    (after h w s', Ok [seq (A1 (x t), A1 (z t)) | t <- iota 0 T]).
Proof. exact: (aukf_sampleE rl x0 w HM). Qed.
Print Assumptions C34_additive_unscented_sample.

Theorem C34_unscented_sample (R : rcfType) G (rl : rng_lib R G) n m (o : ukf R) T f g (Q : 'M[R]_n) (V : 'M[R]_m)
    mu0 P0 x0 rs h w (HM : ukf_model o T f g Q V mu0 P0) :
  handle (if rs is Some r then Some r else o_rs o) = Some h ->
  exists s' x z, utrajectory rl f g Q V mu0 P0 T x0 (state_of rl h w) s' x z /\
    ukf_sample rl o T (omap (fun v : 'cV_n => A1 v) x0) rs w =
    (after h w s', Ok [seq (A1 (x t), A1 (z t)) | t <- iota 0 T]).
Proof. exact: (ukf_sampleE rl x0 w HM). Qed.
Print Assumptions C34_unscented_sample.

(** the specification determines the draws *)
Theorem C34_trajectory_unique (R : rcfType) G (rl : rng_lib R G) n m f g (Q : 'M[R]_n) (V : 'M[R]_m) mu0 P0
    T x0 s s1 x1 z1 s2 x2 z2 :
  utrajectory rl f g Q V mu0 P0 T x0 s s1 x1 z1 -> utrajectory rl f g Q V mu0 P0 T x0 s s2 x2 z2 ->
  s1 = s2 /\ forall t, (t < T)%N -> x1 t = x2 t /\ z1 t = z2 t.
Proof. exact: utrajectory_unique. Qed.
Print Assumptions C34_trajectory_unique.

(** ** C36 *)
Theorem C36_unscented_seeded_calls_repeat (R : rcfType) G (rl : rng_lib R G) (o : ukf R) T x0 rs z w w' :
  (if rs is Some r then Some r else o_rs o) = Some (RsSeed z) ->
  [/\ (aukf_sample rl o T x0 rs w).2 = (aukf_sample rl o T x0 rs w').2, (aukf_sample rl o T x0 rs w).1 = w,
      (ukf_sample rl o T x0 rs w).2 = (ukf_sample rl o T x0 rs w').2 & (ukf_sample rl o T x0 rs w).1 = w].
Proof. exact: unscented_seeded. Qed.
Print Assumptions C36_unscented_seeded_calls_repeat.

Theorem C36_unscented_frame (R : rcfType) G (rl : rng_lib R G) (o : ukf R) T x0 rs w (w1 : world G) :
  w1 = (aukf_sample rl o T x0 rs w).1 \/ w1 = (ukf_sample rl o T x0 rs w).1 ->
  match (if rs is Some r then Some r else o_rs o) with
  | None | Some RsModule => w_inst w1 = w_inst w
  | Some (RsGen i) => w_global w1 = w_global w /\ forall j, j != i -> w_inst w1 j = w_inst w j
  | _ => w1 = w
  end.
Proof. exact: unscented_frame. Qed.
Print Assumptions C36_unscented_frame.

Theorem C36_unscented_invalid_rejected (R : rcfType) G (rl : rng_lib R G) n m (o : ukf R) T T' f g (Q : 'M[R]_n) (V : 'M[R]_m)
    mu0 P0 x0 w (HM : aukf_model o T f g Q V mu0 P0) :
  aukf_sample rl o T' x0 (Some RsOther) w = (w, Err AttributeError) /\
  forall z : int, ~~ ((0 <= z) && (z < 2%:R ^+ 32)) -> aukf_sample rl o T' x0 (Some (RsSeed z)) w = (w, Err ValueError).
Proof. exact: (aukf_rejects rl T' x0 w HM). Qed.
Print Assumptions C36_unscented_invalid_rejected.

Example C34_unscented_hypotheses_met (R : rcfType) : exists (o : ukf R) T f g (Q V : 'M[R]_2) mu0 P0,
  aukf_model o T f g Q V mu0 P0 /\ handle (if Some (RsSeed 7) is Some r then Some r else o_rs o) = Some (HFresh 7).
Proof. by do 8 eexists; split; first exact: add_o_model. Qed.

(** ** C51 *)
Theorem C51_values_used (R : rcfType) G (rl : rng_lib R G) n m (o : kf R) (M : lgm R n m) (Q : 'M[R]_n) (V : 'M[R]_m) T x0 h w
    (HM : kf_model o T M) :
  exists g' x z, trajectory rl M (fun=> Q) (fun=> V) T x0 (state_of rl h w) g' x z /\
    sample_stored rl o Q V T (omap (fun v : 'cV_n => A1 v) x0) h w =
    (after h w g', Ok [seq (A1 (x t), A1 (z t)) | t <- iota 0 T]).
Proof. exact: (sample_storedE rl Q V x0 h w HM). Qed.
Print Assumptions C51_values_used.

Theorem C51_native_order_partial (R : rcfType) G (rl : rng_lib R G) n m (o : kf R) (M : lgm R n m) (tc : stored n n) (oc : stored m m)
    Q V T x0 h w (HM : kf_model o T M)
    (HQ : forall t, (t < T.-1)%N -> mQ M t = mQ M 0%N) (HR : forall t, (t < T)%N -> mR M t = mR M 0%N)
    (Htc : reads tc (mQ M 0%N)) (Hoc : reads oc (mR M 0%N)) (Ltc : st_order tc = Little) (Loc : st_order oc = Little) :
  reads (newbyteorder tc) Q -> reads (newbyteorder oc) V ->
  exists g' x z, trajectory rl M (mQ M) (mR M) T x0 (state_of rl h w) g' x z /\
    sample_stored rl o Q V T (omap (fun v : 'cV_n => A1 v) x0) h w =
    (after h w g', Ok [seq (A1 (x t), A1 (z t)) | t <- iota 0 T]).
Proof. exact: (sample_native rl x0 h w HM HQ HR Htc Hoc Ltc Loc). Qed.
Print Assumptions C51_native_order_partial.

(** Refuted for arrays in the other byte order: the bytes are reinterpreted,
    not swapped, so the noise has another covariance. *)
Theorem C51_byte_order_refuted (R : rcfType) :
  exists (rl : rng_lib R unit) (o : kf R) (M : lgm R 1 1) (tc oc : stored 1 1),
  [/\ kf_model o 2 M, reads tc (mQ M 0%N) /\ reads oc (mR M 0%N),
      exists Q V : 'M[R]_1, reads (newbyteorder tc) Q /\ reads (newbyteorder oc) V &
      forall (Q V : 'M[R]_1) w, reads (newbyteorder tc) Q -> reads (newbyteorder oc) V ->
      ~ exists g' x z, trajectory rl M (mQ M) (mR M) 2 (Some 0) tt g' x z /\
        sample_stored rl o Q V 2 (Some (A1 (0 : 'cV[R]_1))) HGlobal w =
        (after HGlobal w g', Ok [seq (A1 (x t), A1 (z t)) | t <- iota 0 2])].
Proof. exact: byte_order_refuted. Qed.
Print Assumptions C51_byte_order_refuted.

Example C51_hypotheses_met (R : rcfType) : [/\ kf_model (rw_o R) 5 (rw_M R), reads le1 (mQ (rw_M R) 0%N),
  st_order le1 = Little & reads (newbyteorder le1) (1%:M : 'M[R]_1)].
Proof. by split; [exact: rw_model | exact: le1_reads | | exact: le1_reads]. Qed.

(** ** C52 *)
Theorem C52_classes_draw_the_same (R : rcfType) G (rl : rng_lib R G) n m (M : lgm R n m) T (Q : 'M[R]_n) (V : 'M[R]_m)
    (EQ : forall t, (t < T.-1)%N -> mQ M t = Q) (ER : forall t, (t < T)%N -> mR M t = V)
    (o : kf R) (oa ou : ukf R) x0 rs w
    (HK : kf_model o T M)
    (HA : aukf_model oa T (fun t x => mA M t *m x + mb M t) (fun t x => mC M t *m x + md M t) Q V (mmu M) (mP M))
    (HU : ukf_model ou T (fun t x w => mA M t *m x + mb M t + w) (fun t x v => mC M t *m x + md M t + v)
            Q V (mmu M) (mP M)) :
  o_rs oa = k_rs o -> o_rs ou = k_rs o -> isSome (handle (if rs is Some r then Some r else k_rs o)) ->
  let x0' := omap (fun v : 'cV_n => A1 v) x0 in
  aukf_sample rl oa T x0' rs w = kf_sample rl o T x0' rs w /\
  ukf_sample rl ou T x0' rs w = kf_sample rl o T x0' rs w.
Proof. exact: (linear_samples rl EQ ER x0 w HK HA HU). Qed.
Print Assumptions C52_classes_draw_the_same.

Example C52_hypotheses_met (R : rcfType) (T : nat) (f := fun x : 'cV[R]_1 => 1%:M *m x + 0) :
  [/\ kf_model (rw_o R) T (rw_M R),
      aukf_model (walk (F0 (pyf1 f))) T (fun t x => mA (rw_M R) t *m x + mb (rw_M R) t)
        (fun t x => mC (rw_M R) t *m x + md (rw_M R) t) 1%:M 1%:M (mmu (rw_M R)) (mP (rw_M R)),
      ukf_model (walk (F0 (pyf2 (fun x w => f x + w)))) T (fun t x w => mA (rw_M R) t *m x + mb (rw_M R) t + w)
        (fun t x v => mC (rw_M R) t *m x + md (rw_M R) t + v) 1%:M 1%:M (mmu (rw_M R)) (mP (rw_M R)) &
      isSome (handle (if Some (RsSeed 7) is Some r then Some r else k_rs (rw_o R)))].
Proof. exact: same_draws_met. Qed.
