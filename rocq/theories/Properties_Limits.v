(** Property theorems that delimit C22, C27, C28, C29, C36 and C43. *)
From Coq Require Import String List.
From mathcomp Require Import all_ssreflect all_algebra.
From Verif Require Import Prelude LinAlg Numpy Sklearn Standard Model KfSpec GaussSpec EmSpec Rng Sqrt Cholesky Bierman Unscented UscSpec
  SqrtUnscented StandardInit StandardFacts KfGlue UscSampleSpec UscProps ExamplesUsc UscInit Refute EmNeg.
Import GRing.Theory Num.Theory.

Set Implicit Arguments.
Unset Strict Implicit.
Unset Printing Implicit Defensive.
Local Open Scope ring_scope.

(** ** C22: false when an estimated parameter was given per time step.
    Three scalar observations, all present, all covariances equal to 1, only
    the transition offsets estimated: the likelihood strictly decreases,
    whatever the logarithm. *)
Theorem C22_time_varying_refuted (R : rcfType) (ln : R -> R) (ln2pi : R) (Hln : multiplicative_log ln) :
  exists (o o' : kf R) (M M' : lgm R 1 1) (zs : seq (orow R 1)) ev l l',
    [/\ kf_model o 3 M /\ pd_model (fun _ => false) 3 M, kf_em o (O2 1 zs) 1 ev = (o', Ok tt),
        kf_model o' 3 M' /\ pd_model (fun _ => false) 3 M', kf_loglikelihood ln ln2pi o (O2 1 zs) = Ok l &
        kf_loglikelihood ln ln2pi o' (O2 1 zs) = Ok l' /\ l' < l].
Proof. exact: (em_decreases_ex ln2pi Hln). Qed.
Print Assumptions C22_time_varying_refuted.

Example C22_log_hypothesis_met (R : rcfType) : multiplicative_log (fun _ : R => 0).
Proof. by move=> a b _ _; rewrite addr0. Qed.

(** ** C27: false for singular observation noise.
    A scalar state observed twice without noise; the two readings disagree. *)
Theorem C27_singular_noise_refuted (R : rcfType) :
  exists (M : lgm R 1 2) (N : 'M[R]_2) (o o' : kf R) (zs zs' : seq (orow R 2)) rows rows',
  [/\ psd_model M 2 /\ N \in unitmx, kf_model o 2 M /\ kf_model o' 2 (recode_model M N 0), size zs = 2%N /\ recoded N 0 zs zs' &
      [/\ kf_filter o (O2 2 zs) = Ok rows, kf_filter o' (O2 2 zs') = Ok rows' & rows <> rows']].
Proof. exact: recode_singular. Qed.
Print Assumptions C27_singular_noise_refuted.

(** ** C28, C29: false for covariances that vary with time.
    All covariances positive definite; KalmanFilter succeeds. *)
Theorem C28_varying_covariance_refuted (R : rcfType) (qr : qr_fun R) :
  exists (o : kf R) (M : lgm R 1 1) (zs : seq (orow R 1)),
  [/\ kf_model o 3 M /\ pd_model (fun _ => false) 3 M, size zs = 3%N, is_ok (kf_filter o (O2 1 zs)) &
      ckf_filter qr o (O2 1 zs) = Err ValueError].
Proof. exact: ch_varying_refuted. Qed.
Print Assumptions C28_varying_covariance_refuted.

Theorem C29_varying_covariance_rejected (R : rcfType) n m (o : kf R) T (M : lgm R n m) a b (s : seq 'M[R]_(a, b)) k
    (zs : seq (orow R k)) (n0 : (0 < n)%N) (Ho : kf_model o T M) (HP : psd (mP M)) (Hs : k_oc o = Some (A3 s)) :
  bkf_filter o (O2 k zs) = Err ValueError.
Proof. exact: (bi_varying_oc zs n0 Ho HP Hs). Qed.
Print Assumptions C29_varying_covariance_rejected.

Theorem C29_varying_covariance_refuted (R : rcfType) :
  exists (o : kf R) (M : lgm R 1 1) (zs : seq (orow R 1)),
  [/\ kf_model o 3 M /\ pd_model (fun _ => false) 3 M, size zs = 3%N, is_ok (kf_filter o (O2 1 zs)) &
      bkf_filter o (O2 1 zs) = Err ValueError].
Proof. exact: bi_varying_refuted. Qed.
Print Assumptions C29_varying_covariance_refuted.

(** ** C36: UnscentedKalmanFilter *)
Theorem C36_augmented_invalid_rejected (R : rcfType) G (rl : rng_lib R G) n m (o : ukf R) T T' f g (Q : 'M[R]_n) (V : 'M[R]_m)
    mu0 P0 x0 w (HM : ukf_model o T f g Q V mu0 P0) :
  ukf_sample rl o T' x0 (Some RsOther) w = (w, Err AttributeError) /\
  forall z : int, ~~ ((0 <= z) && (z < 2%:R ^+ 32)) -> ukf_sample rl o T' x0 (Some (RsSeed z)) w = (w, Err ValueError).
Proof. exact: (ukf_rejects rl T' x0 w HM). Qed.
Print Assumptions C36_augmented_invalid_rejected.

Example C36_augmented_hypotheses_met (R : rcfType) :
  exists f g (Q V : 'M[R]_2) mu0 P0, ukf_model (aug_o R) 3 f g Q V mu0 P0.
Proof. by do 6 eexists; exact: aug_o_model. Qed.

(** ** C43: one column is accepted by filters of two-dimensional observations *)
Theorem C43_augmented_one_column_refuted (R : rcfType) : exists (o : ukf R) (zs : seq (orow R 1)),
  [/\ o_m o = 2%N, has (fun z : orow R 1 => ~~ missing z) zs & is_ok (ukf_filter o (O2 1 zs))].
Proof. exact: one_column_accepted_aug. Qed.
Print Assumptions C43_augmented_one_column_refuted.

Theorem C43_sqrt_unscented_one_column_refuted (R : rcfType) (qr : qr_fun R) (Hqr : qr_valid qr) :
  exists (o : ukf R) (zs : seq (orow R 1)),
  [/\ o_m o = 2%N, has (fun z : orow R 1 => ~~ missing z) zs & is_ok (sukf_filter qr o (O2 1 zs))].
Proof. exact: (one_column_accepted_sqrt Hqr). Qed.
Print Assumptions C43_sqrt_unscented_one_column_refuted.
