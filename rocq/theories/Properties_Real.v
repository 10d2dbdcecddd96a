(** C04, C21, C22 over the real numbers of the standard library (RealInstance.v)
    with the natural logarithm.  The other theorems hold over every real closed
    field; these depend on the standard library's axioms listed below each. *)
From Coq Require Import Reals.
From mathcomp Require Import all_ssreflect all_algebra.
From Verif Require Import Prelude LinAlg Numpy Sklearn Standard Model KfSpec SpecL2 GaussSpec KfStackR.
From Verif Require Import RealInstance RealSpec RealFacts.

Set Implicit Arguments.
Unset Strict Implicit.
Unset Printing Implicit Defensive.

(** exp of loglikelihood is the density of the normal distribution with the
    mean and covariance of the observations, at the data; the hypotheses are met
    by C04_hypotheses_met at R_rcfType *)
Theorem C04_density_over_the_reals n m (o : kf R_rcfType) T (M : lgm R_rcfType n m)
    (Ho : kf_model o T M) (Hc : const2 (k_oc o)) (mis : nat -> bool) (Hk : (T != 1%N) || (m <= 1)%N)
    (Sp : l2space R_rcfType) x z w v (Hob : obeys (Sp := Sp) M T x z w v)
    (d : nat -> 'cV[R_rcfType]_m) zs (Hd : rows_of T mis d zs) :
  let Z om := stack_obs mis (fun t => z t om) T in
  pd (cov Z Z) -> exists l,
  kf_loglikelihood (ln : R_rcfType -> R_rcfType) (ln (Rmult (IZR 2) PI)) o (O2 m zs) = Ok l /\
  exp l = gauss_density (stack_obs mis d T) (mean Z) (cov Z Z).
Proof. exact (loglik_density Ho Hc Hk Hob Hd). Qed.
Print Assumptions C04_density_over_the_reals.

(** the natural logarithm has the properties assumed of [ln] *)
Theorem C22_logarithm_exists :
  multiplicative_log (ln : R_rcfType -> R_rcfType) /\ concave_log (ln : R_rcfType -> R_rcfType).
Proof. exact: (conj ln_multiplicative ln_concave). Qed.
Print Assumptions C22_logarithm_exists.
