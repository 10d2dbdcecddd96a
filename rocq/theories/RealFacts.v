(** The logarithm of the density of the normal distribution. *)
From Coq Require Import Reals Lra.
From mathcomp Require Import all_ssreflect all_algebra.
From Verif Require Import Prelude LinAlg Numpy Sklearn Standard Model KfSpec SpecL2 GaussSpec.
From Verif Require Import StandardFacts KfStruct KfStruct2 KfOptimal KfModelFacts KfOnline KfEm KfEquiv KfLoglik KfJoint KfGlue KfStackR
  Joint RealInstance RealSpec.
Import GRing.Theory Num.Theory.

Set Implicit Arguments.
Unset Strict Implicit.
Unset Printing Implicit Defensive.

Lemma natr_INR n : (n%:R : R_rcfType)%R = INR n.
Proof.
elim: n => [|n IH] //; rewrite mulrSr IH S_INR //.
Qed.
Lemma invr2 : (2%:R^-1 : R_rcfType)%R = Rinv (IZR 2).
Proof.
have H : (2%:R : R_rcfType)%R = IZR 2 by rewrite natr_INR /=.
rewrite H /GRing.inv /= /rinv; case: eqP => // E; exfalso; lra.
Qed.

Lemma exp_logpdf n (x mu : 'cV[R_rcfType]_n) (S : 'M[R_rcfType]_n) : (0 < \det S)%R ->
  exp (gauss_logpdf (ln : R_rcfType -> R_rcfType) (ln (Rmult (IZR 2) PI)) x mu S) = gauss_density x mu S.
Proof.
move=> /rltP Hd; rewrite /gauss_logpdf /gauss_density.
set q := qf _ _; set d := (\det S)%R in Hd *; set p := Rmult _ PI.
have Hp : Rlt R0 p by rewrite /p; have := PI_RGT_0; lra.
have -> : (- 2%:R^-1 * (q + n%:R * ln p + ln d) : R_rcfType)%R
        = Rplus (Ropp (Rdiv q (IZR 2))) (Ropp (Rdiv (Rplus (Rmult (INR n) (ln p)) (ln d)) (IZR 2))).
  by rewrite invr2 natr_INR /GRing.mul /GRing.add /GRing.opp /= /Rdiv; ring.
have Hpn : Rlt R0 (pow p n) by exact: pow_lt.
have -> : Rplus (Rmult (INR n) (ln p)) (ln d) = ln (Rmult (pow p n) d).
  rewrite ln_mult //; congr (Rplus _ _).
  elim: (n) => [|k IH]; first by rewrite /= ln_1; ring.
  by rewrite S_INR /= ln_mult //; [rewrite -IH; ring|exact: pow_lt].
set y := Rmult _ d; have Hy : Rlt R0 y by exact: Rmult_lt_0_compat.
rewrite exp_plus /Rdiv; congr (Rmult _ _); rewrite exp_Ropp; congr Rinv.
have -> : Rmult (ln y) (Rinv (IZR 2)) = ln (sqrt y); last by rewrite exp_ln //; exact: sqrt_lt_R0.
have E : ln y = Rplus (ln (sqrt y)) (ln (sqrt y)).
  rewrite -ln_mult ?sqrt_sqrt //; by [lra|exact: sqrt_lt_R0].
rewrite E; lra.
Qed.

Lemma loglik_density n m (o : kf R_rcfType) T (M : lgm R_rcfType n m)
    (Ho : kf_model o T M) (Hc : const2 (k_oc o)) (mis : nat -> bool) (Hk : (T != 1%N) || (m <= 1)%N)
    (Sp : l2space R_rcfType) x z w v (Hob : obeys (Sp := Sp) M T x z w v)
    (d : nat -> 'cV[R_rcfType]_m) zs (Hd : rows_of T mis d zs) :
  let Z om := stack_obs mis (fun t => z t om) T in
  pd (cov Z Z) -> exists l,
  kf_loglikelihood (ln : R_rcfType -> R_rcfType) (ln (Rmult (IZR 2) PI)) o (O2 m zs) = Ok l /\
  exp l = gauss_density (stack_obs mis d T) (mean Z) (cov Z Z).
Proof.
move=> Z HZ; eexists; split.
  exact: (loglik_joint Ho Hc Hk (ln (Rmult (IZR 2) PI)) ln_multiplicative Hob Hd HZ).
exact: exp_logpdf (det_pd HZ).
Qed.
