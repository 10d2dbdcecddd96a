(** C84: leaving out state components.  [reduces T W M M'] (RedSpec.v): [M'] is a
    model of the quantities [W x], on which alone their next values and the
    observations depend. *)
From Coq Require Import String List.
From mathcomp Require Import all_ssreflect all_algebra.
From Verif Require Import Prelude LinAlg Numpy Standard Model KfSpec StandardFacts RedSpec KfRed Examples.
Import GRing.Theory Num.Theory.

Set Implicit Arguments.
Unset Strict Implicit.
Unset Printing Implicit Defensive.
Local Open Scope ring_scope.

Theorem C84_filter_reduced (R : rcfType) n k m T (W : 'M[R]_(k, n)) (M : lgm R n m) (M' : lgm R k m) (zs : seq (orow R m)) (o o' : kf R)
    (HW : reduces T W M M') (Ho : kf_model o T M) (Ho' : kf_model o' T M') (Hsz : size zs = T) (Hk : keeps zs) :
  exists (x : nat -> 'cV[R]_n) (P : nat -> 'M[R]_n),
  kf_filter o (O2 m zs) = Ok [seq (A1 (x t), A2 (P t)) | t <- iota 0 T] /\
  kf_filter o' (O2 m zs) = Ok [seq (A1 (W *m x t), A2 (W *m P t *m W^T)) | t <- iota 0 T].
Proof. exact: (red_filter_api HW Ho Ho' Hsz Hk). Qed.
Print Assumptions C84_filter_reduced.

Theorem C84_smooth_reduced (R : rcfType) n k m T (W : 'M[R]_(k, n)) (M : lgm R n m) (M' : lgm R k m) (zs : seq (orow R m)) (o o' : kf R)
    (HW : reduces T W M M') (Ho : kf_model o T M) (Ho' : kf_model o' T M') (Hsz : size zs = T) (Hk : keeps zs)
    (HM : psd_model M T) (T0 : (0 < T)%N) :
  exists (x : nat -> 'cV[R]_n) (P : nat -> 'M[R]_n),
  kf_smooth o (O2 m zs) = Ok [seq (A1 (x t), A2 (P t)) | t <- iota 0 T] /\
  kf_smooth o' (O2 m zs) = Ok [seq (A1 (W *m x t), A2 (W *m P t *m W^T)) | t <- iota 0 T].
Proof. exact: (red_smooth_api HW Ho Ho' Hsz Hk HM T0). Qed.
Print Assumptions C84_smooth_reduced.

Theorem C84_loglikelihood_reduced (R : rcfType) n k m T (W : 'M[R]_(k, n)) (M : lgm R n m) (M' : lgm R k m) (zs : seq (orow R m))
    (o o' : kf R) (HW : reduces T W M M') (Ho : kf_model o T M) (Ho' : kf_model o' T M') (Hsz : size zs = T) (Hk : keeps zs)
    ln ln2pi (Hc : const2 (k_oc o)) (Hc' : const2 (k_oc o')) :
  kf_loglikelihood ln ln2pi o' (O2 m zs) = kf_loglikelihood ln ln2pi o (O2 m zs).
Proof. exact: (red_loglik HW Ho Ho' Hsz Hk ln ln2pi Hc Hc'). Qed.
Print Assumptions C84_loglikelihood_reduced.

(** a running sum of the state which nothing else depends on is left out; singular
    covariances, time-varying transition, a masked row *)
Example C84_hypotheses_met (R : rcfType) : let M := accum_model (ex_M R) in
  [/\ reduces 3 (row_mx 1%:M 0) M (ex_M R), kf_model (obj_of M 3 true) 3 M /\ const2 (k_oc (obj_of M 3 true)),
      kf_model (ex_o R) 3 (ex_M R) /\ const2 (k_oc (ex_o R)), psd_model M 3 & size (ex_zs R) = 3%N /\ keeps (ex_zs R)].
Proof.
split=> //; [exact: accum_reduces|split=> //; exact: obj_model|split=> //; exact: ex_model|].
by apply: accum_psd; exact: ex_psd.
Qed.
