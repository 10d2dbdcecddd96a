(** Specification vocabulary for the square-root filters. *)
From mathcomp Require Import all_ssreflect all_algebra.
From Verif Require Import Prelude LinAlg Numpy Sklearn Standard Model.
Import GRing.Theory Num.Theory.

Set Implicit Arguments.
Unset Strict Implicit.
Unset Printing Implicit Defensive.
Local Open Scope ring_scope.

Section SqrtSpec.
Variable R : rcfType.

(** the covariance attribute is constant in time and, after promotion, equal to
    [X]; when omitted, [X] is the identity *)
Definition cov_is n (a : option (arr R)) (X : 'M[R]_n) : Prop :=
  attr a (fun v => as_mat v = A2 X) (X = 1%:M).

(** the object is parameterised by [M], the noise covariances are constant,
    symmetric positive definite, and so is the initial covariance *)
Record pd_kf n m (o : kf R) (T : nat) (M : lgm R n m) : Prop := PdKf {
  pk_model : kf_model o T M;
  pk_tc : exists2 Q : 'M[R]_n, cov_is (k_tc o) Q & pd Q;
  pk_oc : exists2 Rc : 'M[R]_m, cov_is (k_oc o) Rc & pd Rc;
  pk_ic : pd (mP M) }.

(** same with positive semidefinite state covariances *)
Record psd_kf n m (o : kf R) (T : nat) (M : lgm R n m) : Prop := PsdKf {
  sk_model : kf_model o T M;
  sk_tc : exists2 Q : 'M[R]_n, cov_is (k_tc o) Q & psd Q;
  sk_oc : exists2 Rc : 'M[R]_m, cov_is (k_oc o) Rc & pd Rc;
  sk_ic : psd (mP M) }.
End SqrtSpec.
