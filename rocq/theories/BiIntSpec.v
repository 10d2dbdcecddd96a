(** Vocabulary of the statements about integer arrays.  Nothing here is used by
    the code model. *)
From Coq Require Import String List.
From mathcomp Require Import all_ssreflect all_algebra.
From Verif Require Import Prelude LinAlg Numpy Sklearn Standard.
Import GRing.Theory Num.Theory.

Set Implicit Arguments.
Unset Strict Implicit.
Unset Printing Implicit Defensive.
Local Open Scope ring_scope.

Section Spec.
Variable R : rcfType.

(** all entries are integers of absolute value below [B] *)
Definition int_entries (B : nat) m n (M : 'M[R]_(m, n)) : Prop :=
  forall i j, exists k : nat, (k < B)%N /\ (M i j = k%:R \/ M i j = - k%:R).

(** zero off the diagonal *)
Definition diagonal n (M : 'M[R]_n) : Prop := forall i j : 'I_n, i != j -> M i j = 0.

(** the same object with another initial covariance, other observation matrices *)
Definition set_ic (o : kf R) (a : arr R) : kf R :=
  KF (k_tm o) (k_om o) (k_tc o) (k_oc o) (k_to o) (k_oo o) (k_im o) (Some a) (k_rs o) (k_em o) (k_n o) (k_m o) (k_em_ o).
Definition set_om (o : kf R) (a : arr R) : kf R :=
  KF (k_tm o) (Some a) (k_tc o) (k_oc o) (k_to o) (k_oo o) (k_im o) (k_ic o) (k_rs o) (k_em o) (k_n o) (k_m o) (k_em_ o).

(** [[a, b], [b, c]] *)
Definition sym2 (a b c : R) : 'M[R]_2 :=
  \matrix_(i, j) if (i == 0) && (j == 0) then a else if (i == 0) || (j == 0) then b else c.
End Spec.
