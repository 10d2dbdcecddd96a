(** Specification of the results of the unscented filters in other units. *)
From mathcomp Require Import all_ssreflect all_algebra.
From Verif Require Import Prelude LinAlg Numpy Unscented.
Import GRing.Theory Num.Theory.

Set Implicit Arguments.
Unset Strict Implicit.
Unset Printing Implicit Defensive.
Local Open Scope ring_scope.

Section Spec.
Variable R : rcfType.

(** a lower triangular change of coordinates with no zero on the diagonal: any
    choice of units and directions of the axes, and adding to a component a
    combination of the components before it *)
Definition units n (G : 'M[R]_n) : Prop := lower_tri G /\ forall i, G i i != 0.

(** both calls raise LinAlgError, or both return, the second in the coordinates [G x + h] *)
Definition same_in_units n (G : 'M[R]_n) (h : 'cV[R]_n) T (r r' : res (seq (moments R))) : Prop :=
  (r = Err LinAlgError /\ r' = Err LinAlgError) \/
  exists (mu : nat -> 'cV[R]_n) (S : nat -> 'M[R]_n),
    r = Ok [seq (A1 (mu t), A2 (S t)) | t <- iota 0 T] /\
    r' = Ok [seq (A1 (G *m mu t + h), A2 (G *m S t *m G^T)) | t <- iota 0 T].
End Spec.
