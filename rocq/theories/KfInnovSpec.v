(** Specification: one-step predictions and innovations (no code of the project). *)
From mathcomp Require Import all_ssreflect all_algebra.
From Verif Require Import LinAlg Numpy Model.
Import GRing.Theory Num.Theory.

Set Implicit Arguments.
Unset Strict Implicit.
Unset Printing Implicit Defensive.
Local Open Scope ring_scope.

Section Spec.
Variables (R : rcfType) (n m : nat) (M : lgm R n m).
(** state predicted for time [t] from the estimate [xh] for the previous time *)
Definition one_step (xh : nat -> 'cV[R]_n) t : 'cV[R]_n := if t is t'.+1 then mA M t' *m xh t' + mb M t' else mmu M.
Definition one_step_cov (P : nat -> 'M[R]_n) t : 'M[R]_n := if t is t'.+1 then mA M t' *m P t' *m (mA M t')^T + mQ M t' else mP M.
(** error of the prediction of the observation [z t] *)
Definition innovation (xh : nat -> 'cV[R]_n) (z : nat -> 'cV[R]_m) t : 'cV[R]_m := z t - (mC M t *m one_step xh t + md M t).
End Spec.
