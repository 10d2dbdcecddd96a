(** Specification: combinations of inputs, and states measured from a moving
    origin (no code of the project). *)
From mathcomp Require Import all_ssreflect all_fingroup all_algebra.
From Verif Require Import Prelude LinAlg Numpy Standard Model.
Import GRing.Theory Num.Theory.

Set Implicit Arguments.
Unset Strict Implicit.
Unset Printing Implicit Defensive.
Local Open Scope ring_scope.

Section Spec.
Variables (R : rcfType) (n m : nat) (M : lgm R n m).

(** the model [M] with other offsets and another initial mean *)
Definition with_means (b : nat -> 'cV[R]_n) (d : nat -> 'cV[R]_m) (mu : 'cV[R]_n) : lgm R n m :=
  LGM (mA M) b (mQ M) (mC M) d (mR M) mu (mP M).
(** linear combination of two sequences of vectors *)
Definition mix k (a1 a2 : R) (u v : nat -> 'cV[R]_k) : nat -> 'cV[R]_k := fun t => a1 *: u t + a2 *: v t.

(** the system whose state is measured from the origin [- h t] at time [t] *)
Definition moving_origin (h : nat -> 'cV[R]_n) : lgm R n m :=
  with_means (fun t => mb M t + h t.+1 - mA M t *m h t) (fun t => md M t - mC M t *m h t) (mmu M + h 0%N).
End Spec.

(** matrices, covariances and missing rows repeat after [p] time steps; with
    [p = 1]: constant, and no row or every row missing *)
Record periodic (R : rcfType) n m (T p : nat) (M : lgm R n m) (zs : seq (orow R m)) : Prop := Periodic {
  pe_A : forall t, (t + p < T.-1)%N -> mA M (t + p) = mA M t; pe_Q : forall t, (t + p < T.-1)%N -> mQ M (t + p) = mQ M t;
  pe_C : forall t, (t + p < T)%N -> mC M (t + p) = mC M t; pe_R : forall t, (t + p < T)%N -> mR M (t + p) = mR M t;
  pe_mask : forall t, (t + p < T)%N -> (stream zs (t + p) : bool) = stream zs t }.

(** the same rows, each with its observation matrix, offset and noise
    covariance, in the order given by the permutation [s] *)
Record reordered (R : rcfType) n m (T : nat) (s : 'S_T) (M M' : lgm R n m) (zs zs' : seq (orow R m)) : Prop := Reordered {
  ro_mu : mmu M' = mmu M; ro_P : mP M' = mP M; ro_size : size zs' = T;
  ro_row : forall t : 'I_T, List.nth_error zs' t = List.nth_error zs (s t);
  ro_C : forall t : 'I_T, mC M' t = mC M (s t); ro_d : forall t : 'I_T, md M' t = md M (s t);
  ro_R : forall t : 'I_T, mR M' t = mR M (s t) }.
