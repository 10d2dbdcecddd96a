(** Specification: the least squares criterion along one state, and the system
    seen backwards in time (no code of the project). *)
From mathcomp Require Import all_ssreflect all_algebra.
From Verif Require Import Prelude LinAlg Numpy Standard Model KfSpec KfLsSpec.
Import GRing.Theory Num.Theory.

Set Implicit Arguments.
Unset Strict Implicit.
Unset Printing Implicit Defensive.
Local Open Scope ring_scope.

Section Spec.
Variables (R : rcfType) (n m : nat) (M : lgm R n m).

(** forcing the state at time [t] to be [c] raises the least value of the
    criterion from that of [x] by the squared distance of [c] from [x t]
    weighted by the inverse of [P] *)
Definition curvature zs k t (x : nat -> 'cV[R]_n) (P : 'M[R]_n) : Prop := pd P /\ forall c,
  (forall x', x' t = c -> cost M zs k x + wsq P (c - x t) <= cost M zs k x') /\
  exists2 x', x' t = c & cost M zs k x' = cost M zs k x + wsq P (c - x t).

(** mean and covariance of the state at time [t] before any observation *)
Fixpoint prior t : 'cV[R]_n * 'M[R]_n :=
  if t is t'.+1 then (mA M t' *m (prior t').1 + mb M t', mA M t' *m (prior t').2 *m (mA M t')^T + mQ M t') else (mmu M, mP M).
(** regression of the state at time [t] on the next one *)
Definition back t : 'M[R]_n := (prior t).2 *m (mA M t)^T *m invmx (prior t.+1).2.
(** [M] seen backwards: time [t] is time [T.-1 - t] of [M] *)
Definition reversed T : lgm R n m :=
  LGM (fun t => back (T.-2 - t)) (fun t => (prior (T.-2 - t)).1 - back (T.-2 - t) *m (prior (T.-2 - t).+1).1)
      (fun t => (prior (T.-2 - t)).2 - back (T.-2 - t) *m mA M (T.-2 - t) *m (prior (T.-2 - t)).2)
      (fun t => mC M (T.-1 - t)) (fun t => md M (T.-1 - t)) (fun t => mR M (T.-1 - t)) (prior T.-1).1 (prior T.-1).2.
End Spec.
