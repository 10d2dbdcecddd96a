(** Specification: weighted least squares criteria (no code of the project). *)
From mathcomp Require Import all_ssreflect all_algebra.
From Verif Require Import Prelude LinAlg Numpy Standard Model KfSpec.
Import GRing.Theory Num.Theory.

Set Implicit Arguments.
Unset Strict Implicit.
Unset Printing Implicit Defensive.
Local Open Scope ring_scope.

Section Spec.
Variables (R : rcfType) (n m : nat) (M : lgm R n m) (zs : seq (orow R m)).

(** squared length of [v] weighted by the inverse of the covariance [W] *)
Definition wsq k (W : 'M[R]_k) (v : 'cV[R]_k) : R := (v^T *m invmx W *m v) 0 0.
(** misfit at time [t] of the state [x]: none where the row has a masked entry *)
Definition misfit t (x : 'cV[R]_n) : R :=
  if stream zs t is Some z then wsq (mR M t) (z - (mC M t *m x + md M t)) else 0.
(** criterion for a trajectory [x 0 .. x k]: distance from the initial mean,
    from the transition equation and from the observations up to time [k] *)
Definition cost k (x : nat -> 'cV[R]_n) : R :=
  wsq (mP M) (x 0%N - mmu M) +
  \sum_(t < k) wsq (mQ M t) (x t.+1 - (mA M t *m x t + mb M t)) +
  \sum_(t < k.+1) misfit t (x t).
(** [x] is the only minimiser *)
Definition best_path k (x : nat -> 'cV[R]_n) : Prop :=
  forall x', (forall t, (t <= k)%N -> x' t = x t) \/ cost k x < cost k x'.

(** regression: one unknown vector seen through all observations up to time [k] *)
Definition scost k (c : 'cV[R]_n) : R := wsq (mP M) (c - mmu M) + \sum_(t < k.+1) misfit t c.
Definition best_fit k (c : 'cV[R]_n) : Prop := forall c', c' = c \/ scost k c < scost k c'.

(** the covariances that are inverted above exist *)
Definition weights_exist T : Prop :=
  [/\ pd (mP M), forall t, (t < T.-1)%N -> pd (mQ M t) & forall t, (t < T)%N -> stream zs t -> pd (mR M t)].
(** the state never changes *)
Definition at_rest T : Prop :=
  forall t, (t < T.-1)%N -> [/\ mA M t = 1%:M, mb M t = 0 & mQ M t = 0].
Definition fit_weights_exist T : Prop := pd (mP M) /\ forall t, (t < T)%N -> stream zs t -> pd (mR M t).
End Spec.

Section Precision.
Variables (R : rcfType) (n m : nat) (M : lgm R n m) (zs : seq (orow R m)).
(** precision (inverse covariance) of the regression with the rows up to time [k] *)
Definition precision k : 'M[R]_n :=
  invmx (mP M) + \sum_(t < k.+1) if stream zs t then (mC M t)^T *m invmx (mR M t) *m mC M t else 0.
End Precision.
