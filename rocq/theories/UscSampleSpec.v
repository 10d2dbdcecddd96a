(** What a simulated trajectory of a state space model with general noise is,
    relative to a generator whose draws are taken one after the other. *)
From mathcomp Require Import all_ssreflect all_algebra.
From Verif Require Import Prelude LinAlg Numpy Sklearn Standard Model Rng.
Import GRing.Theory Num.Theory.

Set Implicit Arguments.
Unset Strict Implicit.
Unset Printing Implicit Defensive.
Local Open Scope ring_scope.

Section Spec.
Variables (R : rcfType) (G : Type) (rl : rng_lib R G) (n m : nat).
Variables (f : nat -> 'cV[R]_n -> 'cV[R]_n -> 'cV[R]_n) (g : nat -> 'cV[R]_n -> 'cV[R]_m -> 'cV[R]_m).
Variables (Q : 'M[R]_n) (V : 'M[R]_m) (mu0 : 'cV[R]_n) (P0 : 'M[R]_n).

(** states [x], observations [z], noises [w], [v]; [h t] ([k t]) is the state of
    the generator before (after) the observation noise of time [t] is drawn *)
Definition utrajectory (T : nat) (x0 : option 'cV[R]_n) (s s' : G) (x : nat -> 'cV[R]_n) (z : nat -> 'cV[R]_m) : Prop :=
  exists (w : nat -> 'cV[R]_n) (v : nat -> 'cV[R]_m) (h k : nat -> G),
  [/\ if x0 is Some a then x 0%N = a /\ h 0%N = s else mvn rl mu0 P0 s = (x 0%N, h 0%N),
      forall t, (t < T)%N -> mvn rl 0 V (h t) = (v t, k t) /\ z t = g t (x t) (v t),
      forall t, (t.+1 < T)%N -> mvn rl 0 Q (k t) = (w t, h t.+1) /\ x t.+1 = f t (x t) (w t) &
      s' = if T is T'.+1 then k T' else h 0%N].
End Spec.

(** additive noise as general noise *)
Definition noisy (R : rcfType) n p (f : nat -> 'cV[R]_n -> 'cV[R]_p) : nat -> 'cV[R]_n -> 'cV[R]_p -> 'cV[R]_p :=
  fun t x w => f t x + w.
