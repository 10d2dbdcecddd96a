(** Gaussian log density, over an arbitrary real closed field with a logarithm. *)
From mathcomp Require Import all_ssreflect all_algebra.
From Verif Require Import LinAlg.
Import GRing.Theory Num.Theory.

Set Implicit Arguments.
Unset Strict Implicit.
Unset Printing Implicit Defensive.
Local Open Scope ring_scope.

Section Gauss.
Variables (R : rcfType) (ln : R -> R) (ln2pi : R).

(** what is used of a logarithm: it turns products into sums *)
Definition multiplicative_log : Prop := forall a b, 0 < a -> 0 < b -> ln (a * b) = ln a + ln b.
(** and it lies below its tangent at 1 *)
Definition concave_log : Prop := forall a, 0 < a -> ln a <= a - 1.

(** log of the density of N(mu, S) at x *)
Definition gauss_logpdf n (x mu : 'cV[R]_n) (S : 'M[R]_n) : R :=
  - 2%:R^-1 * (qf (invmx S) (x - mu) + n%:R * ln2pi + ln (\det S)).
End Gauss.

(** The available observations among [z 0 .. z (t-1)] stacked into one vector. *)
Section Stack.
Variables (R : rcfType) (m : nat) (mis : nat -> bool).
Fixpoint odim (t : nat) : nat :=
  if t is t'.+1 then (if mis t' then odim t' else odim t' + m)%N else 0%N.
Definition snoc (b : bool) k (s : 'cV[R]_k) (z : 'cV[R]_m) : 'cV[R]_(if b then k else (k + m)%N) :=
  if b return 'cV[R]_(if b then k else (k + m)%N) then s else col_mx s z.
Fixpoint stack_obs (z : nat -> 'cV[R]_m) (t : nat) : 'cV[R]_(odim t) :=
  if t is t'.+1 then snoc (mis t') (stack_obs z t') (z t') else 0.
End Stack.
