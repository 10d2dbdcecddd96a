(** The density of the normal distribution over the real numbers. *)
From Coq Require Import Reals.
From mathcomp Require Import all_ssreflect all_algebra.
From Verif Require Import LinAlg GaussSpec RealInstance.

Set Implicit Arguments.
Unset Strict Implicit.
Unset Printing Implicit Defensive.

(** exp (- (x - mu)' S^-1 (x - mu) / 2) / sqrt ((2 pi)^n det S) *)
Definition gauss_density n (x mu : 'cV[R_rcfType]_n) (S : 'M[R_rcfType]_n) : R_rcfType :=
  Rdiv (exp (Ropp (Rdiv (qf (invmx S) (x - mu)%R) (IZR 2))))
       (sqrt (Rmult (pow (Rmult (IZR 2) PI) n) (\det S)%R)).
