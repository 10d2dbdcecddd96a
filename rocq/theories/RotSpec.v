(** Specification: rotations and uniform changes of scale (no code of the project). *)
From mathcomp Require Import all_ssreflect all_algebra.
Import GRing.Theory Num.Theory.

Set Implicit Arguments.
Unset Strict Implicit.
Unset Printing Implicit Defensive.
Local Open Scope ring_scope.

(** [N] is a multiple of an orthogonal matrix: it rotates, reflects or permutes
    the axes and multiplies all lengths by the same number *)
Definition similarity (R : rcfType) m (N : 'M[R]_m) : Prop := exists2 a : R, a != 0 & N^T *m N = a%:M.
