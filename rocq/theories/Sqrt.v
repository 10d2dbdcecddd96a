(** Array operations used by pykalman/sqrt only: slices, stacking, QR. *)
From mathcomp Require Import all_ssreflect all_algebra.
From Verif Require Import Prelude LinAlg Numpy.
Import GRing.Theory Num.Theory.

Set Implicit Arguments.
Unset Strict Implicit.
Unset Printing Implicit Defensive.
Local Open Scope ring_scope.

Section Sqrt.
Variable R : rcfType.
Notation arr := (arr R).

(** [M[r0:r1, c0:c1]] for a matrix [M]: bounds are clipped to the shape,
    sqrt/cholesky.py:103-105, 171-172 *)
Definition slice m n (M : 'M[R]_(m, n)) (r0 r1 c0 c1 : nat) :
    'M[R]_(minn r1 m - r0, minn c1 n - c0) :=
  \matrix_(i, j) mget M (r0 + i) (c0 + j).
(** the same for a dynamic array, sqrt/cholesky.py:103-105, 171-172 *)
Definition np_slice (a : arr) (r0 r1 c0 c1 : nat) : res arr :=
  match a with
  | A2 _ _ M => Ok (A2 (slice M r0 r1 c0 c1))
  | A3 _ _ _ => Err NotModelled
  | _ => Err IndexError
  end.

(** [np.hstack([a, b])] for matrices, sqrt/cholesky.py:96-101; sqrt/unscented.py:144 *)
Definition np_hstack (a b : arr) : res arr :=
  match a, b with
  | @A2 _ m n M, @A2 _ p q N =>
      match p =P m with
      | ReflectT e => Ok (A2 (row_mx M (castmx (e, erefl q) N)))
      | ReflectF _ => Err ValueError
      end
  | A3 _ _ _, A2 _ _ _ | A2 _ _ _, A3 _ _ _ => Err ValueError
  | _, _ => Err NotModelled
  end.

(** entry [i, j] of a matrix valued array,
    specification of the routine below only, not code of the project *)
Definition aget (a : arr) (i j : nat) : R := if a is A2 _ _ M then mget M i j else 0.

(** A routine computing a full QR factorisation.  The programs below are
    modelled for an arbitrary routine.  sqrt/cholesky.py:95, 170; sqrt/unscented.py:109-115 *)
Definition qr_fun := forall m n, 'M[R]_(m, n) -> 'M[R]_m * 'M[R]_(m, n).

(** What [scipy.linalg.qr] (mode "full") documents: Q orthogonal, R upper
    triangular (trapezoidal), M = Q R.  No sign convention.
    specification of the routine called in sqrt/cholesky.py:95, 170; sqrt/unscented.py:114 *)
Definition qr_valid (qr : qr_fun) : Prop :=
  forall m n (M : 'M[R]_(m, n)),
    [/\ (qr m n M).1^T *m (qr m n M).1 = 1%:M,
        forall (i : 'I_m) (j : 'I_n), (j < i)%N -> (qr m n M).2 i j = 0
      & (qr m n M).1 *m (qr m n M).2 = M].

(** the second component of [scipy.linalg.qr(a)], sqrt/cholesky.py:95, 170; sqrt/unscented.py:114 *)
Definition np_qr_r (qr : qr_fun) (a : arr) : res arr :=
  match a with
  | A2 _ _ M => Ok (A2 (qr _ _ M).2)
  | A3 _ _ _ => Err NotModelled
  | _ => Err ValueError
  end.
End Sqrt.
