(** A small model of the numpy / numpy.ma / scipy.linalg fragment pykalman uses.

    [arr] is a dynamically shaped array of rank 0..3.  Vectors are columns.
    A rank-3 array is a stack (list) of equally shaped matrices.  Shape
    mismatches are run-time errors ([ValueError] / [IndexError] as in numpy);
    combinations outside the fragment give [NotModelled]. *)
From mathcomp Require Import all_ssreflect all_algebra.
From Verif Require Import Prelude LinAlg.
Import GRing.Theory Num.Theory.

Set Implicit Arguments.
Unset Strict Implicit.
Unset Printing Implicit Defensive.
Local Open Scope ring_scope.

Section Numpy.
Variable R : rcfType.

(** numpy arrays of rank at most 3, the values of every parameter and result; e.g. standard.py:374-378 *)
Inductive arr :=
  | A0 of R
  | A1 (n : nat) of 'cV[R]_n
  | A2 (m n : nat) of 'M[R]_(m, n)
  | A3 (m n : nat) of seq 'M[R]_(m, n).
Arguments A1 {n} _.
Arguments A2 {m n} _.
Arguments A3 {m n} _.

(** [a.shape], standard.py:44, 73, 158 *)
Definition shape (a : arr) : seq nat :=
  match a with
  | A0 _ => [::]
  | @A1 n _ => [:: n]
  | @A2 m n _ => [:: m; n]
  | @A3 m n s => [:: size s; m; n]
  end.
(** [len(a.shape)], standard.py:44, 112 *)
Definition ndim (a : arr) : nat := size (shape a).

(** element access with out-of-range reads as 0 (never relied upon),
    element of a matrix, used to define the operations below (standard.py:223-230 and throughout) *)
Definition mget m n (M : 'M[R]_(m, n)) (i j : nat) : R :=
  match insub i, insub j with Some i', Some j' => M i' j' | _, _ => 0 end.
(** element access under broadcasting: a size-1 axis is repeated, standard.py:223, 277 *)
Definition bget m n (M : 'M[R]_(m, n)) (i j : nat) : R :=
  mget M (if m == 1%N then 0%N else i) (if n == 1%N then 0%N else j).

(** broadcast of two axis lengths, standard.py:223, 277 *)
Definition bdim (a b : nat) : option nat :=
  if a == b then Some a else if a == 1%N then Some b else if b == 1%N then Some a else None.

(** broadcasting of two matrices, as in standard.py:223-227 *)
Definition bop2 (op : R -> R -> R) m n (M : 'M[R]_(m, n)) p q (N : 'M[R]_(p, q)) : res arr :=
  match bdim m p, bdim n q with
  | Some r, Some c => Ok (A2 (\matrix_(i < r, j < c) op (bget M i j) (bget N i j)))
  | _, _ => Err ValueError
  end.

(** elementwise binary operation with numpy broadcasting, standard.py:223-230, 277-296 *)
Definition bop (op : R -> R -> R) (a b : arr) : res arr :=
  match a, b with
  | A0 x, A0 y => Ok (A0 (op x y))
  | A0 x, A1 _ v => Ok (A1 (map_mx (op x) v))
  | A1 _ v, A0 x => Ok (A1 (map_mx (op^~ x) v))
  | A0 x, A2 _ _ M => Ok (A2 (map_mx (op x) M))
  | A2 _ _ M, A0 x => Ok (A2 (map_mx (op^~ x) M))
  | @A1 n u, @A1 p v =>
      match bdim n p with
      | Some r => Ok (A1 (\col_(i < r) op (bget u i 0) (bget v i 0)))
      | None => Err ValueError
      end
  | A1 _ u, A2 _ _ N => bop2 op u^T N
  | A2 _ _ M, A1 _ v => bop2 op M v^T
  | A2 _ _ M, A2 _ _ N => bop2 op M N
  | @A3 m n s, @A2 p q N =>
      if (m == p) && (n == q)
      then Ok (A3 (map (fun M : 'M_(m, n) => \matrix_(i < m, j < n) op (M i j) (bget N i j)) s))
      else Err NotModelled
  | @A2 m n M, @A3 p q s =>
      if (m == p) && (n == q)
      then Ok (A3 (map (fun N : 'M_(p, q) => \matrix_(i < p, j < q) op (bget M i j) (N i j)) s))
      else Err NotModelled
  | _, _ => Err NotModelled
  end.

(** [a + b], standard.py:223, 277 *)
Definition add := bop (fun x y => x + y).
(** [a - b], standard.py:292-296, 474-485 *)
Definition sub := bop (fun x y => x - y).
(** [a += b]: the broadcast result must have the shape of [a],
    standard.py:746-751, 787, 820-827, 862, 930, 955 *)
Definition iadd (a b : arr) : res arr :=
  r <-- add a b ;; if shape r == shape a then Ok r else Err ValueError.

(** [c * a] for a float [c], standard.py:792-795, 868-876 (division by a count) *)
Definition scal (c : R) (a : arr) : arr :=
  match a with
  | A0 x => A0 (c * x)
  | A1 _ v => A1 (c *: v)
  | A2 _ _ M => A2 (c *: M)
  | A3 _ _ s => A3 [seq c *: M | M <- s]
  end.

(** matrix product when the inner dimensions agree, standard.py:223-227 *)
Definition mulr_dyn m n p q (M : 'M[R]_(m, n)) (N : 'M[R]_(p, q)) : res 'M[R]_(m, q) :=
  match p =P n with
  | ReflectT e => Ok (M *m castmx (e, erefl q) N)
  | ReflectF _ => Err ValueError
  end.

(** [np.dot], standard.py:169-176, 223-227, 277-296 *)
Definition dot (a b : arr) : res arr :=
  match a, b with
  | A0 x, _ => Ok (scal x b)
  | _, A0 x => Ok (scal x a)
  | A1 _ u, A1 _ v => M <-- mulr_dyn u^T v ;; Ok (A0 (sc M))
  | A1 _ u, A2 _ _ N => M <-- mulr_dyn u^T N ;; Ok (A1 M^T)
  | A2 _ _ M, A1 _ v => w <-- mulr_dyn M v ;; Ok (A1 w)
  | A2 _ _ M, A2 _ _ N => K <-- mulr_dyn M N ;; Ok (A2 K)
  | _, _ => Err NotModelled
  end.

(** [a.T], standard.py:174, 226, 282 *)
Definition tr (a : arr) : res arr :=
  match a with
  | A2 _ _ M => Ok (A2 M^T)
  | A3 _ _ _ => Err NotModelled
  | _ => Ok a
  end.

(** [np.outer], standard.py:746-751, 787, 822-827, 863, 906-911 *)
Definition outer (a b : arr) : res arr :=
  match a, b with
  | A1 _ u, A1 _ v => Ok (A2 (u *m v^T))
  | _, _ => Err NotModelled
  end.

(** [scipy.linalg.pinv], standard.py:289, 471, 752, 828; unscented.py:197, 533, 667 *)
Definition np_pinv (a : arr) : res arr :=
  match a with
  | A2 _ _ M => Ok (A2 (pinv M))
  | A3 _ _ _ => Err NotModelled
  | _ => Err ValueError
  end.

(** [np.atleast_1d], utils/_sklearn.py:42 *)
Definition atleast_1d (a : arr) : arr :=
  match a with A0 x => A1 (const_mx x : 'cV_1) | _ => a end.
(** [np.atleast_2d], utils/_sklearn.py:47 *)
Definition atleast_2d (a : arr) : arr :=
  match a with
  | A0 x => A2 (const_mx x : 'M_1)
  | A1 _ v => A2 v^T
  | _ => a
  end.

(** [a[t]] for an index [t >= 0] on the first axis, standard.py:113 and every loop over time *)
Definition idx0 (a : arr) (t : nat) : res arr :=
  match a with
  | A0 _ => Err IndexError
  | @A1 n v => if (insub t : option 'I_n) is Some i then Ok (A0 (v i 0)) else Err IndexError
  | @A2 m n M => if (insub t : option 'I_m) is Some i then Ok (A1 (row i M)^T) else Err IndexError
  | A3 _ _ s => M <-- getidx s t ;; Ok (A2 M)
  end.

(** [dst[t] = a] where [dst[t]] has shape [(n,)], standard.py:382, 388, 401 *)
Definition assign1 (n : nat) (a : arr) : res arr :=
  match a with
  | A0 x => Ok (A1 (const_mx x : 'cV_n))
  | @A1 p v => if p == n then Ok (A1 v) else
               if p == 1%N then Ok (A1 (const_mx (bget v 0 0) : 'cV_n)) else Err ValueError
  | @A2 p q M => if (p == 1%N) && ((q == n) || (q == 1%N))
                 then Ok (A1 (\col_(i < n) bget M 0 i)) else Err ValueError
  | A3 _ _ _ => Err NotModelled
  end.

(** [dst[t] = a] where [dst[t]] has shape [(m, n)], standard.py:383, 388, 400, 402 *)
Definition assign2_mx (m n : nat) p q (M : 'M[R]_(p, q)) : res arr :=
  if (p == m) && (q == n) then Ok (A2 M) else
  if ((p == m) || (p == 1%N)) && ((q == n) || (q == 1%N))
  then Ok (A2 (\matrix_(i < m, j < n) bget M i j)) else Err ValueError.
(** the same for a dynamic array, standard.py:383, 388, 400, 402 *)
Definition assign2 (m n : nat) (a : arr) : res arr :=
  match a with
  | A0 x => Ok (A2 (const_mx x : 'M_(m, n)))
  | A1 _ v => assign2_mx m n v^T
  | A2 _ _ M => assign2_mx m n M
  | A3 _ _ [:: M] => assign2_mx m n M
  | A3 _ _ _ => Err ValueError
  end.

(** [np.zeros(n)], [np.zeros((m, n))], [np.eye(m, n)], standard.py:1600-1605 *)
Definition zeros1 (n : nat) : arr := A1 (0 : 'cV[R]_n).
(** standard.py:301, 741-742 *)
Definition zeros2 (m n : nat) : arr := A2 (0 : 'M[R]_(m, n)).
(** standard.py:1599-1606 *)
Definition eye2 (m n : nat) : arr := A2 (\matrix_(i < m, j < n) (i == j :> nat)%:R).

(** [len(a)], standard.py:371 *)
Definition np_len (a : arr) : res nat :=
  match shape a with [::] => Err TypeError | n :: _ => Ok n end.

(** square matrix or [ValueError],
    argument check of scipy.linalg.cholesky and numpy.linalg.solve, called in utils/_sklearn.py:57-63 *)
Definition as_square (a : arr) (T : Type) (k : forall n, 'M[R]_n -> res T) : res T :=
  match atleast_2d a with
  | @A2 m n M =>
      match n =P m with
      | ReflectT e => k m (castmx (erefl m, e) M)
      | ReflectF _ => Err ValueError
      end
  | _ => Err ValueError
  end.

(** [scipy.linalg.cholesky(a, lower=True)]: square matrices, otherwise
    [ValueError] (rank 3 too: "Input array needs to be 2D").
    utils/_sklearn.py:57-61; sqrt/cholesky.py:263-265; sqrt/bierman.py:133 *)
Definition np_cholesky_lower (a : arr) : res arr :=
  as_square a (fun n M => if chol M is Some L then Ok (A2 L) else Err LinAlgError).

(** [np.linalg.solve(a, b)] for a square matrix [a] and a matrix [b], utils/_sklearn.py:63 *)
Definition np_solve (a b : arr) : res arr :=
  match a, b with
  | A2 _ _ _, @A2 p q N =>
      as_square a (fun n M =>
        match p =P n with
        | ReflectT e => if M \in unitmx then Ok (A2 (invmx M *m castmx (e, erefl q) N))
                        else Err LinAlgError
        | ReflectF _ => Err ValueError
        end)
  | _, _ => Err NotModelled
  end.

(** ** Observations (numpy masked arrays of rank <= 2)

    A row of a masked array: values and mask.  An ordinary ndarray has the
    all-false mask.  standard.py:162, 275 *)
Definition orow (k : nat) : Type := ('cV[R]_k * 'cV[bool]_k)%type.
(** argument of [_parse_observations], standard.py:1643-1648 *)
Inductive obs :=
  | O0 of R & bool
  | O1 of seq (R * bool)
  | O2 (k : nat) of seq (orow k).

(** [np.any(np.ma.getmask(row))], standard.py:162, 275, 744, 779, 953 *)
Definition missing k (r : orow k) : bool := [exists j, r.2 j 0].

(** row of a masked array from a list of entries, standard.py:1645 *)
Definition row_of_seq (s : seq (R * bool)) : orow (size s) :=
  (\col_i (nth (0, false) s i).1, \col_i (nth (0, false) s i).2).
(** row holding one scalar, standard.py:1645-1647 *)
Definition scalar_row (x : R * bool) : orow 1 := (const_mx x.1, const_mx x.2).

End Numpy.

Arguments A0 {R} _.
Arguments A1 {R n} _.
Arguments A2 {R m n} _.
Arguments A3 {R m n} _.
Arguments O0 {R} _ _.
Arguments O1 {R} _.
Arguments O2 {R} k _.
Arguments zeros1 {R} n.
Arguments zeros2 {R} m n.
Arguments eye2 {R} m n.
