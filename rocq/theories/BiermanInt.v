(** Integer arrays in pykalman/sqrt/bierman.py.

    [array2d] (utils/_sklearn.py:45-47) keeps the dtype of what the constructor
    is given, so [initial_state_covariance=[[2, 1], [1, 2]]] is an int64 array.
    Two routines of sqrt/bierman.py store floats into an array of the dtype of
    their argument: [udu] (line 74, [M = np.triu(M)], written at line 86) and
    [decorrelate_observations] (line 137, [np.copy(observation_matrices)],
    written at line 141).  On an integer array such a store truncates towards
    zero.  This file models the class with those stores going through [trunc];
    no other store of the module is into an array of the caller's dtype. *)
From mathcomp Require Import all_ssreflect all_algebra.
From Coq Require Import String.
From Verif Require Import Prelude LinAlg Numpy Sklearn Standard Sqrt Bierman.
Import GRing.Theory Num.Theory.

Set Implicit Arguments.
Unset Strict Implicit.
Unset Printing Implicit Defensive.
Local Open Scope ring_scope.

(** what a conversion of a float to an integer dtype does to numbers of
    absolute value below [B] ([B] is 2^63 for int64): truncation towards zero;
    nothing is said about larger numbers.  Specification only, not project code *)
Definition int_cast (R : rcfType) (B : nat) (trunc : R -> R) : Prop :=
  (forall (k : nat) x, (k < B)%N -> k%:R <= x < k.+1%:R -> trunc x = k%:R) /\
  (forall (k : nat) x, (k < B)%N -> k%:R <= x < k.+1%:R -> trunc (- x) = - k%:R).

Section Int.
Variables (R : rcfType) (trunc : R -> R).
Notation arr := (arr R).
Notation obs := (obs R).

(** inner loop of [udu] on an integer matrix, sqrt/bierman.py:83-86; [U] and [d]
    are float arrays (lines 75-76) *)
Definition udu_inner_int n (j : nat) (alpha : R) (st : 'M[R]_n * 'M[R]_n) (k : nat) : 'M[R]_n * 'M[R]_n :=
  let: (M, U) := st in
  let beta := mget M k.-1 j.-1 in
  let U' := mset U k.-1 j.-1 (alpha * beta) in
  let M' := \matrix_(a < n, b < n)
    if (b == k.-1 :> nat) && (a < k)%N then trunc (M a b - beta * mget U' a j.-1) else M a b in
  (M', U').
(** sqrt/bierman.py:77-86 *)
Definition udu_outer_int n (st : 'M[R]_n * 'M[R]_n * 'cV[R]_n) (j : nat) : 'M[R]_n * 'M[R]_n * 'cV[R]_n :=
  let: (M, U, d) := st in
  let dj := mget M j.-1 j.-1 in
  let d' := vset d j.-1 dj in
  let alpha := if 0 < dj then dj^-1 else 0 in
  let: (M', U') := foldl (udu_inner_int j alpha) (M, U) (iota 1 j.-1) in
  (M', U', d').
(** sqrt/bierman.py:71-90 *)
Definition udu_core_int n (M0 : 'M[R]_n) : 'M[R]_n * 'cV[R]_n :=
  let: (M, U, d) := foldl (@udu_outer_int n) (triu M0, 1%:M, 0) (rev (iota 2 n.-1)) in
  (U, vset d 0 (mget M 0 0)).
(** [udu] of an integer matrix, sqrt/bierman.py:57-90 *)
Definition udu_int (a : arr) : res (udu_t R) :=
  match a with
  | @A2 _ m n _ =>
      if m != n then Err NotModelled else
      as_square a (fun n M =>
        if [forall i, [forall j, isclose (M i j) (M j i)]] then
          if n == 0%N then Err IndexError
          else let: (U, d) := udu_core_int M in Ok (A2 U, A1 d)
        else Err AssertionError)
  | _ => Err NotModelled
  end.

(** [decorrelate_observations], the observation matrices being an integer array:
    a stack is filled in place, a single matrix is not, sqrt/bierman.py:136-145 *)
Definition deco_mat_int (Ri C : arr) : res arr :=
  match C with
  | @A3 _ m n s =>
      s' <-- mapr (fun X => Y <-- dot Ri (A2 X) ;; assign2 m n Y) s ;;
      Ok (A3 (map (fun a => \matrix_(i < m, j < n) trunc (aget a i j)) s'))
  | _ => dot Ri C
  end.

(** [_filter], sqrt/bierman.py:350-461; the flags tell whether the initial
    covariance and the observation matrices are integer arrays *)
Definition bi_filter_int (ic_int om_int : bool) (p : kfparams R) k (zs : seq (orow R k)) : res (seq (brow R)) :=
  n <-- np_len (p_im p) ;;
  u0 <-- (if ic_int then udu_int (p_ic p) else udu (p_ic p)) ;;
  Ri <-- deco_factor (p_oc p) ;;
  C <-- (if om_int then deco_mat_int Ri (p_om p) else deco_mat Ri (p_om p)) ;;
  d <-- deco_vec Ri (p_oo p) ;;
  zs' <-- deco_rows Ri zs ;;
  bi_loop p C d u0 n 0 None zs'.

(** sqrt/bierman.py:30-42 *)
Definition bi_flt_int (ic_int om_int : bool) : filter_fun R := fun p k zs =>
  rows <-- bi_filter_int ic_int om_int p zs ;;
  if rows is [::] then Err IndexError else
  mapr (fun r => pc <-- bi_reconstruct (b_pu r) ;; fc <-- bi_reconstruct (b_fu r) ;;
                 Ok (FRow (b_pm r) pc (zeros2 0 0) (b_fm r) fc)) rows.

(** [BiermanKalmanFilter.filter], sqrt/bierman.py:514-571 *)
Definition bkf_filter_int (ic_int om_int : bool) := filter_with (bi_flt_int ic_int om_int).
(** [BiermanKalmanFilter.smooth], sqrt/bierman.py:710-779 *)
Definition bkf_smooth_int (ic_int om_int : bool) := smooth_with (bi_flt_int ic_int om_int).
(** [BiermanKalmanFilter.loglikelihood], sqrt/bierman.py:910-968 *)
Definition bkf_loglikelihood_int (ic_int om_int : bool) := loglikelihood_with (bi_flt_int ic_int om_int).
End Int.
