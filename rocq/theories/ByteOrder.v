(** Model of pykalman/utils/_numpy.py and of its use in KalmanFilter.sample.

    A stored float64 array is a byte order and, for every element, its eight
    bytes in memory order.  Reading an element follows the byte order of the
    array's dtype.  The platform is little-endian ("=" is "<"). *)
From mathcomp Require Import all_ssreflect all_algebra.
From Verif Require Import Prelude LinAlg Numpy Sklearn Standard Rng Sample.
Import GRing.Theory Num.Theory.

Set Implicit Arguments.
Unset Strict Implicit.
Unset Printing Implicit Defensive.
Local Open Scope ring_scope.

(** byte orders of a dtype, utils/_numpy.py:8-26 *)
Inductive border := Little | Big.

(** a byte: eight bits, most significant first,
    storage of the array viewed in utils/_numpy.py:8-26 *)
Definition byte : Type := seq bool.
(** value of a bit string, specification of the float64 format *)
Definition nat_of_bits (s : seq bool) : nat := foldl (fun a (b : bool) => (a.*2 + b)%N) 0%N s.

Section ByteOrder.
Variable R : rcfType.

(** IEEE 754 binary64: the value of 64 bits, most significant first; [None]
    for infinities and NaN *)
Definition num_of_bits (s : seq bool) : R := foldl (fun a (b : bool) => 2%:R * a + b%:R) 0 s.
(** value of a finite float64 (IEEE 754), specification of what utils/_numpy.py:8-26 reinterprets *)
Definition f64 (s : seq bool) : option R :=
  let sg : R := if nth false s 0 then -1 else 1 in
  let e := nat_of_bits (take 11 (drop 1 s)) in
  let m := num_of_bits (drop 12 s) / 2%:R ^+ 52 in
  if e == 2047%N then None
  else if e == 0%N then Some (sg * m / 2%:R ^+ 1022)
  else Some (sg * (1 + m) * 2%:R ^+ e / 2%:R ^+ 1023).

(** a stored matrix, utils/_numpy.py:8-26 *)
Record stored m n := Stored { st_order : border; st_bytes : 'I_m -> 'I_n -> seq byte }.
(** element as numpy reads it, utils/_numpy.py:8-26 *)
Definition elem (o : border) (bs : seq byte) : option R :=
  f64 (flatten (if o is Big then bs else rev bs)).
(** [M] holds the values of the stored matrix, specification of [stored], utils/_numpy.py:8-26 *)
Definition reads m n (a : stored m n) (M : 'M[R]_(m, n)) : Prop :=
  forall i j, elem (st_order a) (st_bytes a i j) = Some (M i j).

(** [newbyteorder(arr, "=")], utils/_numpy.py:8-26, in both branches: a view of
    the same memory whose dtype has the native byte order; the bytes are not
    moved *)
Definition newbyteorder m n (a : stored m n) : stored m n := Stored Little (st_bytes a).

(** [sample] (standard.py:1115-1184) of an object whose covariance attributes
    are two-dimensional stored arrays [tc] and [oc]: only the calls of
    [multivariate_normal] in the loop (1165-1180) see the covariances, through
    [newbyteorder].  [Q], [V] are the values read from the views. *)
Definition sample_stored G (rl : rng_lib R G) (o : kf R) n m (Q : 'M[R]_n) (V : 'M[R]_m) (T : nat)
    (initial_state : option (arr R)) (h : genh) (w : world G) : world G * res (seq (arr R * arr R)) :=
  match initialize_parameters o with
  | Err e => (w, Err e)
  | Ok p => run_on rl h (sample_run rl (KFParams (p_tm p) (p_to p) (A2 Q) (p_om p) (p_oo p) (A2 V) (p_im p) (p_ic p))
                          n m T initial_state) w
  end.
End ByteOrder.
