(** Model of pykalman/datasets/base.py. *)
From mathcomp Require Import all_ssreflect all_algebra.
From Coq Require Import String.
From Verif Require Import Prelude LinAlg Numpy Sklearn Standard Rng Unscented.
Import GRing.Theory Num.Theory.

Set Implicit Arguments.
Unset Strict Implicit.
Unset Printing Implicit Defensive.
Local Open Scope ring_scope.

Section Datasets.
Variable R : rcfType.
Notation arr := (arr R).

(** a two-dimensional masked array: values and mask, datasets/base.py:41 *)
Definition marr : Type := {k : nat & {m : nat & ('M[R]_(k, m) * 'M[bool]_(k, m))%type}}.
(** [ma.array(X, mask=mask)], datasets/base.py:41 *)
Definition ma_array k m (X : 'M[R]_(k, m)) (mask : 'M[bool]_(k, m)) : marr := existT _ k (existT _ m (X, mask)).
(** [Z.shape[0]], datasets/base.py:63 *)
Definition ma_shape0 (a : marr) : nat := projT1 a.
(** the same array in the form the filters take, datasets/base.py:72 *)
Definition ma_obs (a : marr) : obs R :=
  let: existT k (existT m (X, mask)) := a in
  O2 m [seq ((row i X)^T, (row i mask)^T) | i <- enum 'I_k].

(** [load_robot.pad_and_mask], datasets/base.py:35-41, of a two-dimensional array *)
Definition pad_and_mask (a : arr) : res marr :=
  match a with
  | @A2 _ t m M =>
      X <-- vstack [:: A2 (0 : 'M[R]_(1, m)); A2 M] ;;
      match X with
      | @A2 _ k m' X => if (0 < k)%N then Ok (ma_array X (\matrix_(i, j) (i == 0%N :> nat))) else Err IndexError
      | _ => Err NotModelled
      end
  | _ => Err NotModelled
  end.

(** [a[:, 0]], datasets/base.py:51, 56 *)
Definition first_col (a : arr) : res arr :=
  match a with
  | @A2 _ m n M => if (0 < n)%N then Ok (A1 (\col_(i < m) mget M i 0)) else Err IndexError
  | _ => Err NotModelled
  end.
(** [np.asarray(list)] of two-dimensional arrays, datasets/base.py:67-68 *)
Fixpoint asarray3 m n (s : seq arr) : res (seq 'M[R]_(m, n)) :=
  match s with
  | [::] => Ok [::]
  | a :: s' =>
      match a with
      | @A2 _ p q M =>
          match p =P m, q =P n with
          | ReflectT e1, ReflectT e2 => l <-- asarray3 m n s' ;; Ok (castmx (e1, e2) M :: l)
          | _, _ => Err ValueError
          end
      | _ => Err NotModelled
      end
  end.
(** datasets/base.py:67-68 *)
Definition np_asarray_list (s : seq arr) : res arr :=
  match s with
  | @A2 _ m n _ :: _ => l <-- asarray3 m n s ;; Ok (A3 l)
  | _ => Err NotModelled
  end.

(** the contents of robot.mat that are read (datasets/base.py:45-60).  Cells
    of matrices ([Vfilt], [Vsmooth]) are lists of rows of arrays. *)
Record robot_mat := RobotMat {
  d_y : arr; d_x : arr; d_A : arr; d_b : arr; d_C : arr; d_d : arr; d_Q : arr; d_R : arr; d_x0 : arr; d_P0 : arr;
  d_xfilt : arr; d_Vfilt : seq (seq arr); d_ll : arr; d_xsmooth : arr; d_Vsmooth : seq (seq arr) }.
(** the returned bunch, 67-88 (without [DESCR]) *)
Record robot := Robot {
  r_T : nat; r_obs : marr; r_states : arr; r_tm : arr; r_to : arr; r_om : arr; r_oo : arr; r_tc0 : arr; r_oc0 : arr;
  r_tc : arr; r_oc : arr; r_im : arr; r_ic : arr; r_fm : arr; r_fc : arr; r_ll : arr; r_sm : arr; r_sc : arr }.

(** [load_robot], datasets/base.py:12-88, as a function of the file's contents *)
Definition load_robot (d : robot_mat) : res robot :=
  yt <-- tr (d_y d) ;;
  Z <-- pad_and_mask yt ;;
  X <-- tr (d_x d) ;;
  b <-- tr (d_b d) ;;
  dd <-- first_col (d_d d) ;;
  let Q0 := A2 (10%:R *: 1%:M : 'M[R]_5) in
  let R0 := A2 (10%:R *: 1%:M : 'M[R]_2) in
  x0 <-- first_col (d_x0 d) ;;
  xf <-- tr (d_xfilt d) ;;
  vf <-- getidx (d_Vfilt d) 0 ;;
  ll <-- idx0 (d_ll d) 0 ;;
  xs <-- tr (d_xsmooth d) ;;
  vs <-- getidx (d_Vsmooth d) 0 ;;
  Vf <-- np_asarray_list vf ;;
  Vs <-- np_asarray_list vs ;;
  Ok (Robot (ma_shape0 Z) Z X (d_A d) b (d_C d) dd Q0 R0 (d_Q d) (d_R d) x0 (d_P0 d) xf Vf ll xs Vs).
End Datasets.
