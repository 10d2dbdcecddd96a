(** Model of pykalman/sqrt/cholesky.py, for an arbitrary QR routine [qr]. *)
From mathcomp Require Import all_ssreflect all_algebra.
From Coq Require Import String.
From Verif Require Import Prelude LinAlg Numpy Sklearn Standard Sqrt.
Import GRing.Theory Num.Theory.

Set Implicit Arguments.
Unset Strict Implicit.
Unset Printing Implicit Defensive.
Local Open Scope ring_scope.

Section Cholesky.
Variable R : rcfType.
Variable qr : qr_fun R.
Notation arr := (arr R).
Notation obs := (obs R).

(** one factor of [_reconstruct_covariances], sqrt/cholesky.py:37-39 *)
Definition reconstruct (M : arr) : res arr :=
  Mt <-- tr M ;; dot M Mt.

(** [_reconstruct_covariances] on a two-dimensional array, sqrt/cholesky.py:29-41:
    a leading axis is added and kept in the result *)
Definition reconstruct_one (M : arr) : res arr :=
  c <-- reconstruct M ;;
  match c with A2 _ _ C => Ok (A3 [:: C]) | _ => Err NotModelled end.

(** [_filter_predict], sqrt/cholesky.py:44-107 *)
Definition ch_predict (A Q2 b mu S : arr) : res (arr * arr) :=
  n <-- np_len mu ;;
  m1 <-- dot A mu ;;
  m <-- add m1 b ;;
  AS <-- dot A S ;;
  h <-- np_hstack AS Q2 ;;
  ht <-- tr h ;;
  r <-- np_qr_r qr ht ;;
  r' <-- np_slice r 0 n 0 n ;;
  s <-- tr r' ;;
  Ok (m, s).

(** the block matrix assigned piecewise in sqrt/cholesky.py:161-166 *)
Definition ch_block (no ns : nat) (a b c : arr) : arr :=
  A2 (\matrix_(i < no + ns, j < no + ns)
    if (i < no)%N then (if (j < no)%N then aget a i j else 0)
    else if (j < no)%N then aget b (i - no) j else aget c (i - no) (j - no)).

(** [_filter_correct], sqrt/cholesky.py:110-192.  [miss] is
    [np.any(np.ma.getmask(observation))].  The unused gain of the masked
    branch is left out. *)
Definition ch_correct (C R2 d mu S z : arr) (miss : bool) : res (arr * arr) :=
  if ~~ miss then
    ns <-- np_len mu ;;
    no <-- np_len z ;;
    R2t <-- tr R2 ;;
    a <-- assign2 no no R2t ;;
    CS <-- dot C S ;;
    CSt <-- tr CS ;;
    b <-- assign2 ns no CSt ;;
    St <-- tr S ;;
    c <-- assign2 ns ns St ;;
    r <-- np_qr_r qr (ch_block no ns a b c) ;;
    g <-- np_slice r 0 no no (no + ns) ;;
    K <-- tr g ;;
    n1 <-- np_slice r 0 no 0 no ;;
    N <-- tr n1 ;;
    o1 <-- dot C mu ;;
    zhat <-- add o1 d ;;
    Ni <-- np_pinv N ;;
    e <-- sub z zhat ;;
    e1 <-- dot Ni e ;;
    e2 <-- dot K e1 ;;
    m <-- add mu e2 ;;
    s1 <-- np_slice r no (no + ns) no (no + ns) ;;
    s <-- tr s1 ;;
    Ok (m, s)
  else
    _ <-- shape0 S ;;
    _ <-- shape0 C ;;
    Ok (mu, S).

(** body of the time loop of [_filter], sqrt/cholesky.py:267-291; the
    covariance fields hold factors, the gain field is not produced *)
Definition ch_step (p : kfparams R) (Q2 R2 P2 : arr) (n k t : nat) (prev : option (frow R))
    (z : orow R k) : res (frow R) :=
  '(pm, ps) <-- (match prev with
    | None => pm <-- assign1 n (p_im p) ;; ps <-- assign2 n n P2 ;; Ok (pm, ps)
    | Some r =>
        A <-- last_dims (p_tm p) t.-1 2 ;;
        b <-- last_dims (p_to p) t.-1 1 ;;
        '(m, s) <-- ch_predict A Q2 b (f_fm r) (f_fc r) ;;
        pm <-- assign1 n m ;; ps <-- assign2 n n s ;; Ok (pm, ps)
    end) ;;
  C <-- last_dims (p_om p) t 2 ;;
  d <-- last_dims (p_oo p) t 1 ;;
  '(m, s) <-- ch_correct C R2 d pm ps (A1 z.1) (missing z) ;;
  fm <-- assign1 n m ;;
  fs <-- assign2 n n s ;;
  Ok (FRow pm ps (zeros2 0 0) fm fs).

(** sqrt/cholesky.py:267-291 *)
Fixpoint ch_loop (p : kfparams R) (Q2 R2 P2 : arr) (n k t : nat) (prev : option (frow R))
    (zs : seq (orow R k)) : res (seq (frow R)) :=
  match zs with
  | [::] => Ok [::]
  | z :: zs' =>
      r <-- ch_step p Q2 R2 P2 n t prev z ;;
      rs <-- ch_loop p Q2 R2 P2 n t.+1 (Some r) zs' ;;
      Ok (r :: rs)
  end.

(** [_filter], sqrt/cholesky.py:195-298 *)
Definition ch_filter_ (p : kfparams R) k (zs : seq (orow R k)) : res (seq (frow R)) :=
  n <-- np_len (p_im p) ;;
  Q2 <-- np_cholesky_lower (p_tc p) ;;
  R2 <-- np_cholesky_lower (p_oc p) ;;
  P2 <-- np_cholesky_lower (p_ic p) ;;
  ch_loop p Q2 R2 P2 n 0 None zs.

(** [_filter] followed by [_reconstruct_covariances] of the predicted and of
    the filtered factors, as in every method (for [filter] the predicted ones
    are computed by [_filter] and dropped), sqrt/cholesky.py:383-408, 571-601, 686-705, 763-793 *)
Definition ch_flt : filter_fun R := fun p k zs =>
  rows <-- ch_filter_ p zs ;;
  mapr (fun r => pc <-- reconstruct (f_pc r) ;; fc <-- reconstruct (f_fc r) ;;
                 Ok (FRow (f_pm r) pc (f_kg r) (f_fm r) fc)) rows.

(** class CholeskyKalmanFilter, sqrt/cholesky.py:301-799; the constructor, the
    parsing of observations and the parameter initialisation are inherited *)
Definition ckf_filter := filter_with ch_flt.               (* 351-408 *)
Definition ckf_smooth := smooth_with ch_flt.               (* 541-610 *)
Definition ckf_loglikelihood := loglikelihood_with ch_flt. (* 741-799 *)

(** [filter_update], sqrt/cholesky.py:410-539 *)
Definition ckf_filter_update (o : kf R) (fm fc : arr) (z : obs1 R)
    (tm to tc om oo oc : option arr) : res (arr * arr) :=
  p <-- initialize_parameters o ;;
  b <-- arg_or_default to (p_to p) 1 ;;
  d <-- arg_or_default oo (p_oo p) 1 ;;
  A <-- arg_or_default tm (p_tm p) 2 ;;
  C <-- arg_or_default om (p_om p) 2 ;;
  Q <-- arg_or_default tc (p_tc p) 2 ;;
  Rc <-- arg_or_default oc (p_oc p) 2 ;;
  '(za, miss) <-- (match z with
    | None => no <-- shape0 Rc ;; Ok (zeros1 no, (0 < no)%N)
    | Some zm => Ok zm
    end) ;;
  Q2 <-- np_cholesky_lower Q ;;
  R2 <-- np_cholesky_lower Rc ;;
  P2 <-- np_cholesky_lower fc ;;
  '(pm, ps) <-- ch_predict A Q2 b fm P2 ;;
  '(m, s) <-- ch_correct C R2 d pm ps za miss ;;
  c <-- reconstruct_one s ;;
  Ok (m, c).

(** [em], sqrt/cholesky.py:612-739: the default is [self.em_vars], which is
    [None] unless given to the constructor *)
Definition ckf_em (o : kf R) (X : obs) (n_iter : nat) (em_vars : option emspec) : kf R * res unit :=
  em_with ch_flt (if em_vars is Some e then Some e else k_em o) o X n_iter.
End Cholesky.
