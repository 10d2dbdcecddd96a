(** Model of pykalman/sqrt/bierman.py. *)
From mathcomp Require Import all_ssreflect all_algebra.
From Coq Require Import String.
From Verif Require Import Prelude LinAlg Numpy Sklearn Standard Sqrt.
Import GRing.Theory Num.Theory.

Set Implicit Arguments.
Unset Strict Implicit.
Unset Printing Implicit Defensive.
Local Open Scope ring_scope.

Section Arrays.
Variable R : rcfType.
Notation arr := (arr R).

(** [np.isclose(a, b)] with the default tolerances 1e-05 and 1e-08 *)
Definition isclose (a b : R) : bool :=
  `|a - b| <= (10 ^ 8)%:R^-1 + (10 ^ 5)%:R^-1 * `|b|.

(** [np.triu], sqrt/bierman.py:74 *)
Definition triu n (M : 'M[R]_n) : 'M[R]_n := \matrix_(i, j) if (i <= j)%N then M i j else 0.

(** [v[i]], [v[i] = x], [M[i, j] = x], [M[:, j] = v] with indices in range,
    sqrt/bierman.py:78-88, 255-264 *)
Definition vget n (v : 'cV[R]_n) (i : nat) : R := mget v i 0.
(** sqrt/bierman.py:78, 88, 255-262 *)
Definition vset n (v : 'cV[R]_n) (i : nat) (x : R) : 'cV[R]_n :=
  \col_(a < n) if (a == i :> nat) then x else v a 0.
(** sqrt/bierman.py:85, 259 *)
Definition mset n (M : 'M[R]_n) (i j : nat) (x : R) : 'M[R]_n :=
  \matrix_(a < n, b < n) if (a == i :> nat) && (b == j :> nat) then x else M a b.
(** sqrt/bierman.py:86, 263 *)
Definition colset n (M : 'M[R]_n) (j : nat) (v : 'cV[R]_n) : 'M[R]_n :=
  \matrix_(a < n, b < n) if (b == j :> nat) then v a 0 else M a b.
(** [M[:, j]], sqrt/bierman.py:263-264 *)
Definition colget n (M : 'M[R]_n) (j : nat) : 'cV[R]_n := \col_a mget M a j.

(** [a[i]] for a vector, a matrix; [a[i, i]], sqrt/bierman.py:324-327 *)
Definition vidx (a : arr) (i : nat) : res R :=
  match a with @A1 _ n v => if (i < n)%N then Ok (vget v i) else Err IndexError | _ => Err NotModelled end.
(** sqrt/bierman.py:324-327 *)
Definition ridx (a : arr) (i : nat) : res arr :=
  match a with
  | @A2 _ m n M => if (i < m)%N then Ok (A1 (\col_(j < n) mget M i j)) else Err IndexError
  | _ => Err NotModelled
  end.
(** sqrt/bierman.py:324-327 *)
Definition didx (a : arr) (i : nat) : res R :=
  match a with
  | @A2 _ m n M => if (i < m)%N && (i < n)%N then Ok (mget M i i) else Err IndexError
  | _ => Err NotModelled
  end.
End Arrays.

Section Bierman.
Variable R : rcfType.
Notation arr := (arr R).
Notation obs := (obs R).

(** [UDU_decomposition], sqrt/bierman.py:45-54: [U] a matrix, [D] a vector *)
Definition udu_t := (arr * arr)%type.

(** [UDU_decomposition.reconstruct], sqrt/bierman.py:52-54: [U.dot(np.diag(D)).dot(U.T)] *)
Definition bi_reconstruct (u : udu_t) : res arr :=
  dg <-- (match u.2 with A1 _ D => Ok (A2 (diag_mx D^T)) | _ => Err NotModelled end) ;;
  ud <-- dot u.1 dg ;;
  ut <-- tr u.1 ;;
  dot ud ut.

(** inner loop of [udu], sqrt/bierman.py:83-86; [j] and [k] count from one as in the code *)
Definition udu_inner n (j : nat) (alpha : R) (st : 'M[R]_n * 'M[R]_n) (k : nat) : 'M[R]_n * 'M[R]_n :=
  let: (M, U) := st in
  let beta := mget M k.-1 j.-1 in
  let U' := mset U k.-1 j.-1 (alpha * beta) in
  let M' := \matrix_(a < n, b < n)
    if (b == k.-1 :> nat) && (a < k)%N then M a b - beta * mget U' a j.-1 else M a b in
  (M', U').
(** outer loop, sqrt/bierman.py:77-86 *)
Definition udu_outer n (st : 'M[R]_n * 'M[R]_n * 'cV[R]_n) (j : nat) : 'M[R]_n * 'M[R]_n * 'cV[R]_n :=
  let: (M, U, d) := st in
  let dj := mget M j.-1 j.-1 in
  let d' := vset d j.-1 dj in
  let alpha := if 0 < dj then dj^-1 else 0 in
  let: (M', U') := foldl (udu_inner j alpha) (M, U) (iota 1 j.-1) in
  (M', U', d').
(** sqrt/bierman.py:71-90 *)
Definition udu_core n (M0 : 'M[R]_n) : 'M[R]_n * 'cV[R]_n :=
  let: (M, U, d) := foldl (@udu_outer n) (triu M0, 1%:M, 0) (rev (iota 2 n.-1)) in
  (U, vset d 0 (mget M 0 0)).

(** [udu], sqrt/bierman.py:57-90.  Rank 3 covers what [filter_update] is handed
    when its own result is passed back: an array of shape (1, n, n).  There
    [M.T] has shape (n, n, 1) and the comparison broadcasts; the size used is
    [M.shape[0]], 1. *)
Definition udu (a : arr) : res udu_t :=
  match a with
  | @A2 _ m n _ =>
      if m != n then Err NotModelled else
      as_square a (fun n M =>
        if [forall i, [forall j, isclose (M i j) (M j i)]] then
          if n == 0%N then Err IndexError
          else let: (U, d) := udu_core M in Ok (A2 U, A1 d)
        else Err AssertionError)
  | @A3 _ m n [:: X] =>
      if (m == 1%N) && (n == 1%N) then Ok (A2 (1%:M : 'M_1), A1 (const_mx (mget X 0 0) : 'cV_1))
      else if (m != n) || (n == 0%N) then Err NotModelled
      else if [forall a, [forall i, [forall j, isclose (X a i) (X a j)]]] then Err ValueError
      else Err AssertionError
  | _ => Err NotModelled
  end.

(** [decorrelate_observations], sqrt/bierman.py:93-158, without its third
    component [np.eye(n_dim_obs)]: the factor, then its action on matrices,
    offsets, observations *)
Definition deco_factor (Rc : arr) : res arr := R2 <-- np_cholesky_lower Rc ;; np_pinv R2.
(** sqrt/bierman.py:136-145 *)
Definition deco_mat (Ri C : arr) : res arr :=
  match C with
  | @A3 _ m n s =>
      s' <-- mapr (fun X => Y <-- dot Ri (A2 X) ;; assign2 m n Y) s ;;
      Ok (A3 (map (fun a => \matrix_(i < m, j < n) aget a i j) s'))
  | _ => dot Ri C
  end.
(** sqrt/bierman.py:147-148 *)
Definition deco_vec (Ri d : arr) : res arr :=
  dt <-- tr d ;; x <-- dot Ri dt ;; tr x.
(** observations: a matrix with [k] columns, its rows carrying mask bits, sqrt/bierman.py:150-151 *)
Definition deco_rows (Ri : arr) k (zs : seq (orow R k)) : res (seq (orow R k)) :=
  match Ri with
  | @A2 _ m m' X =>
      match m' =P k, m =P k with
      | ReflectT e, ReflectT e' => Ok (map (fun z : orow R k => (castmx (e', e) X *m z.1, z.2)) zs)
      | ReflectT _, ReflectF _ => Err NotModelled
      | _, _ => Err ValueError
      end
  | _ => Err NotModelled
  end.
(** a single observation; [observations.shape[-1]] is read first and raises on a scalar,
    sqrt/bierman.py:130 *)
Definition deco_width (z : arr) : res nat :=
  match z with A0 _ => Err IndexError | @A1 _ k _ => Ok k | _ => Err NotModelled end.

(** [_filter_predict], sqrt/bierman.py:161-213 *)
Definition bi_predict (A Q b mu : arr) (u : udu_t) : res (arr * udu_t) :=
  m1 <-- dot A mu ;;
  m <-- add m1 b ;;
  P <-- bi_reconstruct u ;;
  AP <-- dot A P ;;
  At <-- tr A ;;
  APA <-- dot AP At ;;
  S <-- add APA Q ;;
  u' <-- udu S ;;
  Ok (m, u').

(** the loop of [_filter_correct_single], sqrt/bierman.py:260-264; the state is
    gamma, U_bar, D_bar, k *)
Record single_st n := SingleSt { s_gam : 'cV[R]_n; s_U : 'M[R]_n; s_D : 'cV[R]_n; s_k : 'cV[R]_n }.
(** sqrt/bierman.py:260-264 *)
Definition single_step n (U : 'M[R]_n) (D f g : 'cV[R]_n) (st : single_st n) (j : nat) : single_st n :=
  let gam := vset (s_gam st) j (vget (s_gam st) j.-1 + vget g j * vget f j) in
  SingleSt gam
    (colset (s_U st) j (colget U j - (vget f j / vget gam j.-1) *: s_k st))
    (vset (s_D st) j (vget D j * vget gam j.-1 / vget gam j))
    (s_k st + vget g j *: colget U j).
(** sqrt/bierman.py:242-266 *)
Definition single_core n (U : 'M[R]_n) (D h : 'cV[R]_n) (r : R) : single_st n * R :=
  let f := U^T *m h in
  let g := diag_mx D^T *m f in
  let alpha := (f^T *m g) 0 0 + r in
  let gam := vset 0 0 (r + vget g 0 * vget f 0) in
  let st := SingleSt gam (mset 0 0 0 1) (vset 0 0 (vget D 0 * r / vget gam 0)) (vset 0 0 (vget g 0)) in
  (foldl (single_step U D f g) st (iota 1 n.-1), alpha).

(** [_filter_correct_single], sqrt/bierman.py:216-266.  Division by zero would
    produce NaN or infinity. *)
Definition bi_single (u : udu_t) (h : arr) (r : R) : res (udu_t * arr) :=
  match u.1, u.2, h with
  | @A2 _ n n' U, @A1 _ l D, @A1 _ p v =>
      match n' =P n, l =P n, p =P n with
      | ReflectT e1, ReflectT e2, ReflectT e3 =>
          if n == 0%N then Err IndexError else
          let: (st, alpha) := single_core (castmx (erefl n, e1) U) (castmx (e2, erefl _) D)
                                          (castmx (e3, erefl _) v) r in
          if [exists i, s_gam st i 0 == 0] || (alpha == 0) then Err NotANumber
          else Ok ((A2 (s_U st), A1 (s_D st)), A1 (alpha^-1 *: s_k st))
      | ReflectT _, ReflectT _, ReflectF _ => Err ValueError
      | _, _, _ => Err NotModelled
      end
  | _, _, _ => Err NotModelled
  end.

(** one pass of the loop over observation components, sqrt/bierman.py:322-339 *)
Definition bi_correct1 (C Rc d z : arr) (st : arr * udu_t) (i : nat) : res (arr * udu_t) :=
  o <-- vidx z i ;;
  b <-- vidx d i ;;
  h <-- ridx C i ;;
  r <-- didx Rc i ;;
  '(u', k) <-- bi_single st.2 h r ;;
  hm <-- dot h st.1 ;;
  zh <-- add hm (A0 b) ;;
  e <-- sub (A0 o) zh ;;
  ke <-- dot k e ;;
  m <-- add st.1 ke ;;
  Ok (m, u').
(** [_filter_correct], sqrt/bierman.py:269-347 *)
Definition bi_correct (C Rc d mu : arr) (u : udu_t) (z : arr) (miss : bool) : res (arr * udu_t) :=
  k <-- np_len z ;;
  if ~~ miss then foldr_res (bi_correct1 C Rc d z) (mu, u) (iota 0 k) else Ok (mu, u).

(** rows produced by [_filter], sqrt/bierman.py:414-417 *)
Record brow := BRow { b_pm : arr; b_pu : udu_t; b_fm : arr; b_fu : udu_t }.

(** body of the time loop of [_filter], sqrt/bierman.py:430-454; [C] and [d]
    are the decorrelated parameters *)
Definition bi_step (p : kfparams R) (C d : arr) (u0 : udu_t) (n k t : nat) (prev : option brow)
    (z : orow R k) : res brow :=
  '(pm, pu) <-- (match prev with
    | None => pm <-- assign1 n (p_im p) ;; Ok (pm, u0)
    | Some r =>
        A <-- last_dims (p_tm p) t.-1 2 ;;
        b <-- last_dims (p_to p) t.-1 1 ;;
        '(m, u) <-- bi_predict A (p_tc p) b (b_fm r) (b_fu r) ;;
        pm <-- assign1 n m ;; Ok (pm, u)
    end) ;;
  Ct <-- last_dims C t 2 ;;
  dt <-- last_dims d t 1 ;;
  '(m, u) <-- bi_correct Ct (A2 (1%:M : 'M[R]_k)) dt pm pu (A1 z.1) (missing z) ;;
  fm <-- assign1 n m ;;
  Ok (BRow pm pu fm u).

(** the loop over time of [_filter], sqrt/bierman.py:430-454 *)
Fixpoint bi_loop (p : kfparams R) (C d : arr) (u0 : udu_t) (n k t : nat) (prev : option brow)
    (zs : seq (orow R k)) : res (seq brow) :=
  match zs with
  | [::] => Ok [::]
  | z :: zs' =>
      r <-- bi_step p C d u0 n t prev z ;;
      rs <-- bi_loop p C d u0 n t.+1 (Some r) zs' ;;
      Ok (r :: rs)
  end.

(** [_filter], sqrt/bierman.py:350-461 *)
Definition bi_filter_ (p : kfparams R) k (zs : seq (orow R k)) : res (seq brow) :=
  n <-- np_len (p_im p) ;;
  u0 <-- udu (p_ic p) ;;
  Ri <-- deco_factor (p_oc p) ;;
  C <-- deco_mat Ri (p_om p) ;;
  d <-- deco_vec Ri (p_oo p) ;;
  zs' <-- deco_rows Ri zs ;;
  bi_loop p C d u0 n 0 None zs'.

(** [_filter] followed by [_reconstruct_covariances], sqrt/bierman.py:30-42, of
    the predicted and filtered factors, as in every method; [covariances[0]]
    raises on an empty array *)
Definition bi_flt : filter_fun R := fun p k zs =>
  rows <-- bi_filter_ p zs ;;
  if rows is [::] then Err IndexError else
  mapr (fun r => pc <-- bi_reconstruct (b_pu r) ;; fc <-- bi_reconstruct (b_fu r) ;;
                 Ok (FRow (b_pm r) pc (zeros2 0 0) (b_fm r) fc)) rows.

(** class BiermanKalmanFilter, sqrt/bierman.py:464-968; the constructor, the
    parsing of observations and the parameter initialisation are inherited *)
Definition bkf_filter := filter_with bi_flt.
(** [smooth], sqrt/bierman.py:710-779 *)
Definition bkf_smooth := smooth_with bi_flt.
(** [loglikelihood], sqrt/bierman.py:910-968 *)
Definition bkf_loglikelihood := loglikelihood_with bi_flt.

(** [filter_update]; the covariance is returned with a leading axis, sqrt/bierman.py:573-708 *)
Definition bkf_filter_update (o : kf R) (fm fc : arr) (z : obs1 R)
    (tm to tc om oo oc : option arr) : res (arr * arr) :=
  p <-- initialize_parameters o ;;
  b <-- arg_or_default to (p_to p) 1 ;;
  d <-- arg_or_default oo (p_oo p) 1 ;;
  A <-- arg_or_default tm (p_tm p) 2 ;;
  C <-- arg_or_default om (p_om p) 2 ;;
  Q <-- arg_or_default tc (p_tc p) 2 ;;
  Rc <-- arg_or_default oc (p_oc p) 2 ;;
  '(za, miss) <-- (match z with
    | None => no <-- shape0 Rc ;; Ok (zeros1 no, (0 < no)%N)
    | Some zm => Ok zm
    end) ;;
  u <-- udu fc ;;
  k <-- deco_width za ;;
  Ri <-- deco_factor Rc ;;
  C' <-- deco_mat Ri C ;;
  d' <-- deco_vec Ri d ;;
  z' <-- dot Ri za ;;
  '(pm, pu) <-- bi_predict A Q b fm u ;;
  '(m, u') <-- bi_correct C' (A2 (1%:M : 'M[R]_k)) d' pm pu z' miss ;;
  c <-- bi_reconstruct u' ;;
  match c with A2 _ _ P => Ok (m, A3 [:: P]) | _ => Err NotModelled end.

(** [em]: the default is [self.em_vars], which is [None] unless given to the constructor,
    sqrt/bierman.py:781-908 *)
Definition bkf_em (o : kf R) (X : obs) (n_iter : nat) (em_vars : option emspec) : kf R * res unit :=
  em_with bi_flt (if em_vars is Some e then Some e else k_em o) o X n_iter.
End Bierman.
