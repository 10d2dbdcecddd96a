(** Model of pykalman/sqrt/unscented.py, for an arbitrary QR routine [qr]. *)
From mathcomp Require Import all_ssreflect all_algebra.
From Coq Require Import String.
From Verif Require Import Prelude LinAlg Numpy Sklearn Standard Sqrt Cholesky Rng Unscented.
Import GRing.Theory Num.Theory.

Set Implicit Arguments.
Unset Strict Implicit.
Unset Printing Implicit Defensive.
Local Open Scope ring_scope.

Section SqrtUnscented.
Variable R : rcfType.
Variable qr : qr_fun R.
Notation arr := (arr R).
Notation obs := (obs R).

(** [scipy.linalg.cholesky(a)]: the upper factor, sqrt/unscented.py:443-449, 508, 739-741 *)
Definition np_cholesky_upper (a : arr) : res arr := L <-- np_cholesky_T a ;; tr L.

(** [scipy.linalg.lstsq(a, b)[0]]: the least-squares solution of least norm,
    sqrt/unscented.py:290-291, 541-542 *)
Definition np_lstsq (a b : arr) : res arr := Ai <-- np_pinv a ;; dot Ai b.

(** one factor of [_reconstruct_covariances], sqrt/unscented.py:39-41 *)
Definition su_gram (M : arr) : res arr := Mt <-- tr M ;; dot Mt M.
(** [_reconstruct_covariances] on a two-dimensional array, sqrt/unscented.py:31-43:
    a leading axis is added and kept in the result *)
Definition su_reconstruct_one (M : arr) : res arr :=
  c <-- su_gram M ;;
  match c with A2 _ _ C => Ok (A3 [:: C]) | _ => Err NotModelled end.

(** body of the inner loop of [cholupdate], sqrt/unscented.py:99-105.  A
    division by zero gives a value that is not finite; it reaches the result
    exactly when some entry follows position [k]. *)
Definition cu_inner n (sign : R) (st : 'M[R]_n * 'cV[R]_n) (k : nat) : res ('M[R]_n * 'cV[R]_n) :=
  let: (A, x) := st in
  let a := mget A k k in
  let xk := mget x k 0 in
  let r2 := a ^+ 2 + sign * xk ^+ 2 in
  let r := if r2 < 0 then 0 else Num.sqrt r2 in
  if (k.+1 < n)%N && ((a == 0) || (r == 0)) then Err NotANumber else
  let c := r / a in
  let s := xk / a in
  let A' := \matrix_(i < n, j < n)
    if (i == k :> nat) && (j == k :> nat) then r
    else if (i == k :> nat) && (k < j)%N then (A i j + sign * s * x j 0) / c else A i j in
  let x' := \col_(j < n) if (k < j)%N then c * x j 0 - s * mget A' k j else x j 0 in
  Ok (A', x').
(** body of the outer loop, sqrt/unscented.py:96-105 *)
Definition cu_outer n (sign : R) v (X : 'M[R]_(v, n)) (A : 'M[R]_n) (i : nat) : res 'M[R]_n :=
  '(A', _) <-- foldr_res (@cu_inner n sign) (A, \col_j mget X i j) (iota 0 n) ;;
  Ok A'.
(** [cholupdate], sqrt/unscented.py:46-106 *)
Definition cholupdate (a x : arr) (weight : R) : res arr :=
  match a, (if x is A1 _ _ then atleast_2d x else x) with
  | @A2 _ p q A, @A2 _ v n X =>
      match p =P n, q =P n with
      | ReflectT e1, ReflectT e2 =>
          A' <-- foldr_res (@cu_outer n (Num.sg weight) v (Num.sqrt `|weight| *: X))
                  (castmx (e1, e2) A) (iota 0 v) ;;
          Ok (A2 A')
      | _, _ => Err NotModelled
      end
  | _, A0 _ => Err ValueError
  | _, _ => Err NotModelled
  end.

(** [qr], sqrt/unscented.py:109-115 *)
Definition su_qr (a : arr) : res arr :=
  match a with
  | @A2 _ N L M => if (L <= N)%N then r <-- np_qr_r qr a ;; np_slice r 0 L 0 L else Err ValueError
  | A3 _ _ _ => Err ValueError
  | _ => Err ValueError
  end.

(** [np.sign(w)[np.newaxis, :] * np.sqrt(np.abs(w))[np.newaxis, :]], sqrt/unscented.py:137-141 *)
Definition signed_roots (w : arr) : res arr :=
  match w with
  | A1 _ v => Ok (A2 (\row_j (Num.sg (v j 0) * Num.sqrt `|v j 0|)))
  | A0 _ => Err IndexError
  | _ => Err NotModelled
  end.
(** [points2moments], sqrt/unscented.py:118-146; the second moment is a factor *)
Definition su_points2moments (pts : sigma_points R) (sigma2_noise : option arr) : res (moments R) :=
  pt <-- tr (sp_points pts) ;;
  mu <-- dot pt (sp_wm pts) ;;
  w <-- signed_roots (sp_wc pts) ;;
  muc <-- newaxis_col mu ;;
  diff <-- sub pt muc ;;
  d <-- bop (fun x y => x * y) w diff ;;
  h <-- (if sigma2_noise is Some N then np_hstack d N else Ok d) ;;
  ht <-- tr h ;;
  sigma2 <-- su_qr ht ;;
  Ok (mu, sigma2).

(** [moments2points], sqrt/unscented.py:149-203 *)
Definition su_moments2points (ms : moments R) (alpha beta kappa : option R) : res (sigma_points R) :=
  let: (mu, sigma2) := ms in
  n_dim <-- np_len mu ;;
  let alpha := odflt 1 alpha in
  let beta := odflt 0 beta in
  let kappa := odflt (3%:R - n_dim%:R) kappa in
  sigma2t <-- tr sigma2 ;;
  let lamda := alpha * alpha * (n_dim%:R + kappa) - n_dim%:R in
  let c := n_dim%:R + lamda in
  match mu, sigma2t with
  | @A1 _ n v, @A2 _ p q S2 =>
      if c < 0 then Err NotANumber else
      if ((p == n) || (p == 1%N)) && ((q == n) || (q == 1%N)) then
        if c == 0 then Err ZeroDivisionError else
        Ok (SigmaPoints (A2 (sigma_rows v S2 c))
             (A1 (sigma_weights n (lamda / c) c))
             (A1 (sigma_weights n (lamda / c + (1 - alpha * alpha + beta)) c)))
      else Err ValueError
  | _, _ => Err NotModelled
  end.

(** [_unscented_transform], sqrt/unscented.py:206-248 (noise points are never
    given in this file) *)
Definition su_transform (pts : sigma_points R) (f : pyfun R) (sigma2_noise : option arr) :
    res (sigma_points R * moments R) :=
  n_points <-- shape0 (sp_points pts) ;;
  l <-- mapr (fun i => x <-- idx0 (sp_points pts) i ;; f [:: x]) (iota 0 n_points) ;;
  pred <-- vstack l ;;
  let pp := SigmaPoints pred (sp_wm pts) (sp_wc pts) in
  ms <-- su_points2moments pp sigma2_noise ;;
  Ok (pp, ms).

(** [_unscented_correct], sqrt/unscented.py:251-302; [z] is (data, some entry masked) *)
Definition su_correct (cross : arr) (mp om : moments R) (z : arr * bool) : res (moments R) :=
  if ~~ z.2 then
    ct <-- tr cross ;;
    k1 <-- np_lstsq om.2 ct ;;
    st <-- tr om.2 ;;
    k2 <-- np_lstsq st k1 ;;
    K <-- tr k2 ;;
    inn <-- sub z.1 om.1 ;;
    e <-- dot K inn ;;
    mu <-- add mp.1 e ;;
    U <-- dot K om.2 ;;
    Ut <-- tr U ;;
    sigma2 <-- cholupdate mp.2 Ut (-1) ;;
    Ok (mu, sigma2)
  else Ok mp.

(** [unscented_filter_correct], sqrt/unscented.py:350-404 *)
Definition su_filter_correct (g : pyfun R) (mp : moments R) (points_pred : sigma_points R) (z : arr * bool)
    (sigma2_observation : option arr) : res (moments R) :=
  '(opts, om) <-- su_transform points_pred g sigma2_observation ;;
  dx <-- sub (sp_points points_pred) mp.1 ;;
  dxt <-- tr dx ;;
  W <-- np_diag (sp_wm points_pred) ;;
  s1 <-- dot dxt W ;;
  dz <-- sub (sp_points opts) om.1 ;;
  cross <-- dot s1 dz ;;
  su_correct cross mp om z.

(** body of the loop of [_additive_unscented_filter], sqrt/unscented.py:446-470;
    [unscented_filter_predict] (305-347) is [su_transform] *)
Definition su_step (p : uparams R) (Q2 R2 : arr) (n t : nat) (prev : option (moments R)) (z : arr * bool) :
    res (moments R) :=
  '(mu, sigma2) <-- (match prev with
    | None => s <-- np_cholesky_upper (u_ic p) ;; Ok (u_im p, s)
    | Some s => Ok s
    end) ;;
  ps <-- su_moments2points (mu, sigma2) None None None ;;
  '(pp, mp) <-- (match prev with
    | None => mp <-- su_points2moments ps None ;; Ok (ps, mp)
    | Some _ =>
        f <-- fun_at (u_f p) t.-1 ;;
        '(_, mp) <-- su_transform ps f (Some Q2) ;;
        pp <-- su_moments2points mp None None None ;;
        Ok (pp, mp)
    end) ;;
  g <-- fun_at (u_g p) t ;;
  '(m, s) <-- su_filter_correct g mp pp z (Some R2) ;;
  fm <-- assign1 n m ;;
  fs <-- assign2 n n s ;;
  Ok (fm, fs).
(** [_additive_unscented_filter], sqrt/unscented.py:407-472 *)
Definition su_filter_ (p : uparams R) k (zs : seq (orow R k)) : res (seq (moments R)) :=
  n <-- shape_m1 (u_tc p) ;;
  Q2 <-- np_cholesky_upper (u_tc p) ;;
  R2 <-- np_cholesky_upper (u_oc p) ;;
  ufilter_loop (fun p n t prev z => su_step p Q2 R2 n t prev z) p n 0 None zs.

(** body of the loop of [_additive_unscented_smoother], sqrt/unscented.py:510-549 *)
Definition su_back (p : uparams R) (Q2 : arr) (n t : nat) (f s : moments R) : res (moments R) :=
  ps <-- su_moments2points f None None None ;;
  ft <-- fun_at (u_f p) t ;;
  '(pp, mp) <-- su_transform ps ft (Some Q2) ;;
  dp <-- sub (sp_points pp) mp.1 ;;
  dpt <-- tr dp ;;
  W <-- np_diag (sp_wc pp) ;;
  s1 <-- dot dpt W ;;
  ds <-- sub (sp_points ps) f.1 ;;
  s2 <-- dot s1 ds ;;
  pair <-- tr s2 ;;
  pairt <-- tr pair ;;
  mt <-- tr mp.2 ;;
  g1 <-- np_lstsq mt pairt ;;
  g2 <-- np_lstsq mp.2 g1 ;;
  L <-- tr g2 ;;
  d1 <-- sub s.1 mp.1 ;;
  m1 <-- dot L d1 ;;
  m <-- add f.1 m1 ;;
  m' <-- assign1 n m ;;
  U <-- cholupdate mp.2 s.2 (-1) ;;
  Ut <-- tr U ;;
  lu <-- dot L Ut ;;
  lut <-- tr lu ;;
  c <-- cholupdate f.2 lut (-1) ;;
  c' <-- assign2 n n c ;;
  Ok (m', c').

(** the covariances of a list of factors, sqrt/unscented.py:643-645, 821-823 *)
Definition su_covariances (rows : seq (moments R)) : res (seq (moments R)) :=
  mapr (fun r => c <-- su_gram r.2 ;; Ok (r.1, c)) rows.

(** class AdditiveUnscentedKalmanFilter, sqrt/unscented.py:554-825; the
    constructor, the parsing of observations and the parameter initialisation
    are inherited *)
(** [filter], 599-647 *)
Definition sukf_filter (o : ukf R) (X : obs) : res (seq (moments R)) :=
  let: existT k zs := parse_observations X in
  p <-- uinitialize (@add_default R) o ;;
  rows <-- su_filter_ p zs ;;
  su_covariances rows.

(** [smooth], 771-825 *)
Definition sukf_smooth (o : ukf R) (X : obs) : res (seq (moments R)) :=
  let: existT k zs := parse_observations X in
  p <-- uinitialize (@add_default R) o ;;
  rows <-- su_filter_ p zs ;;
  n <-- shape_m1 (u_tc p) ;;
  _ <-- (if rows is [::] then Err IndexError else Ok tt) ;;
  Q2 <-- np_cholesky_upper (u_tc p) ;;
  srows <-- usmooth_loop (fun p n t f s => su_back p Q2 n t f s) p n 0 rows ;;
  su_covariances srows.

(** [filter_update], 649-769 *)
Definition sukf_filter_update (o : ukf R) (fm fc : arr) (z : obs1 R) (f : option (pyfun R)) (tc : option arr)
    (g : option (pyfun R)) (oc : option arr) : res (moments R) :=
  p <-- uinitialize (@add_default R) o ;;
  ft <-- default_function f (u_f p) ;;
  gt <-- default_function g (u_g p) ;;
  Q <-- arg_or_default tc (u_tc p) 2 ;;
  Rc <-- arg_or_default oc (u_oc p) 2 ;;
  za <-- uobs Rc z ;;
  S2 <-- np_cholesky_upper fc ;;
  Q2 <-- np_cholesky_upper Q ;;
  R2 <-- np_cholesky_upper Rc ;;
  ps <-- su_moments2points (fm, S2) None None None ;;
  '(_, mp) <-- su_transform ps ft (Some Q2) ;;
  pp <-- su_moments2points mp None None None ;;
  '(m, s) <-- su_filter_correct gt mp pp za (Some R2) ;;
  c <-- su_reconstruct_one s ;;
  Ok (m, c).
End SqrtUnscented.
