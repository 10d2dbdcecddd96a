(** Model of pykalman/unscented.py. *)
From mathcomp Require Import all_ssreflect all_algebra.
From Coq Require Import String.
From Verif Require Import Prelude LinAlg Numpy Sklearn Standard Rng.
Import GRing.Theory Num.Theory.

Set Implicit Arguments.
Unset Strict Implicit.
Unset Printing Implicit Defensive.
Local Open Scope ring_scope.

Section Unscented.
Variable R : rcfType.
Notation arr := (arr R).
Notation obs := (obs R).

(** ** More numpy *)

(** [a[:, np.newaxis]] of a vector, unscented.py:55 *)
Definition newaxis_col (a : arr) : res arr :=
  match a with A0 _ => Err IndexError | A1 _ v => Ok (A2 v) | _ => Err NotModelled end.
(** [np.diag] of a vector, unscented.py:56, 385, 527, 661 *)
Definition np_diag (a : arr) : res arr :=
  match a with A1 _ v => Ok (A2 (diag_mx v^T)) | A0 _ => Err ValueError | _ => Err NotModelled end.
(** [a.shape[-1]] exists as [shape_m1]; rows of a 2-d view, for [np.vstack], unscented.py:160 *)
Definition vstack2 (a b : arr) : res arr :=
  match a, b with
  | @A2 _ m n M, @A2 _ p q N =>
      match q =P n with
      | ReflectT e => Ok (A2 (col_mx M (castmx (erefl p, e) N)))
      | ReflectF _ => Err ValueError
      end
  | _, _ => Err NotModelled
  end.
(** [np.vstack(list)]: every element is made 2-d first, unscented.py:160 *)
Fixpoint vstack (s : seq arr) : res arr :=
  match s with
  | [::] => Err ValueError
  | [:: a] => Ok (atleast_2d a)
  | a :: rest => r <-- vstack rest ;; vstack2 (atleast_2d a) r
  end.
(** [np.concatenate] of 1-d arrays (two at a time), unscented.py:224 *)
Definition concat2 (a b : arr) : res arr :=
  match a, b with
  | A1 _ u, A1 _ v => Ok (A1 (col_mx u v))
  | A0 _, _ | _, A0 _ => Err ValueError
  | _, _ => Err NotModelled
  end.
(** [scipy.linalg.block_diag] of two arrays, unscented.py:225 *)
Definition block_diag2 (a b : arr) : res arr :=
  match atleast_2d a, atleast_2d b with
  | A2 _ _ M, A2 _ _ N => Ok (A2 (block_mx M 0 0 N))
  | _, _ => Err ValueError
  end.
(** [a[:, s:e]], unscented.py:235-243 *)
Definition cols (a : arr) (s e : nat) : res arr :=
  match a with
  | @A2 _ m n M => Ok (A2 (\matrix_(i < m, j < minn e n - minn s n) mget M i (s + j)))
  | _ => Err NotModelled
  end.
(** [scipy.linalg.cholesky(a).T]: the upper triangle of [a] is read, the factor
    is upper triangular, its transpose lower triangular, unscented.py:94 *)
Definition np_cholesky_T (a : arr) : res arr :=
  as_square a (fun n M => if chol M^T is Some L then Ok (A2 L) else Err LinAlgError).

(** ** Sigma points *)

(** unscented.py:29-31 and 35 *)
Record sigma_points := SigmaPoints { sp_points : arr; sp_wm : arr; sp_wc : arr }.
(** unscented.py:35 *)
Definition moments : Type := (arr * arr)%type.

(** [points2moments], unscented.py:38-59 *)
Definition points2moments (pts : sigma_points) (sigma_noise : option arr) : res moments :=
  pt <-- tr (sp_points pts) ;;
  mu <-- dot pt (sp_wm pts) ;;
  muc <-- newaxis_col mu ;;
  diff <-- sub pt muc ;;
  W <-- np_diag (sp_wc pts) ;;
  s1 <-- dot diff W ;;
  dt <-- tr diff ;;
  sigma <-- dot s1 dt ;;
  sigma' <-- (if sigma_noise is Some N then add sigma N else Ok sigma) ;;
  Ok (mu, sigma').

(** the points and weights of [moments2points] for a factor [S2] of the
    covariance: row [i] of the points is column [i] of the Python array before
    the final transpose.  [S2] is broadcast when it is 1 x 1.  unscented.py:105-107 *)
Definition sigma_rows n (mu : 'cV[R]_n) p q (S2 : 'M[R]_(p, q)) (c : R) : 'M[R]_((n + n).+1, n) :=
  \matrix_(i, j) (if i == 0%N :> nat then mu j 0
                  else if (i <= n)%N then mu j 0 + bget S2 j i.-1 * Num.sqrt c
                  else mu j 0 - bget S2 j (i - n.+1)%N * Num.sqrt c).
(** unscented.py:110-114 *)
Definition sigma_weights n (w0 c : R) : 'cV[R]_((n + n).+1) :=
  \col_i (if i == 0%N :> nat then w0 else 2%:R^-1 / c).

(** [moments2points], unscented.py:62-116 *)
Definition moments2points (ms : moments) (alpha beta kappa : option R) : res sigma_points :=
  let: (mu, sigma) := ms in
  n_dim <-- np_len mu ;;
  let alpha := odflt 1 alpha in
  let beta := odflt 0 beta in
  let kappa := odflt (3%:R - n_dim%:R) kappa in
  sigma2 <-- np_cholesky_T sigma ;;
  let lamda := alpha * alpha * (n_dim%:R + kappa) - n_dim%:R in
  let c := n_dim%:R + lamda in
  match mu, sigma2 with
  | @A1 _ n v, @A2 _ p q S2 =>
      if c < 0 then Err NotANumber else
      if ((p == n) || (p == 1%N)) && ((q == n) || (q == 1%N)) then
        if c == 0 then Err ZeroDivisionError else
        Ok (SigmaPoints (A2 (sigma_rows v S2 c))
             (A1 (sigma_weights n (lamda / c) c))
             (A1 (sigma_weights n (lamda / c + (1 - alpha * alpha + beta)) c)))
      else Err ValueError
  | _, _ => Err NotModelled
  end.

(** a Python function, applied to a list of positional arguments, unscented.py:149-158 *)
Definition pyfun : Type := seq arr -> res arr.

(** [unscented_transform], unscented.py:119-166 *)
Definition unscented_transform (pts : sigma_points) (f : option pyfun) (points_noise : option sigma_points)
    (sigma_noise : option arr) : res (sigma_points * moments) :=
  n_points <-- shape0 (sp_points pts) ;;
  pred <-- (match f with
    | None => Ok (sp_points pts)
    | Some f =>
        l <-- mapr (fun i =>
               x <-- idx0 (sp_points pts) i ;;
               match points_noise with
               | None => f [:: x]
               | Some pn => w <-- idx0 (sp_points pn) i ;; f [:: x; w]
               end) (iota 0 n_points) ;;
        vstack l
    end) ;;
  let pp := SigmaPoints pred (sp_wm pts) (sp_wc pts) in
  ms <-- points2moments pp sigma_noise ;;
  Ok (pp, ms).

(** [unscented_correct], unscented.py:169-206; [z] is (data, some entry masked) *)
Definition unscented_correct (cross : arr) (mp om : moments) (z : arr * bool) : res moments :=
  if ~~ z.2 then
    Si <-- np_pinv om.2 ;;
    K <-- dot cross Si ;;
    inn <-- sub z.1 om.1 ;;
    k1 <-- dot K inn ;;
    mu <-- add mp.1 k1 ;;
    ct <-- tr cross ;;
    k2 <-- dot K ct ;;
    sigma <-- sub mp.2 k2 ;;
    Ok (mu, sigma)
  else Ok mp.

(** [augmented_points] of two and of three moments, unscented.py:209-246 (the Python code
    is a loop over the list; only these two lengths are used) *)
Definition part (pts : sigma_points) (s e : nat) : res sigma_points :=
  p <-- cols (sp_points pts) s e ;; Ok (SigmaPoints p (sp_wm pts) (sp_wc pts)).
(** [augmented_points] of two moments, unscented.py:209-246 as called in 514-516 *)
Definition augmented_points2 (m1 m2 : moments) : res (sigma_points * sigma_points) :=
  mu <-- concat2 m1.1 m2.1 ;;
  sigma <-- block_diag2 m1.2 m2.2 ;;
  pts <-- moments2points (mu, sigma) None None None ;;
  d1 <-- np_len m1.1 ;; d2 <-- np_len m2.1 ;;
  p1 <-- part pts 0 d1 ;;
  p2 <-- part pts d1 (d1 + d2) ;;
  Ok (p1, p2).
(** [augmented_points] of three moments, unscented.py:209-246 as called in 249-291 *)
Definition augmented_points3 (m1 m2 m3 : moments) : res (sigma_points * sigma_points * sigma_points) :=
  mu23 <-- concat2 m2.1 m3.1 ;;
  mu <-- concat2 m1.1 mu23 ;;
  sigma23 <-- block_diag2 m2.2 m3.2 ;;
  sigma <-- block_diag2 m1.2 sigma23 ;;
  pts <-- moments2points (mu, sigma) None None None ;;
  d1 <-- np_len m1.1 ;; d2 <-- np_len m2.1 ;; d3 <-- np_len m3.1 ;;
  p1 <-- part pts 0 d1 ;;
  p2 <-- part pts d1 (d1 + d2) ;;
  p3 <-- part pts (d1 + d2) (d1 + d2 + d3) ;;
  Ok (p1, p2, p3).

(** [augmented_unscented_filter_points], unscented.py:249-291 *)
Definition augmented_unscented_filter_points (mean_state cov_state Q Rc : arr) :=
  n <-- shape0 cov_state ;;
  m <-- shape0 Rc ;;
  augmented_points3 (mean_state, cov_state) (zeros1 n, Q) (zeros1 m, Rc).

(** [unscented_filter_predict], unscented.py:294-336 (one of the two noises is always given) *)
Definition unscented_filter_predict (f : pyfun) (points_state : sigma_points)
    (points_transition : option sigma_points) (sigma_transition : option arr) :=
  unscented_transform points_state (Some f) points_transition sigma_transition.

(** [unscented_filter_correct], unscented.py:339-393 *)
Definition unscented_filter_correct (g : pyfun) (mp : moments) (points_pred : sigma_points) (z : arr * bool)
    (points_observation : option sigma_points) (sigma_observation : option arr) : res moments :=
  '(opts, om) <-- unscented_transform points_pred (Some g) points_observation sigma_observation ;;
  dx <-- sub (sp_points points_pred) mp.1 ;;
  dxt <-- tr dx ;;
  W <-- np_diag (sp_wm points_pred) ;;
  s1 <-- dot dxt W ;;
  dz <-- sub (sp_points opts) om.1 ;;
  cross <-- dot s1 dz ;;
  unscented_correct cross mp om z.

(** ** Function arrays

    A single function, a 1-d or a 2-d array of functions.  unscented.py:742-743 *)
Inductive fcont := F0 of pyfun | F1 of seq pyfun | F2 of seq (seq pyfun).
(** [array1d], unscented.py:742-743 *)
Definition farray1d (f : fcont) : fcont := if f is F0 g then F1 [:: g] else f.
(** [_last_dims(f, t, ndims=1)[0]] (standard.py:92-120): a 1-d array is
    returned whole, so its element 0 is taken whatever [t] *)
Definition fun_at (f : fcont) (t : nat) : res pyfun :=
  match f with
  | F0 _ => Err ValueError
  | F1 s => getidx s 0
  | F2 rows => r <-- getidx rows t ;; getidx r 0
  end.

(** parameters after conversion, unscented.py:724-731 *)
Record uparams := UParams {
  u_f : fcont; u_g : fcont; u_tc : arr; u_oc : arr; u_im : arr; u_ic : arr
}.

(** ** Filters *)

(** body of the loop of [augmented_unscented_filter], unscented.py:434-468.  [n] is
    [Q.shape[-1]]; [prev] is the row of time [t-1]. *)
Definition aug_step (p : uparams) (n t : nat) (prev : option moments) (z : arr * bool) : res moments :=
  let: (mu, sigma) := if prev is Some s then s else (u_im p, u_ic p) in
  '(ps, pt, po) <-- augmented_unscented_filter_points mu sigma (u_tc p) (u_oc p) ;;
  '(pp, mp) <-- (match prev with
    | None => mp <-- points2moments ps None ;; Ok (ps, mp)
    | Some _ => f <-- fun_at (u_f p) t.-1 ;; unscented_filter_predict f ps (Some pt) None
    end) ;;
  g <-- fun_at (u_g p) t ;;
  '(m, c) <-- unscented_filter_correct g mp pp z (Some po) None ;;
  fm <-- assign1 n m ;;
  fc <-- assign2 n n c ;;
  Ok (fm, fc).

(** body of the loop of [additive_unscented_filter], unscented.py:581-605 *)
Definition add_step (p : uparams) (n t : nat) (prev : option moments) (z : arr * bool) : res moments :=
  let: (mu, sigma) := if prev is Some s then s else (u_im p, u_ic p) in
  ps <-- moments2points (mu, sigma) None None None ;;
  '(pp, mp) <-- (match prev with
    | None => mp <-- points2moments ps None ;; Ok (ps, mp)
    | Some _ =>
        f <-- fun_at (u_f p) t.-1 ;;
        '(_, mp) <-- unscented_filter_predict f ps None (Some (u_tc p)) ;;
        pp <-- moments2points mp None None None ;;
        Ok (pp, mp)
    end) ;;
  g <-- fun_at (u_g p) t ;;
  '(m, c) <-- unscented_filter_correct g mp pp z None (Some (u_oc p)) ;;
  fm <-- assign1 n m ;;
  fc <-- assign2 n n c ;;
  Ok (fm, fc).

(** one step of either filter: unscented.py:433-468 and 581-605 *)
Definition ustep : Type := uparams -> nat -> nat -> option moments -> arr * bool -> res moments.
(** unscented.py:433-468, 581-605 *)
Fixpoint ufilter_loop (stp : ustep) (p : uparams) (n t : nat) (prev : option moments) k (zs : seq (orow R k)) :
    res (seq moments) :=
  match zs with
  | [::] => Ok [::]
  | z :: zs' =>
      r <-- stp p n t prev (A1 z.1, missing z) ;;
      rs <-- ufilter_loop stp p n t.+1 (Some r) zs' ;;
      Ok (r :: rs)
  end.
(** [augmented_unscented_filter], unscented.py:396-470, and [additive_unscented_filter], 544-607 *)
Definition unscented_filter (stp : ustep) (p : uparams) k (zs : seq (orow R k)) : res (seq moments) :=
  n <-- shape_m1 (u_tc p) ;; ufilter_loop stp p n 0 None zs.

(** ** Smoothers *)

(** common end of the two loop bodies, unscented.py:524-539 and 658-673 *)
Definition usmooth_update (n : nat) (fm fc : arr) (ps pp : sigma_points) (mp : moments) (sm sc : arr) : res moments :=
  dp <-- sub (sp_points pp) mp.1 ;;
  dpt <-- tr dp ;;
  W <-- np_diag (sp_wc pp) ;;
  s1 <-- dot dpt W ;;
  ds <-- sub (sp_points ps) fm ;;
  s2 <-- dot s1 ds ;;
  pair <-- tr s2 ;;
  Pi <-- np_pinv mp.2 ;;
  L <-- dot pair Pi ;;
  d1 <-- sub sm mp.1 ;;
  m1 <-- dot L d1 ;;
  m <-- add fm m1 ;;
  d2 <-- sub sc mp.2 ;;
  c1 <-- dot L d2 ;;
  Lt <-- tr L ;;
  c2 <-- dot c1 Lt ;;
  c <-- add fc c2 ;;
  m' <-- assign1 n m ;;
  c' <-- assign2 n n c ;;
  Ok (m', c').

(** body of the loop of [augmented_unscented_smoother], unscented.py:507-539 *)
Definition aug_back (p : uparams) (n t : nat) (f s : moments) : res moments :=
  '(ps, pt) <-- augmented_points2 f (zeros1 n, u_tc p) ;;
  ft <-- fun_at (u_f p) t ;;
  '(pp, mp) <-- unscented_transform ps (Some ft) (Some pt) None ;;
  usmooth_update n f.1 f.2 ps pp mp s.1 s.2.
(** body of the loop of [additive_unscented_smoother], unscented.py:644-673 *)
Definition add_back (p : uparams) (n t : nat) (f s : moments) : res moments :=
  ps <-- moments2points f None None None ;;
  ft <-- fun_at (u_f p) t ;;
  '(pp, mp) <-- unscented_transform ps (Some ft) None (Some (u_tc p)) ;;
  usmooth_update n f.1 f.2 ps pp mp s.1 s.2.

(** one step of either smoother: unscented.py:507-539 and 644-673 *)
Definition uback : Type := uparams -> nat -> nat -> moments -> moments -> res moments.
(** the backward loops: [rows] are the filtered moments from time [t] on;
    [mu_filt[-1]] of an empty array is an [IndexError], unscented.py:505-539, 642-673 *)
Fixpoint usmooth_loop (bck : uback) (p : uparams) (n t : nat) (rows : seq moments) : res (seq moments) :=
  match rows with
  | [::] => Err IndexError
  | [:: r] => Ok [:: r]
  | r :: rest =>
      ss <-- usmooth_loop bck p n t.+1 rest ;;
      match ss with
      | [::] => Err IndexError
      | s :: _ => r' <-- bck p n t r s ;; Ok (r' :: ss)
      end
  end.

(** ** The classes *)

(** unscented.py:706-715 *)
Record ukf := UKF {
  o_f : option fcont; o_g : option fcont; o_tc : option arr; o_oc : option arr;
  o_im : option arr; o_ic : option arr; o_n : nat; o_m : nat; o_rs : option rspec
}.
(** unscented.py:681-692 *)
Record ukfargs := UKFArgs {
  b_f : option fcont; b_g : option fcont; b_tc : option arr; b_oc : option arr;
  b_im : option arr; b_ic : option arr; b_n : option nat; b_m : option nat; b_rs : option rspec
}.

(** [UnscentedMixin.__init__], unscented.py:681-715 *)
Definition ukf_init (a : ukfargs) : res ukf :=
  n <-- determine_dimensionality
    [:: (b_tc a, fun v => shape_m2 (array2d v));
        (b_ic a, fun v => shape_m2 (array2d v));
        (b_im a, fun v => shape_m1 (array1d v))] (b_n a) ;;
  m <-- determine_dimensionality [:: (b_oc a, fun v => shape_m2 (array2d v))] (b_m a) ;;
  Ok (UKF (b_f a) (b_g a) (b_tc a) (b_oc a) (b_im a) (b_ic a) n m (b_rs a)).

(** values handled by [preprocess_arguments], utils/_sklearn.py:115-151, unscented.py:719-723 *)
Inductive uval := UArr of arr | UFun of fcont | UInt of nat | URs of rspec | UGen of genh.

(** [get_params(self)], utils/_sklearn.py:101-112, unscented.py:719 *)
Definition uget_params (o : ukf) : seq (string * option uval) :=
  [:: ("transition_functions", omap UFun (o_f o));
      ("observation_functions", omap UFun (o_g o));
      ("transition_covariance", omap UArr (o_tc o));
      ("observation_covariance", omap UArr (o_oc o));
      ("initial_state_mean", omap UArr (o_im o));
      ("initial_state_covariance", omap UArr (o_ic o));
      ("n_dim_state", Some (UInt (o_n o)));
      ("n_dim_obs", Some (UInt (o_m o)));
      ("random_state", omap URs (o_rs o))]%string.

(** default functions: [lambda state, noise: state + noise] (unscented.py:1067-1076) and
    [lambda state: state] (1376-1385) *)
Definition aug_default : pyfun := fun args => if args is [:: x; w] then add x w else Err TypeError.
(** unscented.py:1376-1385 *)
Definition add_default : pyfun := fun args => if args is [:: x] then Ok x else Err TypeError.

(** unscented.py:1067-1076, 1376-1385 *)
Definition udefaults (f : pyfun) (n m : nat) : seq (string * option uval) :=
  [:: ("transition_functions", Some (UFun (F0 f)));
      ("observation_functions", Some (UFun (F0 f)));
      ("transition_covariance", Some (UArr (eye2 n n)));
      ("observation_covariance", Some (UArr (eye2 m m)));
      ("initial_state_mean", Some (UArr (zeros1 n)));
      ("initial_state_covariance", Some (UArr (eye2 n n)));
      ("random_state", Some (URs (RsSeed 0)))]%string.

(** unscented.py:744-747 *)
Definition uconv_arr (f : arr -> arr) (v : uval) : res uval := if v is UArr a then Ok (UArr (f a)) else Err NotModelled.
(** unscented.py:742-743 *)
Definition uconv_fun (v : uval) : res uval := if v is UFun f then Ok (UFun (farray1d f)) else Err NotModelled.
(** unscented.py:748-749 *)
Definition uconv_int (v : uval) : res uval := if v is UInt i then Ok (UInt i) else Err NotModelled.
(** unscented.py:750 *)
Definition uconv_rs (v : uval) : res uval :=
  if v is URs r then g <-- check_random_state (Some r) ;; Ok (UGen g) else Err NotModelled.

(** unscented.py:740-751 *)
Definition uconverters : seq (string * (uval -> res uval)) :=
  [:: ("transition_functions", uconv_fun);
      ("observation_functions", uconv_fun);
      ("transition_covariance", uconv_arr (@array2d R));
      ("observation_covariance", uconv_arr (@array2d R));
      ("initial_state_mean", uconv_arr (@array1d R));
      ("initial_state_covariance", uconv_arr (@array2d R));
      ("n_dim_state", uconv_int);
      ("n_dim_obs", uconv_int);
      ("random_state", uconv_rs)]%string.

(** unscented.py:727-730 *)
Definition uget_arr (d : seq (string * uval)) (name : string) : res arr :=
  match dget d name with Some (UArr a) => Ok a | Some _ => Err NotModelled | None => Err KeyError end.
(** unscented.py:725-726 *)
Definition uget_fun (d : seq (string * uval)) (name : string) : res fcont :=
  match dget d name with Some (UFun a) => Ok a | Some _ => Err NotModelled | None => Err KeyError end.

(** [UnscentedMixin._initialize_parameters], unscented.py:717-731; [dflt] is the class's
    default function *)
Definition uinitialize (dflt : pyfun) (o : ukf) : res uparams :=
  d <-- preprocess_arguments [:: uget_params o; udefaults dflt (o_n o) (o_m o)] uconverters ;;
  f <-- uget_fun d "transition_functions" ;;
  g <-- uget_fun d "observation_functions" ;;
  tc <-- uget_arr d "transition_covariance" ;;
  oc <-- uget_arr d "observation_covariance" ;;
  im <-- uget_arr d "initial_state_mean" ;;
  ic <-- uget_arr d "initial_state_covariance" ;;
  Ok (UParams f g tc oc im ic).

(** [UnscentedKalmanFilter.filter] and [AdditiveUnscentedKalmanFilter.filter],
    unscented.py:862-902, 1178-1218 *)
Definition ufilter_with (dflt : pyfun) (stp : ustep) (o : ukf) (X : obs) : res (seq moments) :=
  let: existT k zs := parse_observations X in
  p <-- uinitialize dflt o ;;
  unscented_filter stp p zs.
(** [UnscentedKalmanFilter.filter], unscented.py:862-902 *)
Definition ukf_filter := ufilter_with aug_default aug_step.
(** [AdditiveUnscentedKalmanFilter.filter], unscented.py:1178-1218 *)
Definition aukf_filter := ufilter_with add_default add_step.

(** [UnscentedKalmanFilter.smooth], unscented.py:1024-1065: the observations are parsed
    twice *)
Definition ukf_smooth (o : ukf) (X : obs) : res (seq moments) :=
  let: existT k zs := parse_observations X in
  p <-- uinitialize aug_default o ;;
  rows <-- ukf_filter o (O2 k zs) ;;
  n <-- shape_m1 (u_tc p) ;;
  usmooth_loop aug_back p n 0 rows.
(** [AdditiveUnscentedKalmanFilter.smooth], unscented.py:1333-1374 *)
Definition aukf_smooth (o : ukf) (X : obs) : res (seq moments) :=
  p <-- uinitialize add_default o ;;
  rows <-- aukf_filter o X ;;
  n <-- shape_m1 (u_tc p) ;;
  usmooth_loop add_back p n 0 rows.

(** [default_function], unscented.py:966-970 *)
Definition default_function (f : option pyfun) (fs : fcont) : res pyfun :=
  match f with
  | Some f => Ok f
  | None => match fs with
            | F1 [:: f] => Ok f
            | F2 [:: _] => Err NotModelled
            | _ => Err AssertionError
            end
  end.
(** observation argument, unscented.py:904-912, 986-991; 1220-1228, 1302-1307 *)
Definition uobs (Rc : arr) (z : obs1 R) : res (arr * bool) :=
  match z with None => no <-- shape0 Rc ;; Ok (zeros1 no, (0 < no)%N) | Some zm => Ok zm end.

(** [UnscentedKalmanFilter.filter_update], unscented.py:904-1022 *)
Definition ukf_filter_update (o : ukf) (fm fc : arr) (z : obs1 R) (f : option pyfun) (tc : option arr)
    (g : option pyfun) (oc : option arr) : res moments :=
  p <-- uinitialize aug_default o ;;
  ft <-- default_function f (u_f p) ;;
  gt <-- default_function g (u_g p) ;;
  Q <-- arg_or_default tc (u_tc p) 2 ;;
  Rc <-- arg_or_default oc (u_oc p) 2 ;;
  za <-- uobs Rc z ;;
  '(ps, pt, po) <-- augmented_unscented_filter_points fm fc Q Rc ;;
  '(pp, mp) <-- unscented_filter_predict ft ps (Some pt) None ;;
  unscented_filter_correct gt mp pp za (Some po) None.

(** [AdditiveUnscentedKalmanFilter.filter_update], unscented.py:1220-1331 *)
Definition aukf_filter_update (o : ukf) (fm fc : arr) (z : obs1 R) (f : option pyfun) (tc : option arr)
    (g : option pyfun) (oc : option arr) : res moments :=
  p <-- uinitialize add_default o ;;
  ft <-- default_function f (u_f p) ;;
  gt <-- default_function g (u_g p) ;;
  Q <-- arg_or_default tc (u_tc p) 2 ;;
  Rc <-- arg_or_default oc (u_oc p) 2 ;;
  za <-- uobs Rc z ;;
  ps <-- moments2points (fm, fc) None None None ;;
  '(_, mp) <-- unscented_filter_predict ft ps None (Some Q) ;;
  pp <-- moments2points mp None None None ;;
  unscented_filter_correct gt mp pp za None (Some Rc).

(** ** Sampling, unscented.py:806-860 and 1124-1176 *)
Section Sample.
Variables (G : Type) (rl : rng_lib R G).
(** [noise] tells how the class applies its functions, unscented.py:853, 858 *)
Definition aug_apply (f : pyfun) (x w : arr) : res arr := f [:: x; w].
(** unscented.py:1169, 1174 *)
Definition add_apply (f : pyfun) (x w : arr) : res arr := y <-- f [:: x] ;; add y w.

(** unscented.py:846-858, 1162-1174 *)
Definition usample_step (app : pyfun -> arr -> arr -> res arr) (p : uparams) (n m t : nat) (init : arr)
    (prev : option arr) : rnd G (arr * arr) :=
  x <~~ (match prev with
    | None => rlift (assign1 n init)
    | Some s =>
        f <~~ rlift (fun_at (u_f p) t.-1) ;;
        w <~~ multivariate_normal rl (zeros1 n) (u_tc p) ;;
        x <~~ rlift (app f s w) ;;
        rlift (assign1 n x)
    end) ;;
  g <~~ rlift (fun_at (u_g p) t) ;;
  v <~~ multivariate_normal rl (zeros1 m) (u_oc p) ;;
  z <~~ rlift (app g x v) ;;
  z' <~~ rlift (assign1 m z) ;;
  rlift (Ok (x, z')).
(** unscented.py:846-858, 1162-1174 *)
Fixpoint usample_loop app (p : uparams) (n m : nat) (init : arr) (k t : nat) (prev : option arr) :
    rnd G (seq (arr * arr)) :=
  match k with
  | 0 => rlift (Ok [::])
  | k'.+1 =>
      '(x, z) <~~ usample_step app p n m t init prev ;;
      rest <~~ usample_loop app p n m init k' t.+1 (Some x) ;;
      rlift (Ok ((x, z) :: rest))
  end.
(** unscented.py:806-860, 1124-1176 *)
Definition usample (dflt : pyfun) app (o : ukf) (T : nat) (initial_state : option arr) (random_state : option rspec)
    (w : world G) : world G * res (seq (arr * arr)) :=
  match uinitialize dflt o with
  | Err e => (w, Err e)
  | Ok p =>
      match shape_m1 (u_tc p), shape_m1 (u_oc p) with
      | Ok n, Ok m =>
          match check_random_state (if random_state is Some r then Some r else o_rs o) with
          | Err e => (w, Err e)
          | Ok h => run_on rl h (
              init <~~ (match initial_state with
                        | None => multivariate_normal rl (u_im p) (u_ic p)
                        | Some x => rlift (Ok x)
                        end) ;;
              usample_loop app p n m init T 0 None) w
          end
      | Err e, _ | Ok _, Err e => (w, Err e)
      end
  end.
(** [UnscentedKalmanFilter.sample], unscented.py:806-860 *)
Definition ukf_sample := usample aug_default aug_apply.
(** [AdditiveUnscentedKalmanFilter.sample], unscented.py:1124-1176 *)
Definition aukf_sample := usample add_default add_apply.
End Sample.
End Unscented.
