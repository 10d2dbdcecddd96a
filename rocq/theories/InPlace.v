(** The unscented classes with user functions that may work in place.

    The functions are called on rows of the arrays the filters go on using:
    [points[i]] (unscented.py:150-158) is a view of the sigma points and
    [x[t - 1]], [x[t]] (853, 858, 1169, 1174) are views of the sampled states.
    A function that overwrites its argument therefore changes those arrays.
    Unscented.v models functions that leave their arguments alone; here a
    function returns its value and what its arguments hold afterwards. *)
From Coq Require Import String List.
From mathcomp Require Import all_ssreflect all_algebra.
From Verif Require Import Prelude LinAlg Numpy Sklearn Standard Rng Unscented.
Import GRing.Theory Num.Theory.

Set Implicit Arguments.
Unset Strict Implicit.
Unset Printing Implicit Defensive.
Local Open Scope ring_scope.

Section InPlace.
Variable R : rcfType.
Notation arr := (arr R).
Notation obs := (obs R).
Notation moments := (moments R).
Notation sigma_points := (sigma_points R).

(** a call: the returned value, then the contents of the arguments after the
    call, unscented.py:149-158 *)
Definition ipfun : Type := seq arr -> res (arr * seq arr).
(** the function as seen by someone who looks at its value only, unscented.py:149-158 *)
Definition value_of (f : ipfun) : pyfun R := fun args => r <-- f args ;; Ok r.1.

(** function arrays as in Unscented.v, unscented.py:742-743 *)
Inductive ipcont := J0 of ipfun | J1 of seq ipfun | J2 of seq (seq ipfun).
(** unscented.py:742-743 *)
Definition jvalues (f : ipcont) : fcont R :=
  match f with
  | J0 f => F0 (value_of f)
  | J1 s => F1 (map value_of s)
  | J2 rows => F2 (map (map value_of) rows)
  end.
(** [array1d], unscented.py:742-743 *)
Definition jarray1d (f : ipcont) : ipcont := if f is J0 g then J1 [:: g] else f.
(** [_last_dims(f, t, ndims=1)[0]], standard.py:92-120, unscented.py:447, 456 *)
Definition jat (f : ipcont) (t : nat) : res ipfun :=
  match f with
  | J0 _ => Err ValueError
  | J1 s => getidx s 0
  | J2 rows => r <-- getidx rows t ;; getidx r 0
  end.

(** the object with these functions, unscented.py:706-715 *)
Definition with_functions (o : ukf R) (jf jg : ipcont) : ukf R :=
  UKF (Some (jvalues jf)) (Some (jvalues jg)) (o_tc o) (o_oc o) (o_im o) (o_ic o) (o_n o) (o_m o) (o_rs o).

(** the points after the calls: row [i] holds what the [i]-th call left in its
    argument (a write through a view cannot change the shape), unscented.py:150-158 *)
Definition overwrite (pts : arr) (left : seq arr) : arr :=
  match pts with
  | @A2 _ m n M => A2 (\matrix_(i < m, j < n) (if nth (A0 0) left i is A1 _ v then mget v j 0 else M i j))
  | a => a
  end.

(** [unscented_transform], unscented.py:119-166; the third component are the
    points passed in, after the calls *)
Definition transform_ip (pts : sigma_points) (f : ipfun) (points_noise : option sigma_points)
    (sigma_noise : option arr) : res (sigma_points * moments * sigma_points) :=
  n_points <-- shape0 (sp_points pts) ;;
  l <-- mapr (fun i =>
         x <-- idx0 (sp_points pts) i ;;
         match points_noise with
         | None => f [:: x]
         | Some pn => w <-- idx0 (sp_points pn) i ;; f [:: x; w]
         end) (iota 0 n_points) ;;
  pred <-- vstack [seq r.1 | r <- l] ;;
  let pp := SigmaPoints pred (sp_wm pts) (sp_wc pts) in
  ms <-- points2moments pp sigma_noise ;;
  let pts' := overwrite (sp_points pts) [seq head (A0 0) r.2 | r <- l] in
  Ok (pp, ms, SigmaPoints pts' (sp_wm pts) (sp_wc pts)).

(** [unscented_filter_correct], unscented.py:339-393: the cross covariance is
    computed from the predicted points after the observation function was
    applied to them *)
Definition correct_ip (g : ipfun) (mp : moments) (points_pred : sigma_points) (z : arr * bool)
    (points_observation : option sigma_points) (sigma_observation : option arr) : res moments :=
  '(opts, om, pp) <-- transform_ip points_pred g points_observation sigma_observation ;;
  dx <-- sub (sp_points pp) mp.1 ;;
  dxt <-- tr dx ;;
  W <-- np_diag (sp_wm pp) ;;
  s1 <-- dot dxt W ;;
  dz <-- sub (sp_points opts) om.1 ;;
  cross <-- dot s1 dz ;;
  unscented_correct cross mp om z.

(** body of the loop of [augmented_unscented_filter], unscented.py:434-468.  The
    state points, the transition noise points and the observation noise points
    are disjoint columns of one array. *)
Definition aug_step_ip (jf jg : ipcont) (p : uparams R) (n t : nat) (prev : option moments) (z : arr * bool) :
    res moments :=
  let: (mu, sigma) := if prev is Some s then s else (u_im p, u_ic p) in
  '(ps, pt, po) <-- augmented_unscented_filter_points mu sigma (u_tc p) (u_oc p) ;;
  '(pp, mp) <-- (match prev with
    | None => mp <-- points2moments ps None ;; Ok (ps, mp)
    | Some _ => f <-- jat jf t.-1 ;; '(pp, mp, _) <-- transform_ip ps f (Some pt) None ;; Ok (pp, mp)
    end) ;;
  g <-- jat jg t ;;
  '(m, c) <-- correct_ip g mp pp z (Some po) None ;;
  fm <-- assign1 n m ;;
  fc <-- assign2 n n c ;;
  Ok (fm, fc).

(** body of the loop of [additive_unscented_filter], unscented.py:581-605 *)
Definition add_step_ip (jf jg : ipcont) (p : uparams R) (n t : nat) (prev : option moments) (z : arr * bool) :
    res moments :=
  let: (mu, sigma) := if prev is Some s then s else (u_im p, u_ic p) in
  ps <-- moments2points (mu, sigma) None None None ;;
  '(pp, mp) <-- (match prev with
    | None => mp <-- points2moments ps None ;; Ok (ps, mp)
    | Some _ =>
        f <-- jat jf t.-1 ;;
        '(_, mp, _) <-- transform_ip ps f None (Some (u_tc p)) ;;
        pp <-- moments2points mp None None None ;;
        Ok (pp, mp)
    end) ;;
  g <-- jat jg t ;;
  '(m, c) <-- correct_ip g mp pp z None (Some (u_oc p)) ;;
  fm <-- assign1 n m ;;
  fc <-- assign2 n n c ;;
  Ok (fm, fc).

(** [filter] of an object whose functions are [jf] and [jg], unscented.py:862-902, 1178-1218 *)
Definition ufilter_ip (dflt : pyfun R) (stp : ipcont -> ipcont -> ustep R) (o : ukf R) (jf jg : ipcont) (X : obs) :
    res (seq moments) :=
  let: existT k zs := parse_observations X in
  p <-- uinitialize dflt (with_functions o jf jg) ;;
  unscented_filter (stp (jarray1d jf) (jarray1d jg)) p zs.
(** unscented.py:862-902 *)
Definition ukf_filter_ip := ufilter_ip (@aug_default R) aug_step_ip.
(** unscented.py:1178-1218 *)
Definition aukf_filter_ip := ufilter_ip (@add_default R) add_step_ip.

(** body of the loop of [augmented_unscented_smoother], unscented.py:507-539: the
    cross covariance is computed from the points the transition function was
    applied to *)
Definition aug_back_ip (jf : ipcont) (p : uparams R) (n t : nat) (f s : moments) : res moments :=
  '(ps, pt) <-- augmented_points2 f (zeros1 n, u_tc p) ;;
  ft <-- jat jf t ;;
  '(pp, mp, ps') <-- transform_ip ps ft (Some pt) None ;;
  usmooth_update n f.1 f.2 ps' pp mp s.1 s.2.
(** body of the loop of [additive_unscented_smoother], unscented.py:644-673 *)
Definition add_back_ip (jf : ipcont) (p : uparams R) (n t : nat) (f s : moments) : res moments :=
  ps <-- moments2points f None None None ;;
  ft <-- jat jf t ;;
  '(pp, mp, ps') <-- transform_ip ps ft None (Some (u_tc p)) ;;
  usmooth_update n f.1 f.2 ps' pp mp s.1 s.2.
(** [UnscentedKalmanFilter.smooth], unscented.py:1024-1065 *)
Definition ukf_smooth_ip (o : ukf R) (jf jg : ipcont) (X : obs) : res (seq moments) :=
  let: existT k zs := parse_observations X in
  p <-- uinitialize (@aug_default R) (with_functions o jf jg) ;;
  rows <-- ukf_filter_ip o jf jg (O2 k zs) ;;
  n <-- shape_m1 (u_tc p) ;;
  usmooth_loop (aug_back_ip (jarray1d jf)) p n 0 rows.
(** [AdditiveUnscentedKalmanFilter.smooth], unscented.py:1333-1374 *)
Definition aukf_smooth_ip (o : ukf R) (jf jg : ipcont) (X : obs) : res (seq moments) :=
  p <-- uinitialize (@add_default R) (with_functions o jf jg) ;;
  rows <-- aukf_filter_ip o jf jg X ;;
  n <-- shape_m1 (u_tc p) ;;
  usmooth_loop (add_back_ip (jarray1d jf)) p n 0 rows.

(** [UnscentedKalmanFilter.filter_update] with both functions given, unscented.py:904-1022 *)
Definition ukf_filter_update_ip (o : ukf R) (fm fc : arr) (z : obs1 R) (f : ipfun) (tc : option arr)
    (g : ipfun) (oc : option arr) : res moments :=
  p <-- uinitialize (@aug_default R) o ;;
  Q <-- arg_or_default tc (u_tc p) 2 ;;
  Rc <-- arg_or_default oc (u_oc p) 2 ;;
  za <-- uobs Rc z ;;
  '(ps, pt, po) <-- augmented_unscented_filter_points fm fc Q Rc ;;
  '(pp, mp, _) <-- transform_ip ps f (Some pt) None ;;
  correct_ip g mp pp za (Some po) None.
(** [AdditiveUnscentedKalmanFilter.filter_update] with both functions given, unscented.py:1220-1331 *)
Definition aukf_filter_update_ip (o : ukf R) (fm fc : arr) (z : obs1 R) (f : ipfun) (tc : option arr)
    (g : ipfun) (oc : option arr) : res moments :=
  p <-- uinitialize (@add_default R) o ;;
  Q <-- arg_or_default tc (u_tc p) 2 ;;
  Rc <-- arg_or_default oc (u_oc p) 2 ;;
  za <-- uobs Rc z ;;
  ps <-- moments2points (fm, fc) None None None ;;
  '(_, mp, _) <-- transform_ip ps f None (Some Q) ;;
  pp <-- moments2points mp None None None ;;
  correct_ip g mp pp za None (Some Rc).

(** ** Sampling *)
Section Sample.
Variables (G : Type) (rl : rng_lib R G).
(** applying a function to a state and a noise, unscented.py:853, 858: the value and the
    state afterwards *)
Definition aug_apply_ip (f : ipfun) (x w : arr) : res (arr * arr) := r <-- f [:: x; w] ;; Ok (r.1, head x r.2).
(** unscented.py:1169, 1174 *)
Definition add_apply_ip (f : ipfun) (x w : arr) : res (arr * arr) :=
  r <-- f [:: x] ;; y <-- add r.1 w ;; Ok (y, head x r.2).
(** body of the loop at time [t]: row [t - 1] of the states after the step, row
    [t] of the states, row [t] of the observations, unscented.py:846-858, 1162-1174 *)
Definition usample_step_ip (app : ipfun -> arr -> arr -> res (arr * arr)) (jf jg : ipcont) (p : uparams R)
    (n m t : nat) (init : arr) (prev : option arr) : rnd G (option arr * arr * arr) :=
  '(prev', x) <~~ (match prev with
    | None => x <~~ rlift (assign1 n init) ;; rlift (Ok (None, x))
    | Some s =>
        f <~~ rlift (jat jf t.-1) ;;
        w <~~ multivariate_normal rl (zeros1 n) (u_tc p) ;;
        '(x, s') <~~ rlift (app f s w) ;;
        x' <~~ rlift (assign1 n x) ;;
        rlift (Ok (Some s', x'))
    end) ;;
  g <~~ rlift (jat jg t) ;;
  v <~~ multivariate_normal rl (zeros1 m) (u_oc p) ;;
  '(z, x') <~~ rlift (app g x v) ;;
  z' <~~ rlift (assign1 m z) ;;
  rlift (Ok (prev', x', z')).
(** [k] iterations from time [t]: row [t - 1] as left by them, and the rows from [t] on,
    unscented.py:846-858, 1162-1174 *)
Fixpoint usample_loop_ip app (jf jg : ipcont) (p : uparams R) (n m : nat) (init : arr) (k t : nat) (prev : option arr) :
    rnd G (option arr * seq (arr * arr)) :=
  match k with
  | 0 => rlift (Ok (prev, [::]))
  | k'.+1 =>
      '(prev', x, z) <~~ usample_step_ip app jf jg p n m t init prev ;;
      '(x', rest) <~~ usample_loop_ip app jf jg p n m init k' t.+1 (Some x) ;;
      rlift (Ok (prev', (odflt x x', z) :: rest))
  end.
(** unscented.py:806-860, 1124-1176 *)
Definition usample_ip (dflt : pyfun R) app (o : ukf R) (jf jg : ipcont) (T : nat) (initial_state : option arr)
    (random_state : option rspec) (w : world G) : world G * res (seq (arr * arr)) :=
  match uinitialize dflt (with_functions o jf jg) with
  | Err e => (w, Err e)
  | Ok p =>
      match shape_m1 (u_tc p), shape_m1 (u_oc p) with
      | Ok n, Ok m =>
          match check_random_state (if random_state is Some r then Some r else o_rs o) with
          | Err e => (w, Err e)
          | Ok h => run_on rl h (
              init <~~ (match initial_state with
                        | None => multivariate_normal rl (u_im p) (u_ic p)
                        | Some x => rlift (Ok x)
                        end) ;;
              '(_, rows) <~~ usample_loop_ip app (jarray1d jf) (jarray1d jg) p n m init T 0 None ;;
              rlift (Ok rows)) w
          end
      | Err e, _ | Ok _, Err e => (w, Err e)
      end
  end.
(** [UnscentedKalmanFilter.sample], unscented.py:806-860 *)
Definition ukf_sample_ip := usample_ip (@aug_default R) aug_apply_ip.
(** [AdditiveUnscentedKalmanFilter.sample], unscented.py:1124-1176 *)
Definition aukf_sample_ip := usample_ip (@add_default R) add_apply_ip.
End Sample.
End InPlace.
