(** Model of pykalman/standard.py (everything except [sample], see Sample.v). *)
From mathcomp Require Import all_ssreflect all_algebra.
From Coq Require Import String.
From Verif Require Import Prelude LinAlg Numpy Sklearn.
Import GRing.Theory Num.Theory.

Set Implicit Arguments.
Unset Strict Implicit.
Unset Printing Implicit Defensive.
Local Open Scope ring_scope.

Section Standard.
Variable R : rcfType.
Notation arr := (arr R).
Notation obs := (obs R).

(** [_arg_or_default], standard.py:39-49 *)
Definition arg_or_default (arg : option arr) (default : arr) (dim : nat) : res arr :=
  let result := if arg is Some a then a else default in
  if (dim < ndim result)%N then Err ValueError else Ok result.

(** [_last_dims], standard.py:92-120, for an index [t >= 0] *)
Definition last_dims (X : arr) (t : nat) (ndims : nat) : res arr :=
  if ndim X == ndims.+1 then idx0 X t
  else if ndim X == ndims then Ok X
  else Err ValueError.

(** [v.shape[-1]], [v.shape[-2]], standard.py:73 *)
Definition shape_m1 (a : arr) : res nat :=
  match rev (shape a) with n :: _ => Ok n | _ => Err IndexError end.
(** standard.py:73 *)
Definition shape_m2 (a : arr) : res nat :=
  match rev (shape a) with _ :: n :: _ => Ok n | _ => Err IndexError end.

(** [_determine_dimensionality], standard.py:52-89.  Each variable comes with
    the function computing the candidate dimension from it. *)
Fixpoint dd_candidates (vars : seq (option arr * (arr -> res nat))) : res (seq nat) :=
  match vars with
  | [::] => Ok [::]
  | (None, _) :: rest => dd_candidates rest
  | (Some v, f) :: rest => c <-- f v ;; cs <-- dd_candidates rest ;; Ok (c :: cs)
  end.
(** standard.py:52-89 *)
Definition determine_dimensionality (vars : seq (option arr * (arr -> res nat)))
    (default : option nat) : res nat :=
  cs <-- dd_candidates vars ;;
  let candidates := cs ++ (if default is Some d then [:: d] else [::]) in
  match candidates with
  | [::] => Ok 1%N
  | c :: _ => if all (eq_op^~ c) candidates then Ok c else Err ValueError
  end.

(** the eight model parameters after conversion to arrays,
    result of [_initialize_parameters], standard.py:1632-1641 *)
Record kfparams := KFParams {
  p_tm : arr;  (* transition_matrices *)
  p_to : arr;  (* transition_offsets *)
  p_tc : arr;  (* transition_covariance *)
  p_om : arr;  (* observation_matrices *)
  p_oo : arr;  (* observation_offsets *)
  p_oc : arr;  (* observation_covariance *)
  p_im : arr;  (* initial_state_mean *)
  p_ic : arr   (* initial_state_covariance *)
}.

(** [_filter_predict], standard.py:187-230 *)
Definition filter_predict (A Q b mu P : arr) : res (arr * arr) :=
  m1 <-- dot A mu ;;
  m <-- add m1 b ;;
  At <-- tr A ;;
  c1 <-- dot P At ;;
  c2 <-- dot A c1 ;;
  c <-- add c2 Q ;;
  Ok (m, c).

(** [x.shape[0]], standard.py:158, 370 *)
Definition shape0 (a : arr) : res nat :=
  match shape a with n :: _ => Ok n | _ => Err IndexError end.

(** [_filter_correct], standard.py:233-306.  [z] is the observation's data,
    [miss] is [np.any(np.ma.getmask(observation))]. *)
Definition filter_correct (C Rc d mu P z : arr) (miss : bool) : res (arr * arr * arr) :=
  if ~~ miss then
    o1 <-- dot C mu ;;
    zhat <-- add o1 d ;;
    Ct <-- tr C ;;
    s1 <-- dot P Ct ;;
    s2 <-- dot C s1 ;;
    S <-- add s2 Rc ;;
    Si <-- np_pinv S ;;
    k1 <-- dot Ct Si ;;
    K <-- dot P k1 ;;
    inn <-- sub z zhat ;;
    m1 <-- dot K inn ;;
    m <-- add mu m1 ;;
    c1 <-- dot C P ;;
    c2 <-- dot K c1 ;;
    c <-- sub P c2 ;;
    Ok (K, m, c)
  else
    ns <-- shape0 P ;;
    no <-- shape0 C ;;
    Ok (zeros2 ns no, mu, P).

(** one row of the five arrays filled by [_filter], standard.py:374-378 *)
Record frow := FRow { f_pm : arr; f_pc : arr; f_kg : arr; f_fm : arr; f_fc : arr }.

(** body of the time loop of [_filter], standard.py:380-410.  [n] is
    [len(initial_state_mean)], [k] is [observations.shape[1]]; [prev] is the
    row of time [t-1] ([None] at [t = 0]). *)
Definition filter_step (p : kfparams) (n k t : nat) (prev : option frow)
    (z : orow R k) : res frow :=
  '(pm, pc) <-- (match prev with
    | None => pm <-- assign1 n (p_im p) ;; pc <-- assign2 n n (p_ic p) ;; Ok (pm, pc)
    | Some r =>
        A <-- last_dims (p_tm p) t.-1 2 ;;
        Q <-- last_dims (p_tc p) t.-1 2 ;;
        b <-- last_dims (p_to p) t.-1 1 ;;
        '(m, c) <-- filter_predict A Q b (f_fm r) (f_fc r) ;;
        pm <-- assign1 n m ;; pc <-- assign2 n n c ;; Ok (pm, pc)
    end) ;;
  C <-- last_dims (p_om p) t 2 ;;
  Rc <-- last_dims (p_oc p) t 2 ;;
  d <-- last_dims (p_oo p) t 1 ;;
  '(K, m, c) <-- filter_correct C Rc d pm pc (A1 z.1) (missing z) ;;
  kg <-- assign2 n k K ;;
  fm <-- assign1 n m ;;
  fc <-- assign2 n n c ;;
  Ok (FRow pm pc kg fm fc).

(** the loop [for t in range(n_timesteps)], standard.py:380-410 *)
Fixpoint filter_loop (p : kfparams) (n k t : nat) (prev : option frow)
    (zs : seq (orow R k)) : res (seq frow) :=
  match zs with
  | [::] => Ok [::]
  | z :: zs' =>
      r <-- filter_step p n t prev z ;;
      rs <-- filter_loop p n t.+1 (Some r) zs' ;;
      Ok (r :: rs)
  end.

(** [_filter], standard.py:309-418 *)
Definition filter_ (p : kfparams) k (zs : seq (orow R k)) : res (seq frow) :=
  n <-- np_len (p_im p) ;; filter_loop p n 0 None zs.

(** [_smooth_update], standard.py:421-485; returns (mean, covariance, gain) *)
Definition smooth_update (A fm fc pm pc sm sc : arr) : res (arr * arr * arr) :=
  At <-- tr A ;;
  Pi <-- np_pinv pc ;;
  l1 <-- dot At Pi ;;
  L <-- dot fc l1 ;;
  d1 <-- sub sm pm ;;
  m1 <-- dot L d1 ;;
  m <-- add fm m1 ;;
  d2 <-- sub sc pc ;;
  Lt <-- tr L ;;
  c1 <-- dot d2 Lt ;;
  c2 <-- dot L c1 ;;
  c <-- add fc c2 ;;
  Ok (m, c, L).

(** one row of the arrays filled by [_smooth], standard.py:531-533 *)
Record srow := SRow { s_m : arr; s_c : arr }.

(** backward loop of [_smooth], standard.py:535-552; [rows] are the filter
    rows from time [t] on.  Returns the smoothed rows and the gains. *)
Fixpoint smooth_loop (tm : arr) (n t : nat) (rows : seq frow) : res (seq srow * seq arr) :=
  match rows with
  | [::] => Err ValueError
  | [:: r] => Ok ([:: SRow (f_fm r) (f_fc r)], [::])
  | r :: ((r' :: _) as rest) =>
      '(ss, gs) <-- smooth_loop tm n t.+1 rest ;;
      match ss with
      | [::] => Err IndexError
      | s' :: _ =>
          A <-- last_dims tm t 2 ;;
          '(m, c, L) <-- smooth_update A (f_fm r) (f_fc r) (f_pm r') (f_pc r') (s_m s') (s_c s') ;;
          sm <-- assign1 n m ;;
          sc <-- assign2 n n c ;;
          sg <-- assign2 n n L ;;
          Ok (SRow sm sc :: ss, sg :: gs)
      end
  end.

(** [_smooth], standard.py:488-553.  [n] is [filtered_state_means.shape[1]].
    With no rows [np.zeros((-1, n, n))] raises [ValueError]. *)
Definition smooth_ (tm : arr) (n : nat) (rows : seq frow) : res (seq srow * seq arr) :=
  smooth_loop tm n 0 rows.

(** [_smooth_pair], standard.py:556-581 *)
Definition smooth_pair (n : nat) (ss : seq srow) (gs : seq arr) : res (seq arr) :=
  ps <-- mapr (fun t =>
           s <-- getidx ss t ;; g <-- getidx gs t.-1 ;;
           gt <-- tr g ;; c <-- dot (s_c s) gt ;; assign2 n n c) (iota 1 (size ss).-1) ;;
  Ok (if ss is [::] then [::] else zeros2 n n :: ps).

(** [_loglikelihoods], standard.py:123-184: note that [observation_covariance]
    is used as is, without [_last_dims]. *)
Section Loglik.
Variables (ln : R -> R) (ln2pi : R).

(** body of the loop of [_loglikelihoods], standard.py:160-183 *)
Definition loglik_step (p : kfparams) k (t : nat) (r : frow) (z : orow R k) : res R :=
  if ~~ missing z then
    C <-- last_dims (p_om p) t 2 ;;
    d <-- last_dims (p_oo p) t 1 ;;
    o1 <-- dot C (f_pm r) ;;
    zhat <-- add o1 d ;;
    Ct <-- tr C ;;
    s1 <-- dot (f_pc r) Ct ;;
    s2 <-- dot C s1 ;;
    S <-- add s2 (p_oc p) ;;
    lmnd ln ln2pi (A1 z.1) zhat S
  else Ok 0.

(** standard.py:160-183 *)
Fixpoint loglik_loop (p : kfparams) k (t : nat) (rows : seq frow) (zs : seq (orow R k)) :
    res (seq R) :=
  match rows, zs with
  | r :: rows', z :: zs' =>
      l <-- loglik_step p t r z ;; ls <-- loglik_loop p t.+1 rows' zs' ;; Ok (l :: ls)
  | _, _ => Ok [::]
  end.
End Loglik.

(** ** EM, standard.py:584-962 *)
Section EM.
Variables (n k : nat) (zs : seq (orow R k)) (ss : seq srow) (pw : seq arr).
Let T := size zs.   (* n_timesteps of the observations *)
Let Ts := size ss.  (* n_timesteps of the smoothed states (equal) *)

(** [_em_observation_matrix], standard.py:725-752 *)
Definition em_observation_matrix (oo : arr) : res arr :=
  '(r1, r2) <-- foldr_res (fun acc t =>
      z <-- getidx zs t ;;
      if ~~ missing z then
        d <-- last_dims oo t 1 ;;
        s <-- getidx ss t ;;
        e <-- sub (A1 z.1) d ;;
        x1 <-- outer e (s_m s) ;;
        r1 <-- iadd acc.1 x1 ;;
        x2 <-- outer (s_m s) (s_m s) ;;
        x3 <-- add (s_c s) x2 ;;
        r2 <-- iadd acc.2 x3 ;;
        Ok (r1, r2)
      else Ok acc) (zeros2 k n, zeros2 n n) (iota 0 T) ;;
  r2i <-- np_pinv r2 ;;
  dot r1 r2i.

(** [_em_observation_covariance], standard.py:755-795 *)
Definition em_observation_covariance (oo om : arr) : res arr :=
  '(r, nobs) <-- foldr_res (fun (acc : arr * nat) t =>
      z <-- getidx zs t ;;
      if ~~ missing z then
        C <-- last_dims om t 2 ;;
        d <-- last_dims oo t 1 ;;
        s <-- getidx ss t ;;
        y <-- dot C (s_m s) ;;
        e1 <-- sub (A1 z.1) y ;;
        e <-- sub e1 d ;;
        ee <-- outer e e ;;
        Ct <-- tr C ;;
        c1 <-- dot (s_c s) Ct ;;
        c2 <-- dot C c1 ;;
        x <-- add ee c2 ;;
        r <-- iadd acc.1 x ;;
        Ok (r, acc.2.+1)
      else Ok acc) (zeros2 k k, 0%N) (iota 0 T) ;;
  Ok (if (0 < nobs)%N then scal (1 / nobs%:R) r else r).

(** [_em_transition_matrix], standard.py:798-828 *)
Definition em_transition_matrix (to : arr) : res arr :=
  '(r1, r2) <-- foldr_res (fun acc t =>
      b <-- last_dims to t.-1 1 ;;
      pt <-- getidx pw t ;;
      s <-- getidx ss t ;;
      s' <-- getidx ss t.-1 ;;
      x1 <-- outer (s_m s) (s_m s') ;;
      x2 <-- add pt x1 ;;
      x3 <-- outer b (s_m s') ;;
      x4 <-- sub x2 x3 ;;
      r1 <-- iadd acc.1 x4 ;;
      y1 <-- outer (s_m s') (s_m s') ;;
      y2 <-- add (s_c s') y1 ;;
      r2 <-- iadd acc.2 y2 ;;
      Ok (r1, r2)) (zeros2 n n, zeros2 n n) (iota 1 Ts.-1) ;;
  r2i <-- np_pinv r2 ;;
  dot r1 r2i.

(** [_em_transition_covariance], standard.py:831-876 *)
Definition em_transition_covariance (tm to : arr) : res arr :=
  r <-- foldr_res (fun acc t =>
      A <-- last_dims tm t 2 ;;
      b <-- last_dims to t 1 ;;
      s <-- getidx ss t ;;
      s' <-- getidx ss t.+1 ;;
      y <-- dot A (s_m s) ;;
      e1 <-- sub (s_m s') y ;;
      e <-- sub e1 b ;;
      pt <-- getidx pw t.+1 ;;
      At <-- tr A ;;
      V <-- dot pt At ;;
      ee <-- outer e e ;;
      c1 <-- dot (s_c s) At ;;
      c2 <-- dot A c1 ;;
      x1 <-- add ee c2 ;;
      x2 <-- add x1 (s_c s') ;;
      x3 <-- sub x2 V ;;
      Vt <-- tr V ;;
      x4 <-- sub x3 Vt ;;
      iadd acc x4) (zeros2 n n) (iota 0 Ts.-1) ;;
  Ok (if (1 < Ts)%N then scal (1 / (Ts.-1)%:R) r else r).

(** [_em_initial_state_mean], standard.py:879-889 *)
Definition em_initial_state_mean : res arr :=
  s <-- getidx ss 0 ;; Ok (s_m s).

(** [_em_initial_state_covariance], standard.py:892-912 *)
Definition em_initial_state_covariance (im : arr) : res arr :=
  s <-- getidx ss 0 ;;
  let x0 := s_m s in
  o1 <-- outer x0 x0 ;;
  x00 <-- add (s_c s) o1 ;;
  o2 <-- outer im x0 ;;
  y1 <-- sub x00 o2 ;;
  o3 <-- outer x0 im ;;
  y2 <-- sub y1 o3 ;;
  o4 <-- outer im im ;;
  add y2 o4.

(** [_em_transition_offset], standard.py:915-936 *)
Definition em_transition_offset (tm : arr) : res arr :=
  r <-- foldr_res (fun acc t =>
      A <-- last_dims tm t.-1 2 ;;
      s <-- getidx ss t ;;
      s' <-- getidx ss t.-1 ;;
      y <-- dot A (s_m s') ;;
      e <-- sub (s_m s) y ;;
      iadd acc e) (zeros1 n) (iota 1 Ts.-1) ;;
  Ok (if (1 < Ts)%N then scal (1 / (Ts.-1)%:R) r else zeros1 n).

(** [_em_observation_offset], standard.py:939-962 *)
Definition em_observation_offset (om : arr) : res arr :=
  '(r, nobs) <-- foldr_res (fun (acc : arr * nat) t =>
      z <-- getidx zs t ;;
      if ~~ missing z then
        C <-- last_dims om t 2 ;;
        s <-- getidx ss t ;;
        y <-- dot C (s_m s) ;;
        e <-- sub (A1 z.1) y ;;
        r <-- iadd acc.1 e ;;
        Ok (r, acc.2.+1)
      else Ok acc) (zeros1 k, 0%N) (iota 0 T) ;;
  Ok (if (0 < nobs)%N then scal (1 / nobs%:R) r else r).

(** dictionary of parameters not to estimate, standard.py:584-596, 643-644 *)
Definition given_t := seq (string * arr).
(** [if name in given: ... else: ...], standard.py:645-711 *)
Definition given_or (g : given_t) (name : string) (compute : res arr) : res arr :=
  match dget g name with Some v => Ok v | None => compute end.

(** [_em], standard.py:584-722: order of evaluation as in the source *)
Definition em_ (to oo : arr) (g : given_t) : res kfparams :=
  om' <-- given_or g "observation_matrices" (em_observation_matrix oo) ;;
  oc' <-- given_or g "observation_covariance" (em_observation_covariance oo om') ;;
  tm' <-- given_or g "transition_matrices" (em_transition_matrix to) ;;
  tc' <-- given_or g "transition_covariance" (em_transition_covariance tm' to) ;;
  im' <-- given_or g "initial_state_mean" em_initial_state_mean ;;
  ic' <-- given_or g "initial_state_covariance" (em_initial_state_covariance im') ;;
  to' <-- given_or g "transition_offsets" (em_transition_offset tm') ;;
  oo' <-- given_or g "observation_offsets" (em_observation_offset om') ;;
  Ok (KFParams tm' to' tc' om' oo' oc' im' ic').
End EM.

(** ** class KalmanFilter *)

(** value of an [em_vars] argument other than [None]: a list of names or a string,
    standard.py:1452-1471 *)
Inductive emspec := EmNames of seq string | EmStr of string.
(** [em_vars == "all"], standard.py:1455 *)
Definition em_is_all (e : emspec) : bool :=
  if e is EmStr s then String.eqb s "all" else false.
(** [k in set(s)] for a string [s]: the set holds its characters, standard.py:1468-1471 *)
Fixpoint str_has_char (s : string) (k : string) : bool :=
  match s with
  | EmptyString => false
  | String c s' => String.eqb k (String c EmptyString) || str_has_char s' k
  end.
(** [k in set(em_vars)], standard.py:1468-1471 *)
Definition em_mem (e : emspec) (k : string) : bool :=
  match e with
  | EmNames l => has (String.eqb k) l
  | EmStr s => str_has_char s k
  end.

(** attributes of a KalmanFilter object, standard.py:1092-1113 *)
Record kf := KF {
  k_tm : option arr; k_om : option arr; k_tc : option arr; k_oc : option arr;
  k_to : option arr; k_oo : option arr; k_im : option arr; k_ic : option arr;
  k_rs : option rspec;       (* random_state *)
  k_em : option emspec;      (* em_vars *)
  k_n : nat;                 (* n_dim_state *)
  k_m : nat;                 (* n_dim_obs *)
  k_em_ : emspec             (* _em_vars *)
}.

(** standard.py:1105-1111 *)
Definition default_em_vars : seq string :=
  [:: "transition_covariance"; "observation_covariance";
      "initial_state_mean"; "initial_state_covariance"]%string.

(** arguments of the constructor, standard.py:1055-1069 *)
Record kfargs := KFArgs {
  a_tm : option arr; a_om : option arr; a_tc : option arr; a_oc : option arr;
  a_to : option arr; a_oo : option arr; a_im : option arr; a_ic : option arr;
  a_rs : option rspec; a_em : option emspec; a_n : option nat; a_m : option nat
}.

(** [KalmanFilter.__init__], standard.py:1055-1113 *)
Definition kf_init (a : kfargs) : res kf :=
  n <-- determine_dimensionality
    [:: (a_tm a, fun v => shape_m2 (array2d v));
        (a_to a, fun v => shape_m1 (array1d v));
        (a_tc a, fun v => shape_m2 (array2d v));
        (a_im a, fun v => shape_m1 (array1d v));
        (a_ic a, fun v => shape_m2 (array2d v));
        (a_om a, fun v => shape_m1 (array2d v))] (a_n a) ;;
  m <-- determine_dimensionality
    [:: (a_om a, fun v => shape_m2 (array2d v));
        (a_oo a, fun v => shape_m1 (array1d v));
        (a_oc a, fun v => shape_m2 (array2d v))] (a_m a) ;;
  Ok (KF (a_tm a) (a_om a) (a_tc a) (a_oc a) (a_to a) (a_oo a) (a_im a) (a_ic a)
        (a_rs a) (a_em a) n m
        (if a_em a is Some e then e else EmNames default_em_vars)).

(** values handled by [preprocess_arguments], utils/_sklearn.py:115-151, standard.py:1597-1628 *)
Inductive pyval := PArr of arr | PInt of nat | PRs of rspec | PGen of genh | PEm of emspec.

(** [get_params(self)] (_sklearn.py:101-112): constructor signature order *)
Definition get_params (o : kf) : seq (string * option pyval) :=
  [:: ("transition_matrices", omap PArr (k_tm o));
      ("observation_matrices", omap PArr (k_om o));
      ("transition_covariance", omap PArr (k_tc o));
      ("observation_covariance", omap PArr (k_oc o));
      ("transition_offsets", omap PArr (k_to o));
      ("observation_offsets", omap PArr (k_oo o));
      ("initial_state_mean", omap PArr (k_im o));
      ("initial_state_covariance", omap PArr (k_ic o));
      ("random_state", omap PRs (k_rs o));
      ("em_vars", omap PEm (k_em o));
      ("n_dim_state", Some (PInt (k_n o)));
      ("n_dim_obs", Some (PInt (k_m o)))]%string.

(** standard.py:1598-1613 *)
Definition kf_defaults (n m : nat) : seq (string * option pyval) :=
  [:: ("transition_matrices", Some (PArr (eye2 n n)));
      ("transition_offsets", Some (PArr (zeros1 n)));
      ("transition_covariance", Some (PArr (eye2 n n)));
      ("observation_matrices", Some (PArr (eye2 m n)));
      ("observation_offsets", Some (PArr (zeros1 m)));
      ("observation_covariance", Some (PArr (eye2 m m)));
      ("initial_state_mean", Some (PArr (zeros1 n)));
      ("initial_state_covariance", Some (PArr (eye2 n n)));
      ("random_state", Some (PRs (RsSeed 0)));
      ("em_vars", Some (PEm (EmNames default_em_vars)))]%string.

(** standard.py:1616-1623 *)
Definition conv_array2d (v : pyval) : res pyval :=
  if v is PArr a then Ok (PArr (array2d a)) else Err NotModelled.
(** standard.py:1617-1622 *)
Definition conv_array1d (v : pyval) : res pyval :=
  if v is PArr a then Ok (PArr (array1d a)) else Err NotModelled.
(** standard.py:1625-1626 *)
Definition conv_int (v : pyval) : res pyval :=
  if v is PInt i then Ok (PInt i) else Err NotModelled.
(** standard.py:1624 *)
Definition conv_rs (v : pyval) : res pyval :=
  if v is PRs r then g <-- check_random_state (Some r) ;; Ok (PGen g) else Err NotModelled.

(** standard.py:1615-1628 *)
Definition kf_converters : seq (string * (pyval -> res pyval)) :=
  [:: ("transition_matrices", conv_array2d);
      ("transition_offsets", conv_array1d);
      ("transition_covariance", conv_array2d);
      ("observation_matrices", conv_array2d);
      ("observation_offsets", conv_array1d);
      ("observation_covariance", conv_array2d);
      ("initial_state_mean", conv_array1d);
      ("initial_state_covariance", conv_array2d);
      ("random_state", conv_rs);
      ("n_dim_state", conv_int);
      ("n_dim_obs", conv_int);
      ("em_vars", @Ok pyval)]%string.

(** [parameters[name]], standard.py:1632-1641 *)
Definition pget (d : seq (string * pyval)) (name : string) : res arr :=
  match dget d name with
  | Some (PArr a) => Ok a
  | Some _ => Err NotModelled
  | None => Err KeyError
  end.

(** [KalmanFilter._initialize_parameters], standard.py:1593-1641 *)
Definition initialize_parameters (o : kf) : res kfparams :=
  d <-- preprocess_arguments [:: get_params o; kf_defaults (k_n o) (k_m o)] kf_converters ;;
  tm <-- pget d "transition_matrices" ;;
  to <-- pget d "transition_offsets" ;;
  tc <-- pget d "transition_covariance" ;;
  om <-- pget d "observation_matrices" ;;
  oo <-- pget d "observation_offsets" ;;
  oc <-- pget d "observation_covariance" ;;
  im <-- pget d "initial_state_mean" ;;
  ic <-- pget d "initial_state_covariance" ;;
  Ok (KFParams tm to tc om oo oc im ic).

(** [_parse_observations], standard.py:1643-1648: rows and their width *)
Definition zobs := {k : nat & seq (orow R k)}.
(** entry of [obs.T], standard.py:1647 *)
Definition transpose_row k (r : orow R k) : seq (orow R 1) :=
  [seq scalar_row (r.1 i 0, r.2 i 0) | i <- enum 'I_k].
(** standard.py:1643-1648 *)
Definition parse_observations (X : obs) : zobs :=
  match X with
  | O0 x b => existT _ 1%N [:: scalar_row (x, b)]
  | O1 s => if (1 < size s)%N then existT _ 1%N (transpose_row (row_of_seq s))
            else existT _ (size s) [:: row_of_seq s]
  | O2 k rows =>
      match rows with
      | [:: r] => if (1 < k)%N then existT _ 1%N (transpose_row r) else existT _ k rows
      | _ => existT _ k rows
      end
  end.

(** The square-root classes share the remaining methods with KalmanFilter up to
    the function used for filtering, hence the parameter [flt].
    sqrt/cholesky.py:351-408, 541-799; sqrt/bierman.py:514-571, 710-968 *)
Definition filter_fun := kfparams -> forall k, seq (orow R k) -> res (seq frow).

(** [KalmanFilter.filter], standard.py:1186-1238 *)
Definition filter_with (flt : filter_fun) (o : kf) (X : obs) : res (seq (arr * arr)) :=
  let: existT k zs := parse_observations X in
  p <-- initialize_parameters o ;;
  rows <-- flt p k zs ;;
  Ok [seq (f_fm r, f_fc r) | r <- rows].
(** [filter], standard.py:1186-1238 *)
Definition kf_filter := filter_with filter_.

(** [KalmanFilter.smooth], standard.py:1356-1416 *)
Definition smooth_with (flt : filter_fun) (o : kf) (X : obs) : res (seq (arr * arr)) :=
  let: existT k zs := parse_observations X in
  p <-- initialize_parameters o ;;
  rows <-- flt p k zs ;;
  n <-- np_len (p_im p) ;;
  '(ss, _) <-- smooth_ (p_tm p) n rows ;;
  Ok [seq (s_m s, s_c s) | s <- ss].
(** [smooth], standard.py:1356-1416 *)
Definition kf_smooth := smooth_with filter_.

(** [KalmanFilter.loglikelihood], standard.py:1535-1591 *)
Definition loglikelihood_with (flt : filter_fun) (ln : R -> R) (ln2pi : R) (o : kf) (X : obs) : res R :=
  let: existT k zs := parse_observations X in
  p <-- initialize_parameters o ;;
  rows <-- flt p k zs ;;
  ls <-- loglik_loop ln ln2pi p 0 rows zs ;;
  Ok (\sum_(l <- ls) l).
(** [loglikelihood], standard.py:1535-1591 *)
Definition kf_loglikelihood := loglikelihood_with filter_.

(** observation argument of [filter_update]: [None] or (data, any masked),
    standard.py:1240-1251, 1331-1336 *)
Definition obs1 := option (arr * bool).

(** [KalmanFilter.filter_update], standard.py:1240-1354 *)
Definition kf_filter_update (o : kf) (fm fc : arr) (z : obs1)
    (tm to tc om oo oc : option arr) : res (arr * arr) :=
  p <-- initialize_parameters o ;;
  b <-- arg_or_default to (p_to p) 1 ;;
  d <-- arg_or_default oo (p_oo p) 1 ;;
  A <-- arg_or_default tm (p_tm p) 2 ;;
  C <-- arg_or_default om (p_om p) 2 ;;
  Q <-- arg_or_default tc (p_tc p) 2 ;;
  Rc <-- arg_or_default oc (p_oc p) 2 ;;
  '(za, miss) <-- (match z with
    | None => no <-- shape0 Rc ;; Ok (zeros1 no, (0 < no)%N)
    | Some zm => Ok zm
    end) ;;
  '(pm, pc) <-- filter_predict A Q b fm fc ;;
  '(_, m, c) <-- filter_correct C Rc d pm pc za miss ;;
  Ok (m, c).

(** assignment of the eight attributes in [em], standard.py:1440-1449, 1514-1523 *)
Definition set_params (o : kf) (p : kfparams) : kf :=
  KF (Some (p_tm p)) (Some (p_om p)) (Some (p_tc p)) (Some (p_oc p))
     (Some (p_to p)) (Some (p_oo p)) (Some (p_im p)) (Some (p_ic p))
     (k_rs o) (k_em o) (k_n o) (k_m o) (k_em_ o).

(** the dictionary [given], standard.py:1455-1473 *)
Definition given_all (p : kfparams) : given_t :=
  [:: ("transition_matrices", p_tm p); ("observation_matrices", p_om p);
      ("transition_offsets", p_to p); ("observation_offsets", p_oo p);
      ("transition_covariance", p_tc p); ("observation_covariance", p_oc p);
      ("initial_state_mean", p_im p); ("initial_state_covariance", p_ic p)]%string.
(** standard.py:1455-1471 *)
Definition mk_given (p : kfparams) (e : emspec) : given_t :=
  if em_is_all e then [::]
  else [seq kv <- given_all p | ~~ em_mem e kv.1].

(** one iteration of the loop standard.py:1483-1531 on the current parameters *)
Definition em_iter (flt : filter_fun) k (zs : seq (orow R k)) (g : given_t)
    (p : kfparams) : res kfparams :=
  rows <-- flt p k zs ;;
  n <-- np_len (p_im p) ;;
  '(ss, gs) <-- smooth_ (p_tm p) n rows ;;
  pw <-- smooth_pair n ss gs ;;
  em_ n zs ss pw (p_to p) (p_oo p) g.

(** The loop: the parameters after the last completed iteration together with
    the outcome (the exception that stopped the loop, if any).  standard.py:1483-1532 *)
Fixpoint em_loop (flt : filter_fun) k (zs : seq (orow R k)) (g : given_t)
    (n_iter : nat) (p : kfparams) : kfparams * res unit :=
  match n_iter with
  | 0 => (p, Ok tt)
  | i.+1 => match em_iter flt zs g p with
            | Ok p' => em_loop flt zs g i p'
            | Err e => (p, Err e)
            end
  end.

(** [KalmanFilter.em], standard.py:1418-1533: new object state and outcome.  [ev] is the
    effective [em_vars] value after the [None] test; [set(None)] raises
    [TypeError].  The loop over [get_params] only emits warnings (not
    modelled). *)
Definition em_with (flt : filter_fun) (ev : option emspec) (o : kf) (X : obs) (n_iter : nat) :
    kf * res unit :=
  let: existT k zs := parse_observations X in
  match initialize_parameters o with
  | Err e => (o, Err e)
  | Ok p =>
      let o1 := set_params o p in
      match ev with
      | None => (o1, Err TypeError)
      | Some e =>
          let '(p', r) := em_loop flt zs (mk_given p e) n_iter p in
          (set_params o p', r)
      end
  end.

(** [KalmanFilter.em]: [if em_vars is None: em_vars = self._em_vars], standard.py:1418-1533 *)
Definition kf_em (o : kf) (X : obs) (n_iter : nat) (em_vars : option emspec) : kf * res unit :=
  em_with filter_ (if em_vars is Some e then Some e else Some (k_em_ o)) o X n_iter.

End Standard.
