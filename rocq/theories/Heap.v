(** KalmanFilter with arrays in memory.

    In Standard.v arrays are values.  Here they live in a heap: an object and its
    methods hold references, [np.zeros] allocates, [a[t] = v] and [a += v] write
    through the reference, [a[t]], [np.atleast_2d(a)] and the like are views that
    read the memory they refer to at the time of use.  Results of arithmetic
    expressions are new arrays and stay values until they are stored.  Modelled:
    filter, smooth, loglikelihood, filter_update and em of KalmanFilter.  A value
    read from the heap is computed with by the functions of Numpy.v. *)
From mathcomp Require Import all_ssreflect all_algebra.
From Coq Require Import String.
From Verif Require Import Prelude LinAlg Numpy Sklearn Standard Rng.
Import GRing.Theory Num.Theory.

Set Implicit Arguments.
Unset Strict Implicit.
Unset Printing Implicit Defensive.
Local Open Scope ring_scope.

Section Heap.
Variable R : rcfType.
Notation arr := (arr R).
Notation obs := (obs R).

(** contents of one buffer: an array, an array indexed by time of which the rows
    are kept separately (standard.py:374-378), observations (standard.py:1186) *)
Inductive cell := CArr of arr | CRows of seq arr | CObs of obs.
(** memory, addresses are positions; infrastructure, no code of the project *)
Definition heap := seq cell.
(** programs: new memory and outcome; infrastructure, no code of the project *)
Definition prog (T : Type) := rnd heap T.

(** [np.zeros], [np.copy] and arithmetic results, standard.py:374-378 *)
Definition alloc (c : cell) : prog nat := fun h => (rcons h c, Ok (size h)).
(** reading a buffer, standard.py:386-400 *)
Definition load (a : nat) : prog cell := fun h => (h, getidx h a).
(** position [i] of a list replaced, standard.py:382 *)
Fixpoint upd_nth T (s : seq T) (i : nat) (v : T) : seq T :=
  match s, i with
  | [::], _ => [::]
  | _ :: s', 0 => v :: s'
  | x :: s', i'.+1 => x :: upd_nth s' i' v
  end.
(** writing a buffer, standard.py:382-410 *)
Definition store (a : nat) (c : cell) : prog unit :=
  fun h => if (a < size h)%N then (upd_nth h a c, Ok tt) else (h, Err IndexError).

(** [a[t]], standard.py:391-392 *)
Definition get_row (a t : nat) : prog arr :=
  c <~~ load a ;;
  rlift (match c with
         | CRows s => getidx s t
         | CArr x => idx0 x t
         | CObs _ => Err NotModelled
         end).
(** [a[t] = v], the shape of [v] being checked before, standard.py:382-410 *)
Definition set_row (a t : nat) (v : arr) : prog unit :=
  c <~~ load a ;;
  match c with
  | CRows s => if (t < size s)%N then store a (CRows (upd_nth s t v)) else rlift (Err IndexError)
  | _ => rlift (Err NotModelled)
  end.
(** [a += v], standard.py:746-749 *)
Definition iadd_at (a : nat) (v : arr) : prog unit :=
  c <~~ load a ;;
  match c with
  | CArr x => x' <~~ rlift (iadd x v) ;; store a (CArr x')
  | _ => rlift (Err NotModelled)
  end.
(** value of an array, standard.py:752 *)
Definition load_arr (a : nat) : prog arr :=
  c <~~ load a ;; rlift (if c is CArr x then Ok x else Err NotModelled).

(** what a reference shows of a buffer: everything, its one- or two-dimensional
    form ([array1d], [array2d], utils/_sklearn.py:19-44: no copy is made), one row
    ([smoothed_state_means[0]], standard.py:889) *)
Inductive vkind := VWhole | V1d of vkind | V2d of vkind | VRow of nat.
(** a reference, standard.py:1092-1103 *)
Record view := View { v_addr : nat; v_kind : vkind }.
(** the array shown, utils/_sklearn.py:19-44, standard.py:889 *)
Fixpoint vconv (k : vkind) (c : cell) : res arr :=
  match k with
  | VWhole => if c is CArr a then Ok a else Err NotModelled
  | V1d k' => a <-- vconv k' c ;; Ok (array1d a)
  | V2d k' => a <-- vconv k' c ;; Ok (array2d a)
  | VRow t => match c with CRows s => getidx s t | CArr a => idx0 a t | CObs _ => Err NotModelled end
  end.
(** reading through a reference, standard.py:386-400 *)
Definition vload (v : view) : prog arr := c <~~ load (v_addr v) ;; rlift (vconv (v_kind v) c).
(** result of an expression, to be referred to later, standard.py:752 *)
Definition new_arr (x : arr) : prog view := a <~~ alloc (CArr x) ;; rlift (Ok (View a VWhole)).

(** references to the eight parameters, standard.py:1632-1641 *)
Record hparams := HParams {
  q_tm : view; q_to : view; q_tc : view; q_om : view; q_oo : view; q_oc : view; q_im : view; q_ic : view
}.
(** [observations.shape], standard.py:370-372 *)
Definition obs_shape (x : nat) : prog (nat * nat) :=
  c <~~ load x ;;
  rlift (if c is CObs X then let: existT k zs := parse_observations X in Ok (size zs, k) else Err NotModelled).
(** [observations[t]]: data and mask, standard.py:409 *)
Definition obs_at (x t : nat) : prog {k : nat & orow R k} :=
  c <~~ load x ;;
  rlift (if c is CObs X then let: existT k zs := parse_observations X in z <-- getidx zs t ;; Ok (existT _ k z)
         else Err NotModelled).

(** [for t in ...], standard.py:380 *)
Fixpoint for_in (s : seq nat) (f : nat -> prog unit) : prog unit :=
  match s with
  | [::] => rlift (Ok tt)
  | t :: s' => _ <~~ f t ;; for_in s' f
  end.

(** the same with a counter ([n_obs]), standard.py:764-778 *)
Fixpoint for_count (s : seq nat) (f : nat -> nat -> prog nat) (i : nat) : prog nat :=
  match s with
  | [::] => rlift (Ok i)
  | t :: s' => i' <~~ f t i ;; for_count s' f i'
  end.

(** addresses of the five arrays filled by [_filter], standard.py:374-378 *)
Record fbufs := FBufs { b_pm : nat; b_pc : nat; b_kg : nat; b_fm : nat; b_fc : nat }.

(** body of the loop of [_filter], standard.py:380-410 *)
Definition filter_step_h (p : hparams) (x : nat) (b : fbufs) (n k t : nat) : prog unit :=
  _ <~~ (match t with
    | 0 =>
        im <~~ vload (q_im p) ;; pm <~~ rlift (assign1 n im) ;; _ <~~ set_row (b_pm b) 0 pm ;;
        ic <~~ vload (q_ic p) ;; pc <~~ rlift (assign2 n n ic) ;; set_row (b_pc b) 0 pc
    | t'.+1 =>
        tm <~~ vload (q_tm p) ;; A <~~ rlift (last_dims tm t' 2) ;;
        tc <~~ vload (q_tc p) ;; Q <~~ rlift (last_dims tc t' 2) ;;
        to <~~ vload (q_to p) ;; o <~~ rlift (last_dims to t' 1) ;;
        fm <~~ get_row (b_fm b) t' ;; fc <~~ get_row (b_fc b) t' ;;
        '(m, c) <~~ rlift (filter_predict A Q o fm fc) ;;
        pm <~~ rlift (assign1 n m) ;; _ <~~ set_row (b_pm b) t pm ;;
        pc <~~ rlift (assign2 n n c) ;; set_row (b_pc b) t pc
    end) ;;
  om <~~ vload (q_om p) ;; C <~~ rlift (last_dims om t 2) ;;
  oc <~~ vload (q_oc p) ;; Rc <~~ rlift (last_dims oc t 2) ;;
  oo <~~ vload (q_oo p) ;; d <~~ rlift (last_dims oo t 1) ;;
  pm <~~ get_row (b_pm b) t ;; pc <~~ get_row (b_pc b) t ;;
  z <~~ obs_at x t ;;
  '(K, m, c) <~~ rlift (filter_correct C Rc d pm pc (A1 (projT2 z).1) (missing (projT2 z))) ;;
  kg <~~ rlift (assign2 n k K) ;; _ <~~ set_row (b_kg b) t kg ;;
  fm <~~ rlift (assign1 n m) ;; _ <~~ set_row (b_fm b) t fm ;;
  fc <~~ rlift (assign2 n n c) ;; set_row (b_fc b) t fc.
(** [_filter], standard.py:309-418 *)
Definition filter_h (p : hparams) (x : nat) : prog fbufs :=
  '(T, k) <~~ obs_shape x ;;
  im <~~ vload (q_im p) ;; n <~~ rlift (np_len im) ;;
  pm <~~ alloc (CRows (nseq T (zeros1 n))) ;;
  pc <~~ alloc (CRows (nseq T (zeros2 n n))) ;;
  kg <~~ alloc (CRows (nseq T (zeros2 n k))) ;;
  fm <~~ alloc (CRows (nseq T (zeros1 n))) ;;
  fc <~~ alloc (CRows (nseq T (zeros2 n n))) ;;
  let b := FBufs pm pc kg fm fc in
  _ <~~ for_in (iota 0 T) (filter_step_h p x b n k) ;;
  rlift (Ok b).

(** addresses of the three arrays filled by [_smooth], standard.py:531-533 *)
Record sbufs := SBufs { b_sm : nat; b_sc : nat; b_sg : nat }.
(** body of the loop of [_smooth], standard.py:538-552 *)
Definition smooth_step_h (tmv : view) (b : fbufs) (s : sbufs) (n t : nat) : prog unit :=
  tm <~~ vload tmv ;; A <~~ rlift (last_dims tm t 2) ;;
  fm <~~ get_row (b_fm b) t ;; fc <~~ get_row (b_fc b) t ;;
  pm <~~ get_row (b_pm b) t.+1 ;; pc <~~ get_row (b_pc b) t.+1 ;;
  sm <~~ get_row (b_sm s) t.+1 ;; sc <~~ get_row (b_sc s) t.+1 ;;
  '(m, c, L) <~~ rlift (smooth_update A fm fc pm pc sm sc) ;;
  m' <~~ rlift (assign1 n m) ;; _ <~~ set_row (b_sm s) t m' ;;
  c' <~~ rlift (assign2 n n c) ;; _ <~~ set_row (b_sc s) t c' ;;
  L' <~~ rlift (assign2 n n L) ;; set_row (b_sg s) t L'.
(** [_smooth], standard.py:488-553; [T] and [n] are the shape of the filtered
    means.  With no rows [np.zeros((-1, n, n))] raises [ValueError]. *)
Definition smooth_h (tmv : view) (b : fbufs) (T n : nat) : prog sbufs :=
  sm <~~ alloc (CRows (nseq T (zeros1 n))) ;;
  sc <~~ alloc (CRows (nseq T (zeros2 n n))) ;;
  _ <~~ rlift (if T == 0%N then Err ValueError else Ok tt) ;;
  sg <~~ alloc (CRows (nseq T.-1 (zeros2 n n))) ;;
  let s := SBufs sm sc sg in
  m <~~ get_row (b_fm b) T.-1 ;; _ <~~ set_row sm T.-1 m ;;
  c <~~ get_row (b_fc b) T.-1 ;; _ <~~ set_row sc T.-1 c ;;
  _ <~~ for_in (rev (iota 0 T.-1)) (smooth_step_h tmv b s n) ;;
  rlift (Ok s).
(** [_smooth_pair], standard.py:556-581 *)
Definition smooth_pair_h (s : sbufs) (T n : nat) : prog nat :=
  pw <~~ alloc (CRows (nseq T (zeros2 n n))) ;;
  _ <~~ for_in (iota 1 T.-1) (fun t =>
    c <~~ get_row (b_sc s) t ;; g <~~ get_row (b_sg s) t.-1 ;;
    gt <~~ rlift (tr g) ;; x <~~ rlift (dot c gt) ;; x' <~~ rlift (assign2 n n x) ;;
    set_row pw t x') ;;
  rlift (Ok pw).

(** [_loglikelihoods], standard.py:123-184, and the sum, 1591 *)
Section Loglik.
Variables (ln : R -> R) (ln2pi : R).
(** body of the loop, standard.py:160-183 *)
Definition loglik_step_h (p : hparams) (x : nat) (b : fbufs) (ll t : nat) : prog unit :=
  z <~~ obs_at x t ;;
  if ~~ missing (projT2 z) then
    om <~~ vload (q_om p) ;; C <~~ rlift (last_dims om t 2) ;;
    oo <~~ vload (q_oo p) ;; d <~~ rlift (last_dims oo t 1) ;;
    pm <~~ get_row (b_pm b) t ;;
    o1 <~~ rlift (dot C pm) ;; zhat <~~ rlift (add o1 d) ;;
    Ct <~~ rlift (tr C) ;;
    pc <~~ get_row (b_pc b) t ;;
    s1 <~~ rlift (dot pc Ct) ;; s2 <~~ rlift (dot C s1) ;;
    oc <~~ vload (q_oc p) ;; S <~~ rlift (add s2 oc) ;;
    l <~~ rlift (lmnd ln ln2pi (A1 (projT2 z).1) zhat S) ;;
    set_row ll t (A0 l)
  else rlift (Ok tt).
(** sum of an array of numbers, standard.py:1591 *)
Definition sum_h (ll : nat) : prog R :=
  c <~~ load ll ;;
  rlift (if c is CRows s then Ok (\sum_(x <- s) (if x is A0 l then l else 0)) else Err NotModelled).
(** [loglikelihood] after [_initialize_parameters], standard.py:1556-1591 *)
Definition loglikelihood_h_body (p : hparams) (x : nat) : prog R :=
  b <~~ filter_h p x ;;
  '(T, k) <~~ obs_shape x ;;
  ll <~~ alloc (CRows (nseq T (A0 0))) ;;
  _ <~~ for_in (iota 0 T) (loglik_step_h p x b ll) ;;
  sum_h ll.
End Loglik.

(** ** EM, standard.py:584-962: [x] observations, [s] and [pw] results of the
    smoother, [T], [n], [k] the dimensions read off their shapes *)
Section EM.
Variables (x : nat) (s : sbufs) (pw T n k : nat).

(** [_em_observation_matrix], standard.py:725-752 *)
Definition em_observation_matrix_h (oov : view) : prog view :=
  r1 <~~ alloc (CArr (zeros2 k n)) ;; r2 <~~ alloc (CArr (zeros2 n n)) ;;
  _ <~~ for_in (iota 0 T) (fun t =>
    z <~~ obs_at x t ;;
    if ~~ missing (projT2 z) then
      oo <~~ vload oov ;; d <~~ rlift (last_dims oo t 1) ;;
      m <~~ get_row (b_sm s) t ;;
      e <~~ rlift (sub (A1 (projT2 z).1) d) ;; x1 <~~ rlift (outer e m) ;; _ <~~ iadd_at r1 x1 ;;
      c <~~ get_row (b_sc s) t ;;
      x2 <~~ rlift (outer m m) ;; x3 <~~ rlift (add c x2) ;; iadd_at r2 x3
    else rlift (Ok tt)) ;;
  a1 <~~ load_arr r1 ;; a2 <~~ load_arr r2 ;;
  a2i <~~ rlift (np_pinv a2) ;; v <~~ rlift (dot a1 a2i) ;; new_arr v.
(** [_em_observation_covariance], standard.py:755-795 *)
Definition em_observation_covariance_h (oov omv : view) : prog view :=
  r <~~ alloc (CArr (zeros2 k k)) ;;
  nobs <~~ for_count (iota 0 T) (fun t i =>
    z <~~ obs_at x t ;;
    if ~~ missing (projT2 z) then
      om <~~ vload omv ;; C <~~ rlift (last_dims om t 2) ;;
      oo <~~ vload oov ;; d <~~ rlift (last_dims oo t 1) ;;
      m <~~ get_row (b_sm s) t ;;
      y <~~ rlift (dot C m) ;; e1 <~~ rlift (sub (A1 (projT2 z).1) y) ;; e <~~ rlift (sub e1 d) ;;
      ee <~~ rlift (outer e e) ;; Ct <~~ rlift (tr C) ;;
      c <~~ get_row (b_sc s) t ;;
      c1 <~~ rlift (dot c Ct) ;; c2 <~~ rlift (dot C c1) ;; y' <~~ rlift (add ee c2) ;;
      _ <~~ iadd_at r y' ;; rlift (Ok i.+1)
    else rlift (Ok i)) 0%N ;;
  if (0 < nobs)%N then a <~~ load_arr r ;; new_arr (scal (1 / nobs%:R) a)
  else rlift (Ok (View r VWhole)).
(** [_em_transition_matrix], standard.py:798-828 *)
Definition em_transition_matrix_h (tov : view) : prog view :=
  r1 <~~ alloc (CArr (zeros2 n n)) ;; r2 <~~ alloc (CArr (zeros2 n n)) ;;
  _ <~~ for_in (iota 1 T.-1) (fun t =>
    to <~~ vload tov ;; b <~~ rlift (last_dims to t.-1 1) ;;
    pt <~~ get_row pw t ;; m <~~ get_row (b_sm s) t ;; m' <~~ get_row (b_sm s) t.-1 ;;
    x1 <~~ rlift (outer m m') ;; x2 <~~ rlift (add pt x1) ;;
    x3 <~~ rlift (outer b m') ;; x4 <~~ rlift (sub x2 x3) ;; _ <~~ iadd_at r1 x4 ;;
    c' <~~ get_row (b_sc s) t.-1 ;;
    y1 <~~ rlift (outer m' m') ;; y2 <~~ rlift (add c' y1) ;; iadd_at r2 y2) ;;
  a1 <~~ load_arr r1 ;; a2 <~~ load_arr r2 ;;
  a2i <~~ rlift (np_pinv a2) ;; v <~~ rlift (dot a1 a2i) ;; new_arr v.
(** [_em_transition_covariance], standard.py:831-876 *)
Definition em_transition_covariance_h (tmv tov : view) : prog view :=
  r <~~ alloc (CArr (zeros2 n n)) ;;
  _ <~~ for_in (iota 0 T.-1) (fun t =>
    tm <~~ vload tmv ;; A <~~ rlift (last_dims tm t 2) ;;
    to <~~ vload tov ;; b <~~ rlift (last_dims to t 1) ;;
    m <~~ get_row (b_sm s) t ;; m' <~~ get_row (b_sm s) t.+1 ;;
    y <~~ rlift (dot A m) ;; e1 <~~ rlift (sub m' y) ;; e <~~ rlift (sub e1 b) ;;
    pt <~~ get_row pw t.+1 ;; At <~~ rlift (tr A) ;; V <~~ rlift (dot pt At) ;;
    ee <~~ rlift (outer e e) ;;
    c <~~ get_row (b_sc s) t ;; c1 <~~ rlift (dot c At) ;; c2 <~~ rlift (dot A c1) ;;
    x1 <~~ rlift (add ee c2) ;;
    c' <~~ get_row (b_sc s) t.+1 ;; x2 <~~ rlift (add x1 c') ;;
    x3 <~~ rlift (sub x2 V) ;; Vt <~~ rlift (tr V) ;; x4 <~~ rlift (sub x3 Vt) ;; iadd_at r x4) ;;
  if (1 < T)%N then a <~~ load_arr r ;; new_arr (scal (1 / (T.-1)%:R) a)
  else rlift (Ok (View r VWhole)).
(** [_em_initial_state_mean], standard.py:879-889: a view, not a copy *)
Definition em_initial_state_mean_h : prog view :=
  _ <~~ get_row (b_sm s) 0 ;; rlift (Ok (View (b_sm s) (VRow 0))).
(** [_em_initial_state_covariance], standard.py:892-912 *)
Definition em_initial_state_covariance_h (imv : view) : prog view :=
  im <~~ vload imv ;; x0 <~~ get_row (b_sm s) 0 ;; c <~~ get_row (b_sc s) 0 ;;
  o1 <~~ rlift (outer x0 x0) ;; x00 <~~ rlift (add c o1) ;;
  o2 <~~ rlift (outer im x0) ;; y1 <~~ rlift (sub x00 o2) ;;
  o3 <~~ rlift (outer x0 im) ;; y2 <~~ rlift (sub y1 o3) ;;
  o4 <~~ rlift (outer im im) ;; v <~~ rlift (add y2 o4) ;; new_arr v.
(** [_em_transition_offset], standard.py:915-936 *)
Definition em_transition_offset_h (tmv : view) : prog view :=
  r <~~ alloc (CArr (zeros1 n)) ;;
  _ <~~ for_in (iota 1 T.-1) (fun t =>
    tm <~~ vload tmv ;; A <~~ rlift (last_dims tm t.-1 2) ;;
    m <~~ get_row (b_sm s) t ;; m' <~~ get_row (b_sm s) t.-1 ;;
    y <~~ rlift (dot A m') ;; e <~~ rlift (sub m y) ;; iadd_at r e) ;;
  if (1 < T)%N then a <~~ load_arr r ;; new_arr (scal (1 / (T.-1)%:R) a)
  else new_arr (zeros1 n).
(** [_em_observation_offset], standard.py:939-962 *)
Definition em_observation_offset_h (omv : view) : prog view :=
  r <~~ alloc (CArr (zeros1 k)) ;;
  nobs <~~ for_count (iota 0 T) (fun t i =>
    z <~~ obs_at x t ;;
    if ~~ missing (projT2 z) then
      om <~~ vload omv ;; C <~~ rlift (last_dims om t 2) ;;
      m <~~ get_row (b_sm s) t ;;
      y <~~ rlift (dot C m) ;; e <~~ rlift (sub (A1 (projT2 z).1) y) ;;
      _ <~~ iadd_at r e ;; rlift (Ok i.+1)
    else rlift (Ok i)) 0%N ;;
  if (0 < nobs)%N then a <~~ load_arr r ;; new_arr (scal (1 / nobs%:R) a)
  else rlift (Ok (View r VWhole)).

(** [if name in given: ... else: ...], standard.py:645-711 *)
Definition given_or_h (g : seq (string * view)) (name : string) (compute : prog view) : prog view :=
  match dget g name with Some v => rlift (Ok v) | None => compute end.
(** [_em], standard.py:584-722 *)
Definition em_body_h (tov oov : view) (g : seq (string * view)) : prog hparams :=
  om' <~~ given_or_h g "observation_matrices" (em_observation_matrix_h oov) ;;
  oc' <~~ given_or_h g "observation_covariance" (em_observation_covariance_h oov om') ;;
  tm' <~~ given_or_h g "transition_matrices" (em_transition_matrix_h tov) ;;
  tc' <~~ given_or_h g "transition_covariance" (em_transition_covariance_h tm' tov) ;;
  im' <~~ given_or_h g "initial_state_mean" em_initial_state_mean_h ;;
  ic' <~~ given_or_h g "initial_state_covariance" (em_initial_state_covariance_h im') ;;
  to' <~~ given_or_h g "transition_offsets" (em_transition_offset_h tm') ;;
  oo' <~~ given_or_h g "observation_offsets" (em_observation_offset_h om') ;;
  rlift (Ok (HParams tm' to' tc' om' oo' oc' im' ic')).
End EM.

(** ** the class *)
(** attributes of a KalmanFilter object: references, standard.py:1092-1113 *)
Record hkf := HKF {
  h_tm : option view; h_om : option view; h_tc : option view; h_oc : option view;
  h_to : option view; h_oo : option view; h_im : option view; h_ic : option view;
  h_rs : option rspec; h_em : option emspec; h_n : nat; h_m : nat; h_em_ : emspec
}.
(** arguments of the constructor, standard.py:1055-1069 *)
Record hargs := HArgs {
  g_tm : option view; g_om : option view; g_tc : option view; g_oc : option view;
  g_to : option view; g_oo : option view; g_im : option view; g_ic : option view;
  g_rs : option rspec; g_em : option emspec; g_n : option nat; g_m : option nat
}.
(** reading an argument that may be [None], standard.py:1070-1090 *)
Definition oload (v : option view) : prog (option arr) :=
  if v is Some w then a <~~ vload w ;; rlift (Ok (Some a)) else rlift (Ok None).
(** [KalmanFilter.__init__], standard.py:1055-1113: looks at the shapes and keeps
    the references it was given *)
Definition kf_init_h (a : hargs) : prog hkf :=
  tm <~~ oload (g_tm a) ;; om <~~ oload (g_om a) ;; tc <~~ oload (g_tc a) ;; oc <~~ oload (g_oc a) ;;
  to <~~ oload (g_to a) ;; oo <~~ oload (g_oo a) ;; im <~~ oload (g_im a) ;; ic <~~ oload (g_ic a) ;;
  n <~~ rlift (determine_dimensionality
    [:: (tm, fun v => shape_m2 (array2d v));
        (to, fun v => shape_m1 (array1d v));
        (tc, fun v => shape_m2 (array2d v));
        (im, fun v => shape_m1 (array1d v));
        (ic, fun v => shape_m2 (array2d v));
        (om, fun v => shape_m1 (array2d v))] (g_n a)) ;;
  m <~~ rlift (determine_dimensionality
    [:: (om, fun v => shape_m2 (array2d v));
        (oo, fun v => shape_m1 (array1d v));
        (oc, fun v => shape_m2 (array2d v))] (g_m a)) ;;
  rlift (Ok (HKF (g_tm a) (g_om a) (g_tc a) (g_oc a) (g_to a) (g_oo a) (g_im a) (g_ic a)
                 (g_rs a) (g_em a) n m
                 (if g_em a is Some e then e else EmNames default_em_vars))).
(** the value given or the default, as [array1d]/[array2d], utils/_sklearn.py:115-151 *)
Definition pick (f : vkind -> vkind) (v : option view) (d : nat) : view :=
  match v with Some w => View (v_addr w) (f (v_kind w)) | None => View d (f VWhole) end.
(** [_initialize_parameters], standard.py:1593-1641: the defaults are allocated at
    every call *)
Definition init_h (o : hkf) : prog hparams :=
  let n := h_n o in let m := h_m o in
  d1 <~~ alloc (CArr (eye2 n n)) ;; d2 <~~ alloc (CArr (zeros1 n)) ;;
  d3 <~~ alloc (CArr (eye2 n n)) ;; d4 <~~ alloc (CArr (eye2 m n)) ;;
  d5 <~~ alloc (CArr (zeros1 m)) ;; d6 <~~ alloc (CArr (eye2 m m)) ;;
  d7 <~~ alloc (CArr (zeros1 n)) ;; d8 <~~ alloc (CArr (eye2 n n)) ;;
  _ <~~ rlift (check_random_state (Some (odflt (RsSeed 0) (h_rs o)))) ;;
  rlift (Ok (HParams (pick V2d (h_tm o) d1) (pick V1d (h_to o) d2) (pick V2d (h_tc o) d3)
                     (pick V2d (h_om o) d4) (pick V1d (h_oo o) d5) (pick V2d (h_oc o) d6)
                     (pick V1d (h_im o) d7) (pick V2d (h_ic o) d8))).

(** [KalmanFilter.filter], standard.py:1186-1238: addresses of the two results *)
Definition kf_filter_h (o : hkf) (x : nat) : prog (nat * nat) :=
  p <~~ init_h o ;; b <~~ filter_h p x ;; rlift (Ok (b_fm b, b_fc b)).
(** [KalmanFilter.smooth], standard.py:1356-1416 *)
Definition kf_smooth_h (o : hkf) (x : nat) : prog (nat * nat) :=
  p <~~ init_h o ;; b <~~ filter_h p x ;;
  '(T, _) <~~ obs_shape x ;; im <~~ vload (q_im p) ;; n <~~ rlift (np_len im) ;;
  s <~~ smooth_h (q_tm p) b T n ;;
  rlift (Ok (b_sm s, b_sc s)).
(** [KalmanFilter.loglikelihood], standard.py:1535-1591 *)
Definition kf_loglikelihood_h (ln : R -> R) (ln2pi : R) (o : hkf) (x : nat) : prog R :=
  p <~~ init_h o ;; loglikelihood_h_body ln ln2pi p x.
(** [_arg_or_default], standard.py:39-49 *)
Definition arg_or_default_h (arg : option view) (default : view) (dim : nat) : prog arr :=
  a <~~ vload (odflt default arg) ;;
  rlift (if (dim < ndim a)%N then Err ValueError else Ok a).
(** [KalmanFilter.filter_update], standard.py:1240-1354; an observation is a
    reference together with "is masked" *)
Definition kf_filter_update_h (o : hkf) (fmv fcv : view) (z : option (view * bool))
    (tm to tc om oo oc : option view) : prog (view * view) :=
  p <~~ init_h o ;;
  b <~~ arg_or_default_h to (q_to p) 1 ;;
  d <~~ arg_or_default_h oo (q_oo p) 1 ;;
  A <~~ arg_or_default_h tm (q_tm p) 2 ;;
  C <~~ arg_or_default_h om (q_om p) 2 ;;
  Q <~~ arg_or_default_h tc (q_tc p) 2 ;;
  Rc <~~ arg_or_default_h oc (q_oc p) 2 ;;
  '(za, miss) <~~ (match z with
    | None => no <~~ rlift (shape0 Rc) ;; rlift (Ok (zeros1 no, (0 < no)%N))
    | Some (v, b) => a <~~ vload v ;; rlift (Ok (a, b))
    end) ;;
  fm <~~ vload fmv ;; fc <~~ vload fcv ;;
  '(pm, pc) <~~ rlift (filter_predict A Q b fm fc) ;;
  '(_, m, c) <~~ rlift (filter_correct C Rc d pm pc za miss) ;;
  vm <~~ new_arr m ;; vc <~~ new_arr c ;; rlift (Ok (vm, vc)).

(** assignment of the eight attributes, standard.py:1440-1449, 1514-1523 *)
Definition set_params_h (o : hkf) (p : hparams) : hkf :=
  HKF (Some (q_tm p)) (Some (q_om p)) (Some (q_tc p)) (Some (q_oc p))
      (Some (q_to p)) (Some (q_oo p)) (Some (q_im p)) (Some (q_ic p))
      (h_rs o) (h_em o) (h_n o) (h_m o) (h_em_ o).
(** the dictionary [given], standard.py:1455-1473 *)
Definition given_all_h (p : hparams) : seq (string * view) :=
  [:: ("transition_matrices", q_tm p); ("observation_matrices", q_om p);
      ("transition_offsets", q_to p); ("observation_offsets", q_oo p);
      ("transition_covariance", q_tc p); ("observation_covariance", q_oc p);
      ("initial_state_mean", q_im p); ("initial_state_covariance", q_ic p)]%string.
(** standard.py:1455-1471 *)
Definition mk_given_h (p : hparams) (e : emspec) : seq (string * view) :=
  if em_is_all e then [::]
  else [seq kv <- given_all_h p | ~~ em_mem e kv.1].
(** one iteration, standard.py:1483-1531 *)
Definition em_iter_h (x : nat) (g : seq (string * view)) (p : hparams) : prog hparams :=
  b <~~ filter_h p x ;;
  '(T, k) <~~ obs_shape x ;; im <~~ vload (q_im p) ;; n <~~ rlift (np_len im) ;;
  s <~~ smooth_h (q_tm p) b T n ;;
  pw <~~ smooth_pair_h s T n ;;
  em_body_h x s pw T n k (q_to p) (q_oo p) g.
(** the loop: memory, attributes and outcome, standard.py:1483-1532 *)
Fixpoint em_loop_h (x : nat) (g : seq (string * view)) (n_iter : nat) (p : hparams) (h : heap) :
    heap * (hparams * res unit) :=
  match n_iter with
  | 0 => (h, (p, Ok tt))
  | i.+1 => match em_iter_h x g p h with
            | (h', Ok p') => em_loop_h x g i p' h'
            | (h', Err e) => (h', (p, Err e))
            end
  end.
(** [KalmanFilter.em], standard.py:1418-1533: memory, object and outcome *)
Definition kf_em_h (o : hkf) (x : nat) (n_iter : nat) (em_vars : option emspec) (h : heap) :
    heap * (hkf * res unit) :=
  match init_h o h with
  | (h1, Err e) => (h1, (o, Err e))
  | (h1, Ok p) =>
      let '(h2, (p', r)) := em_loop_h x (mk_given_h p (odflt (h_em_ o) em_vars)) n_iter p h1 in
      (h2, (set_params_h o p', r))
  end.
End Heap.
