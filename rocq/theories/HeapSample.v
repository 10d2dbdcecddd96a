(** [KalmanFilter.sample] with arrays in memory, pykalman/standard.py:1115-1184:
    the memory of Heap.v next to the generators of Rng.v. *)
From mathcomp Require Import all_ssreflect all_algebra.
From Verif Require Import Prelude LinAlg Numpy Sklearn Standard Rng Heap.
Import GRing.Theory Num.Theory.

Set Implicit Arguments.
Unset Strict Implicit.
Unset Printing Implicit Defensive.
Local Open Scope ring_scope.

Section HeapSample.
Variables (R : rcfType) (G : Type) (rl : rng_lib R G).
Notation arr := (arr R).
Notation heap := (heap R).

(** programs that use memory and one generator, standard.py:1146-1182 *)
Definition gprog (T : Type) := rnd (heap * G) T.
(** a step that uses the memory only, standard.py:1162-1178 *)
Definition onmem T (P : prog R T) : gprog T := fun s => let '(h, r) := P s.1 in ((h, s.2), r).
(** a step that uses the generator only, standard.py:1154, 1170, 1179 *)
Definition ongen T (P : rnd G T) : gprog T := fun s => let '(g, r) := P s.2 in ((s.1, g), r).

(** a reference and the slices taken of it so far: the local variables
    [transition_covariance] and [observation_covariance], which the loop replaces
    by their own slice (standard.py:1165, 1175); a slice is a view *)
Record lview := LView { l_of : view; l_at : seq nat }.
(** [_last_dims(v, t)], standard.py:1165, 1175 *)
Definition narrow (v : lview) (t : nat) : lview := LView (l_of v) (rcons (l_at v) t).
(** reading through it, standard.py:1166, 1180 *)
Definition lload (v : lview) : prog R arr :=
  a <~~ vload (l_of v) ;;
  rlift (foldl (fun r t => b <-- r ;; last_dims b t 2) (Ok a) (l_at v)).

(** body of the loop, standard.py:1159-1182; [st] and [ob] are the addresses of
    [states] and [observations]; returned are the two local variables *)
Definition sample_step_h (p : hparams) (n m : nat) (init : view) (st ob t : nat) (tc oc : lview) :
    gprog (lview * lview) :=
  tc' <~~ (match t with
    | 0 =>
        a <~~ onmem (vload init) ;; x <~~ rlift (assign1 n a) ;;
        _ <~~ onmem (set_row st 0 x) ;; rlift (Ok tc)
    | t'.+1 =>
        tm <~~ onmem (vload (q_tm p)) ;; A <~~ rlift (last_dims tm t' 2) ;;
        to <~~ onmem (vload (q_to p)) ;; b <~~ rlift (last_dims to t' 1) ;;
        Q <~~ onmem (lload (narrow tc t')) ;;
        s <~~ onmem (get_row st t') ;;
        y <~~ rlift (dot A s) ;; yb <~~ rlift (add y b) ;;
        w <~~ ongen (multivariate_normal rl (zeros1 n) Q) ;;
        x <~~ rlift (add yb w) ;; x' <~~ rlift (assign1 n x) ;;
        _ <~~ onmem (set_row st t x') ;; rlift (Ok (narrow tc t'))
    end) ;;
  om <~~ onmem (vload (q_om p)) ;; C <~~ rlift (last_dims om t 2) ;;
  oo <~~ onmem (vload (q_oo p)) ;; d <~~ rlift (last_dims oo t 1) ;;
  Rc <~~ onmem (lload (narrow oc t)) ;;
  s <~~ onmem (get_row st t) ;;
  y <~~ rlift (dot C s) ;; yd <~~ rlift (add y d) ;;
  v <~~ ongen (multivariate_normal rl (zeros1 m) Rc) ;;
  z <~~ rlift (add yd v) ;; z' <~~ rlift (assign1 m z) ;;
  _ <~~ onmem (set_row ob t z') ;;
  rlift (Ok (tc', narrow oc t)).

(** [k] rounds from time [t] on, standard.py:1159-1182 *)
Fixpoint sample_for_h (p : hparams) (n m : nat) (init : view) (st ob k t : nat) (tc oc : lview) :
    gprog unit :=
  match k with
  | 0 => rlift (Ok tt)
  | k'.+1 =>
      '(tc', oc') <~~ sample_step_h p n m init st ob t tc oc ;;
      sample_for_h p n m init st ob k' t.+1 tc' oc'
  end.

(** the part that uses the generator, standard.py:1152-1184.  [np.ma.array] of
    [observations] shares its memory: the address is returned *)
Definition sample_run_h (p : hparams) (n m T : nat) (init : option view) (st ob : nat) : gprog (nat * nat) :=
  v <~~ (match init with
         | None =>
             im <~~ onmem (vload (q_im p)) ;; ic <~~ onmem (vload (q_ic p)) ;;
             x <~~ ongen (multivariate_normal rl im ic) ;; onmem (new_arr x)
         | Some v => rlift (Ok v)
         end) ;;
  _ <~~ sample_for_h p n m v st ob T 0 (LView (q_tc p) [::]) (LView (q_oc p) [::]) ;;
  rlift (Ok (st, ob)).

(** up to the generator, standard.py:1129-1144 *)
Definition sample_prepare_h (o : hkf) (T : nat) : prog R (hparams * nat * nat * nat * nat) :=
  p <~~ init_h o ;;
  tm <~~ vload (q_tm p) ;; n <~~ rlift (shape_m2 tm) ;;
  om <~~ vload (q_om p) ;; m <~~ rlift (shape_m2 om) ;;
  st <~~ alloc (CRows (nseq T (zeros1 n))) ;;
  ob <~~ alloc (CRows (nseq T (zeros1 m))) ;;
  rlift (Ok (p, n, m, st, ob)).

(** a program on the generator with handle [g], standard.py:1147-1150 *)
Definition run_on_h T (g : genh) (c : gprog T) (h : heap) (w : world G) : heap * world G * res T :=
  match g with
  | HGlobal => let '(h', g', r) := c (h, w_global w) in (h', World g' (w_inst w), r)
  | HFresh z => let '(h', _, r) := c (h, seed_state rl z) in (h', w, r)
  | HInst i => let '(h', g', r) := c (h, w_inst w i) in (h', World (w_global w) (upd (w_inst w) i g'), r)
  end.

(** [KalmanFilter.sample(n_timesteps, initial_state, random_state)]: addresses of
    [states] and [observations], standard.py:1115-1184 *)
Definition kf_sample_h (o : hkf) (T : nat) (initial_state : option view) (random_state : option rspec)
    (h : heap) (w : world G) : heap * world G * res (nat * nat) :=
  match sample_prepare_h o T h with
  | (h', Err e) => (h', w, Err e)
  | (h', Ok (p, n, m, st, ob)) =>
      match check_random_state (if random_state is Some r then Some r else h_rs o) with
      | Err e => (h', w, Err e)
      | Ok g => run_on_h g (sample_run_h p n m T initial_state st ob) h' w
      end
  end.
End HeapSample.
