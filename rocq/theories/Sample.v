(** Model of [KalmanFilter.sample], pykalman/standard.py:1115-1184. *)
From mathcomp Require Import all_ssreflect all_algebra.
From Verif Require Import Prelude LinAlg Numpy Sklearn Standard Rng.
Import GRing.Theory Num.Theory.

Set Implicit Arguments.
Unset Strict Implicit.
Unset Printing Implicit Defensive.
Local Open Scope ring_scope.

Section Sample.
Variables (R : rcfType) (G : Type) (rl : rng_lib R G).
Notation arr := (arr R).

(** body of the loop, 1157-1182, at time [t]; [prev] is [states[t-1]]
    ([None] at [t = 0]).  [tc] and [oc] are the local variables
    [transition_covariance] and [observation_covariance], which the body
    overwrites by their own slice (lines 1165 and 1175); they are returned.
    [newbyteorder] does not change values. *)
Definition sample_step (p : kfparams R) (n m t : nat) (init : arr) (prev : option arr) (tc oc : arr) :
    rnd G (arr * arr * arr * arr) :=
  '(x, tc') <~~ (match prev with
    | None => x <~~ rlift (assign1 n init) ;; rlift (Ok (x, tc))
    | Some s =>
        A <~~ rlift (last_dims (p_tm p) t.-1 2) ;;
        b <~~ rlift (last_dims (p_to p) t.-1 1) ;;
        tc' <~~ rlift (last_dims tc t.-1 2) ;;
        y <~~ rlift (dot A s) ;;
        yb <~~ rlift (add y b) ;;
        w <~~ multivariate_normal rl (zeros1 n) tc' ;;
        x <~~ rlift (add yb w) ;;
        x' <~~ rlift (assign1 n x) ;;
        rlift (Ok (x', tc'))
    end) ;;
  C <~~ rlift (last_dims (p_om p) t 2) ;;
  d <~~ rlift (last_dims (p_oo p) t 1) ;;
  oc' <~~ rlift (last_dims oc t 2) ;;
  y <~~ rlift (dot C x) ;;
  yd <~~ rlift (add y d) ;;
  v <~~ multivariate_normal rl (zeros1 m) oc' ;;
  z <~~ rlift (add yd v) ;;
  z' <~~ rlift (assign1 m z) ;;
  rlift (Ok (x, z', tc', oc')).

(** [k] iterations starting at time [t], standard.py:1159-1182 *)
Fixpoint sample_loop (p : kfparams R) (n m : nat) (init : arr) (k t : nat) (prev : option arr) (tc oc : arr) :
    rnd G (seq (arr * arr)) :=
  match k with
  | 0 => rlift (Ok [::])
  | k'.+1 =>
      '(x, z, tc', oc') <~~ sample_step p n m t init prev tc oc ;;
      rest <~~ sample_loop p n m init k' t.+1 (Some x) tc' oc' ;;
      rlift (Ok ((x, z) :: rest))
  end.

(** the part that uses the generator, 1151-1184 *)
Definition sample_run (p : kfparams R) (n m T : nat) (initial_state : option arr) : rnd G (seq (arr * arr)) :=
  init <~~ (match initial_state with
            | None => multivariate_normal rl (p_im p) (p_ic p)
            | Some x => rlift (Ok x)
            end) ;;
  sample_loop p n m init T 0 None (p_tc p) (p_oc p).

(** [KalmanFilter.sample(n_timesteps, initial_state, random_state)]: the pairs
    (states[t], observations[t]), standard.py:1115-1184 *)
Definition kf_sample (o : kf R) (T : nat) (initial_state : option arr) (random_state : option rspec)
    (w : world G) : world G * res (seq (arr * arr)) :=
  match initialize_parameters o with
  | Err e => (w, Err e)
  | Ok p =>
      match shape_m2 (p_tm p), shape_m2 (p_om p) with
      | Ok n, Ok m =>
          match check_random_state (if random_state is Some r then Some r else k_rs o) with
          | Err e => (w, Err e)
          | Ok h => run_on rl h (sample_run p n m T initial_state) w
          end
      | Err e, _ | Ok _, Err e => (w, Err e)
      end
  end.
End Sample.
