(** Call sequences on one KalmanFilter object.

    The state is the object's attributes and the generators.  filter, smooth,
    loglikelihood, filter_update and sample (standard.py:1115-1416, 1535-1591)
    assign no attribute of [self]; em (1418-1533) assigns the eight parameters
    and does so even when it raises.  Arrays are values here; Heap.v and
    HeapClient.v model the same calls on arrays in memory. *)
From mathcomp Require Import all_ssreflect all_algebra.
From Verif Require Import Prelude LinAlg Numpy Sklearn Standard Rng Sample.
Import GRing.Theory Num.Theory.

Set Implicit Arguments.
Unset Strict Implicit.
Unset Printing Implicit Defensive.
Local Open Scope ring_scope.

Section Client.
Variables (R : rcfType) (G : Type) (rl : rng_lib R G) (ln : R -> R) (ln2pi : R).

(** a call of a public method: filter (standard.py:1186), smooth (1356),
    loglikelihood (1535), filter_update (1240), sample (1115), em (1418) *)
Inductive call :=
  | CFilter of obs R
  | CSmooth of obs R
  | CLoglik of obs R
  | CUpdate of arr R & arr R & obs1 R & option (arr R) & option (arr R) & option (arr R)
      & option (arr R) & option (arr R) & option (arr R)
  | CSample of nat & option (arr R) & option rspec
  | CEm of obs R & nat & option emspec
  | CAssign of kf R.          (* the user overwrites attributes *)

(** its result, standard.py:1184, 1238, 1354, 1416, 1533, 1591 *)
Inductive reply :=
  | RMoments of res (seq (arr R * arr R))
  | RNumber of res R
  | RState of res (arr R * arr R)
  | RSample of res (seq (arr R * arr R))
  | RUnit of res unit.

(** one call, standard.py:1115-1591 *)
Definition step (s : kf R * world G) (c : call) : kf R * world G * reply :=
  let: (o, w) := s in
  match c with
  | CFilter X => (o, w, RMoments (kf_filter o X))
  | CSmooth X => (o, w, RMoments (kf_smooth o X))
  | CLoglik X => (o, w, RNumber (kf_loglikelihood ln ln2pi o X))
  | CUpdate m c z tm to tc om oo oc => (o, w, RState (kf_filter_update o m c z tm to tc om oo oc))
  | CSample T x0 rs => let '(w', r) := kf_sample rl o T x0 rs w in (o, w', RSample r)
  | CEm X n ev => let '(o', r) := kf_em o X n ev in (o', w, RUnit r)
  | CAssign o' => (o', w, RUnit (Ok tt))
  end.

(** a sequence of calls on one object (infrastructure, no code of the project) *)
Fixpoint run (s : kf R * world G) (cs : seq call) : kf R * world G * seq reply :=
  match cs with
  | [::] => (s, [::])
  | c :: cs' => let '(s', r) := step s c in let '(s'', rs) := run s' cs' in (s'', r :: rs)
  end.
End Client.

(** calls that are expected to change the object, and calls whose reply may
    depend on the generators *)
Definition changes R (c : call R) : bool := match c with CEm _ _ _ | CAssign _ => true | _ => false end.
Definition random R (c : call R) : bool := if c is CSample _ _ _ then true else false.
