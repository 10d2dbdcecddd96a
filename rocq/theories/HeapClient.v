(** Several KalmanFilter objects in one memory: any sequence of calls of filter
    (standard.py:1186), smooth (1356), loglikelihood (1535), filter_update (1240)
    and em (1418) on any of them.  Arguments are references. *)
From mathcomp Require Import all_ssreflect all_algebra.
From Verif Require Import Prelude LinAlg Numpy Sklearn Standard Rng Heap.

Set Implicit Arguments.
Unset Strict Implicit.
Unset Printing Implicit Defensive.

Section HeapClient.
Variables (R : rcfType) (ln : R -> R) (ln2pi : R).

(** a call and its arguments, standard.py:1186, 1240, 1356, 1418, 1535 *)
Inductive hcall :=
  | HFilter of nat
  | HSmooth of nat
  | HLoglik of nat
  | HUpdate of view & view & option (view * bool) & option view & option view & option view
      & option view & option view & option view
  | HEm of nat & nat & option emspec.
(** its result: addresses of new arrays, a number, an exception,
    standard.py:1238, 1354, 1416, 1533, 1591 *)
Inductive hreply :=
  | HMoments of res (nat * nat)
  | HNumber of res R
  | HState of res (view * view)
  | HUnit of res unit.

(** one call on the object [o] in memory [h], standard.py:1186-1591 *)
Definition hstep (h : heap R) (o : hkf) (c : hcall) : heap R * hkf * hreply :=
  match c with
  | HFilter x => let '(h', r) := kf_filter_h o x h in (h', o, HMoments r)
  | HSmooth x => let '(h', r) := kf_smooth_h o x h in (h', o, HMoments r)
  | HLoglik x => let '(h', r) := kf_loglikelihood_h ln ln2pi o x h in (h', o, HNumber r)
  | HUpdate m c z tm to tc om oo oc =>
      let '(h', r) := kf_filter_update_h o m c z tm to tc om oo oc h in (h', o, HState r)
  | HEm x n ev => let '(h', (o', r)) := kf_em_h o x n ev h in (h', o', HUnit r)
  end.

(** a sequence of calls, each on the object with the given number
    (infrastructure, no code of the project) *)
Fixpoint hrun (h : heap R) (os : nat -> hkf) (cs : seq (nat * hcall)) :
    heap R * (nat -> hkf) * seq (nat * hreply) :=
  match cs with
  | [::] => (h, os, [::])
  | (i, c) :: cs' =>
      let '(h1, o1, r) := hstep h (os i) c in
      let '(h2, os2, rs) := hrun h1 (fun j => if j == i then o1 else os j) cs' in
      (h2, os2, (i, r) :: rs)
  end.
End HeapClient.
