(** Property theorems: arguments of filter_update in the unscented classes
    (C70); em after a failure (C24); generators in call sequences (C36). *)
From Coq Require Import String List.
From mathcomp Require Import all_ssreflect all_algebra.
From Verif Require Import Prelude LinAlg Numpy Sklearn Standard Rng Sample Client Sqrt Unscented SqrtUnscented Model KfSpec UscSpec Examples ExamplesEm
  ExamplesUsc Unscented Tight2Spec Tight2Facts.
Import GRing.Theory Num.Theory.

Set Implicit Arguments.
Unset Strict Implicit.
Unset Printing Implicit Defensive.
Local Open Scope ring_scope.

(** ** C70 *)
Theorem C70_needs_functions (R : rcfType) (o : ukf R) (qr : qr_fun R) (Hs : seed_ok (o_rs o)) :
  [/\ refuses (@ukf_filter_update R) o, refuses (@aukf_filter_update R) o & refuses (@sukf_filter_update R qr) o].
Proof. exact: (And3 (ukf_refuses Hs) (aukf_refuses Hs) (sukf_refuses Hs qr)). Qed.
Print Assumptions C70_needs_functions.

Theorem C70_arguments_win (R : rcfType) (o : ukf R) (qr : qr_fun R) (Hs : seed_ok (o_rs o)) :
  [/\ wins (@ukf_filter_update R) o, wins (@aukf_filter_update R) o & wins (@sukf_filter_update R qr) o].
Proof. exact: (And3 (ukf_wins Hs) (aukf_wins Hs) (sukf_wins Hs qr)). Qed.
Print Assumptions C70_arguments_win.

(** an object with one function per time step *)
Example C70_hypotheses_met (R : rcfType) :
  [/\ seed_ok (o_rs (sq_o R)), not_single (o_f (sq_o R)) & not_single (o_g (sq_o R))].
Proof. exact: several_met. Qed.

(** ** C24: the object left by a failed em is complete, and em on it stops at once with the same exception *)
Theorem C24_resumes (R : rcfType) (o : kf R) X N ev o' e (Hs : seed_ok (k_rs o)) :
  kf_em o X N ev = (o', Err e) ->
  (forall b, (0 < b)%N -> kf_em o' X b ev = (o', Err e)) /\ (forall q, attribute o' q = Some (initial_value o' q)).
Proof. exact: (em_resumes Hs). Qed.
Print Assumptions C24_resumes.

(** ** C36: in a sequence of calls that never assigns the parameters the generators change by the sample calls, in order, and by nothing else *)
Theorem C36_call_sequences (R : rcfType) G (rl : rng_lib R G) ln ln2pi cs (o : kf R) w (Hc : ~~ has (@changes R) cs) :
  (run rl ln ln2pi (o, w) cs).1 =
  (o, foldl (fun w c => if c is CSample T x0 rs then (kf_sample rl o T x0 rs w).1 else w) w cs).
Proof. exact: (run_generators rl ln ln2pi o w Hc). Qed.
Print Assumptions C36_call_sequences.

Example C36_call_sequences_hypotheses_met (R : rcfType) :
  ~~ has (@changes R) [:: CSample 3 None None; CFilter (O2 2 [::]); CSample 2 None (Some (RsSeed 7))].
Proof. exact: history_met. Qed.
