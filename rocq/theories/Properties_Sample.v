(** Property theorems about KalmanFilter.sample, random_state and call
    histories (pykalman/standard.py:1115-1184, pykalman/utils/_sklearn.py:71-87). *)
From Coq Require Import String List.
From mathcomp Require Import all_ssreflect all_algebra.
From Verif Require Import Prelude LinAlg Numpy Sklearn Standard Model Rng Sample SampleSpec Client Examples SampleFacts.
Import GRing.Theory Num.Theory.

Set Implicit Arguments.
Unset Strict Implicit.
Unset Printing Implicit Defensive.
Local Open Scope ring_scope.

(** ** C25 *)
Theorem C25_queries_keep_the_object (R : rcfType) G (rl : rng_lib R G) ln ln2pi cs o w :
  ~~ has (@changes R) cs -> (run rl ln ln2pi (o, w) cs).1.1 = o.
Proof. exact: (run_same rl ln ln2pi o w). Qed.
Print Assumptions C25_queries_keep_the_object.

Theorem C25_replies_do_not_depend_on_history (R : rcfType) G (rl : rng_lib R G) ln ln2pi cs o w w' c :
  ~~ has (@changes R) cs -> random c = false ->
  (step rl ln ln2pi (run rl ln ln2pi (o, w) cs).1 c).2 = (step rl ln ln2pi (o, w') c).2.
Proof. exact: (query_reply rl ln ln2pi o w w'). Qed.
Print Assumptions C25_replies_do_not_depend_on_history.

(** with em and assignments in the history: the other calls can be removed *)
Theorem C25_only_em_matters (R : rcfType) G (rl : rng_lib R G) ln ln2pi cs o w w' c :
  random c = false ->
  (step rl ln ln2pi (run rl ln ln2pi (o, w) cs).1 c).2 =
  (step rl ln ln2pi (run rl ln ln2pi (o, w') [seq k <- cs | changes k]).1 c).2.
Proof. exact: (query_reply_em rl ln ln2pi cs o w w'). Qed.
Print Assumptions C25_only_em_matters.

Example C25_hypotheses_met (R : rcfType) :
  ~~ has (@changes R) [:: CFilter (O2 2 (ex_zs R)); CSample 3 None None; CSmooth (O2 2 [::])].
Proof. by []. Qed.

(** ** C34 *)
Theorem C34_sample_follows_the_model (R : rcfType) G (rl : rng_lib R G) n m (o : kf R) (M : lgm R n m) T x0 rs h w
    (HM : kf_model o T M)
    (HQ : forall t, (t < T.-1)%N -> mQ M t = mQ M 0%N) (HR : forall t, (t < T)%N -> mR M t = mR M 0%N) :
  handle (if rs is Some r then Some r else k_rs o) = Some h ->
  exists g' x z, trajectory rl M (mQ M) (mR M) T x0 (state_of rl h w) g' x z /\
    kf_sample rl o T (omap (fun v : 'cV_n => A1 v) x0) rs w =
    (after h w g', Ok [seq (A1 (x t), A1 (z t)) | t <- iota 0 T]).
Proof. exact: (sample_const rl x0 w HM HQ HR). Qed.
Print Assumptions C34_sample_follows_the_model.

Example C34_hypotheses_met (R : rcfType) : [/\ kf_model (ex_o R) 3 (ex_M R),
  forall t, (t < 2)%N -> mQ (ex_M R) t = mQ (ex_M R) 0%N, forall t, (t < 3)%N -> mR (ex_M R) t = mR (ex_M R) 0%N &
  handle (k_rs (ex_o R)) = Some (HFresh 7)].
Proof. by split; first exact: ex_model. Qed.

(** ** C35

    Refuted: a stack of covariances is honoured only through its first slice. *)
Theorem C35_time_varying_covariances_refuted (R : rcfType) :
  exists (rl : rng_lib R unit) (o : kf R) (M : lgm R 1 1) T, kf_model o T M /\ forall w : world unit,
  ~ exists g' x z, trajectory rl M (mQ M) (mR M) T None (w_global w) g' x z /\
    kf_sample rl o T None None w = (after HGlobal w g', Ok [seq (A1 (x t), A1 (z t)) | t <- iota 0 T]).
Proof. exact: sample_refuted. Qed.
Print Assumptions C35_time_varying_covariances_refuted.

(** what sample does instead, for every model *)
Theorem C35_first_slice_always (R : rcfType) G (rl : rng_lib R G) n m (o : kf R) (M : lgm R n m) T x0 rs h w
    (HM : kf_model o T M) :
  handle (if rs is Some r then Some r else k_rs o) = Some h ->
  exists g' x z, trajectory rl M (fun=> mQ M 0%N) (fun=> mR M 0%N) T x0 (state_of rl h w) g' x z /\
    kf_sample rl o T (omap (fun v : 'cV_n => A1 v) x0) rs w =
    (after h w g', Ok [seq (A1 (x t), A1 (z t)) | t <- iota 0 T]).
Proof. exact: (sampleE rl x0 w HM). Qed.
Print Assumptions C35_first_slice_always.

Example C35_hypotheses_met (R : rcfType) : kf_model (bad_o R) 2 (bad_M R).
Proof. exact: bad_model. Qed.

(** ** C36 *)
Theorem C36_seeded_calls_repeat (R : rcfType) G (rl : rng_lib R G) ln ln2pi cs (o : kf R) T x0 rs z w w' :
  ~~ has (@changes R) cs -> (if rs is Some r then Some r else k_rs o) = Some (RsSeed z) ->
  (step rl ln ln2pi (run rl ln ln2pi (o, w) cs).1 (CSample T x0 rs)).2 = (step rl ln ln2pi (o, w') (CSample T x0 rs)).2.
Proof. exact: (sample_seeded_history rl ln ln2pi T x0 w w'). Qed.
Print Assumptions C36_seeded_calls_repeat.

(** which generators a call may change *)
Theorem C36_frame (R : rcfType) G (rl : rng_lib R G) (o : kf R) T x0 rs w :
  let w1 := (kf_sample rl o T x0 rs w).1 in
  match (if rs is Some r then Some r else k_rs o) with
  | None | Some RsModule => w_inst w1 = w_inst w
  | Some (RsGen i) => w_global w1 = w_global w /\ forall j, j != i -> w_inst w1 j = w_inst w j
  | _ => w1 = w
  end.
Proof. exact: (sample_frame rl o T x0 rs w). Qed.
Print Assumptions C36_frame.

Theorem C36_explicit_argument_wins (R : rcfType) G (rl : rng_lib R G) (o : kf R) r' T x0 r w
    (H : seed_ok (k_rs o)) (H' : seed_ok r') :
  kf_sample rl o T x0 (Some r) w = kf_sample rl (with_rs o r') T x0 (Some r) w.
Proof. exact: (sample_explicit rl T x0 r w H H'). Qed.
Print Assumptions C36_explicit_argument_wins.

(** invalid values: AttributeError (not the intended ValueError), and
    ValueError for seeds out of range; no generator changes *)
Theorem C36_invalid_rejected (R : rcfType) G (rl : rng_lib R G) n m (o : kf R) (M : lgm R n m) T T' x0 w
    (HM : kf_model o T M) :
  kf_sample rl o T' x0 (Some RsOther) w = (w, Err AttributeError) /\
  forall z : int, ~~ ((0 <= z) && (z < 2%:R ^+ 32)) -> kf_sample rl o T' x0 (Some (RsSeed z)) w = (w, Err ValueError).
Proof. exact: (sample_rejects rl T' x0 w HM). Qed.
Print Assumptions C36_invalid_rejected.

Example C36_hypotheses_met (R : rcfType) : k_rs (ex_o R) = Some (RsSeed 7) /\ seed_ok (k_rs (ex_o R)) /\
  seed_ok (Some (RsGen 3)) /\ kf_model (ex_o R) 3 (ex_M R).
Proof. by split=> //; split=> //; split=> //; exact: ex_model. Qed.
