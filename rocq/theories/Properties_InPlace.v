(** C65: unscented filters with user functions that overwrite their argument. *)
From Coq Require Import String List.
From mathcomp Require Import all_ssreflect all_algebra.
From Verif Require Import Prelude LinAlg Numpy Sklearn Standard Model StandardInit Rng Unscented InPlace InPlaceSpec
  UscInit InPlaceFacts InPlaceSample InPlaceNeg.
Import GRing.Theory Num.Theory.

Set Implicit Arguments.
Unset Strict Implicit.
Unset Printing Implicit Defensive.
Local Open Scope ring_scope.

(** C65: [filter], [filter_update], [smooth] and [sample] of the unscented
    classes use only the values the functions return.  True of [filter] and
    [filter_update] when the observation functions leave their arguments alone,
    whatever the transition functions do; true of [smooth] and [sample] when all
    functions leave their arguments alone; false otherwise. *)
Theorem C65_filter_partial (R : rcfType) (o : ukf R) (jf jg : ipcont R) (Hs : seed_ok (o_rs o)) (Qg : all_quiet jg) X :
  aukf_filter_ip o jf jg X = aukf_filter (with_functions o jf jg) X /\
  ukf_filter_ip o jf jg X = ukf_filter (with_functions o jf jg) X.
Proof. exact: filter_values. Qed.
Print Assumptions C65_filter_partial.

Theorem C65_filter_update_partial (R : rcfType) (o : ukf R) fm fc z (f g : ipfun R) tc oc (Qg : quiet g) :
  aukf_filter_update_ip o fm fc z f tc g oc = aukf_filter_update o fm fc z (Some (value_of f)) tc (Some (value_of g)) oc /\
  ukf_filter_update_ip o fm fc z f tc g oc = ukf_filter_update o fm fc z (Some (value_of f)) tc (Some (value_of g)) oc.
Proof. exact: update_values. Qed.
Print Assumptions C65_filter_update_partial.

Theorem C65_smooth_partial (R : rcfType) (o : ukf R) (jf jg : ipcont R) (Hs : seed_ok (o_rs o)) (Qg : all_quiet jg) (Qf : all_quiet jf) X :
  aukf_smooth_ip o jf jg X = aukf_smooth (with_functions o jf jg) X /\
  ukf_smooth_ip o jf jg X = ukf_smooth (with_functions o jf jg) X.
Proof. exact: smooth_values. Qed.
Print Assumptions C65_smooth_partial.

Theorem C65_sample_partial (R : rcfType) G (rl : rng_lib R G) (o : ukf R) (jf jg : ipcont R) T x0 rs w
    (Hs : seed_ok (o_rs o)) (Qf : all_quiet jf) (Qg : all_quiet jg) :
  aukf_sample_ip rl o jf jg T x0 rs w = aukf_sample rl (with_functions o jf jg) T x0 rs w /\
  ukf_sample_ip rl o jf jg T x0 rs w = ukf_sample rl (with_functions o jf jg) T x0 rs w.
Proof. exact: sample_values. Qed.
Print Assumptions C65_sample_partial.

(** a transition function that works in place, an observation function that does not *)
Example C65_hypotheses_met (R : rcfType) :
  let jf := J0 (in_place (times (2%:R : R))) in let jg := J0 (calm (times (1 : R))) in
  [/\ seed_ok (o_rs (unit_object R)), all_quiet jg, ~ all_quiet jf & exists r s,
      aukf_filter_ip (unit_object R) jf jg (readings [:: 0; 4%:R]) = Ok [:: r; s]].
Proof. exact: hypotheses_met. Qed.

(** same values, one of the two observation functions working in place: filtered means 4 and 2 *)
Theorem C65_filter_refuted (R : rcfType) : exists f g g' : ipfun R,
  [/\ forall args, value_of g args = value_of g' args, quiet f, quiet g' &
  exists r r' : moments R,
    [/\ aukf_filter_ip (unit_object R) (J0 f) (J0 g) (readings [:: 5%:R]) = Ok [:: r],
        aukf_filter_ip (unit_object R) (J0 f) (J0 g') (readings [:: 5%:R]) = Ok [:: r'],
        r.1 = A1 (4%:R%:M : 'cV[R]_1) & r'.1 = A1 (2%:R%:M : 'cV[R]_1)]].
Proof. exact: filter_observation_refuted. Qed.
Print Assumptions C65_filter_refuted.

(** same values, one of the two transition functions working in place: smoothed means 2 and 1 *)
Theorem C65_smooth_refuted (R : rcfType) : exists f f' g : ipfun R,
  [/\ forall args, value_of f args = value_of f' args, quiet f', quiet g &
  exists r s r' s' : moments R,
    [/\ aukf_smooth_ip (unit_object R) (J0 f) (J0 g) (readings [:: 0; 4%:R]) = Ok [:: r; s],
        aukf_smooth_ip (unit_object R) (J0 f') (J0 g) (readings [:: 0; 4%:R]) = Ok [:: r'; s'],
        r.1 = A1 (2%:R%:M : 'cV[R]_1) & r'.1 = A1 (1%:M : 'cV[R]_1)]].
Proof. exact: smooth_transition_refuted. Qed.
Print Assumptions C65_smooth_refuted.

(** same values, one of the two transition functions working in place: the
    sample asked to start at 1 is returned with first state 2 *)
Theorem C65_sample_refuted (R : rcfType) : exists f f' g : ipfun R,
  [/\ forall args, value_of f args = value_of f' args, quiet f', quiet g &
  forall G (rl : rng_lib R G) w, exists z0 x1 z1 z0' x1' z1',
    [/\ aukf_sample_ip rl (unit_object R) (J0 f) (J0 g) 2 (Some (A1 (1%:M : 'cV[R]_1))) None w =
          (w, Ok [:: (A1 (2%:R%:M : 'cV[R]_1), z0); (x1, z1)])
      & aukf_sample_ip rl (unit_object R) (J0 f') (J0 g) 2 (Some (A1 (1%:M : 'cV[R]_1))) None w =
          (w, Ok [:: (A1 (1%:M : 'cV[R]_1), z0'); (x1', z1')])]].
Proof. exact: sample_transition_refuted. Qed.
Print Assumptions C65_sample_refuted.
