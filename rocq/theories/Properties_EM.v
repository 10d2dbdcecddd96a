(** Property theorems about KalmanFilter.em (pykalman/standard.py:1418-1533
    and the M-step functions 725-962). *)
From Coq Require Import String List.
From mathcomp Require Import all_ssreflect all_algebra.
From Verif Require Import Prelude LinAlg Numpy Sklearn SklearnFacts Standard Model KfSpec SpecL2 GaussSpec Exists.
From Verif Require Import StandardInit StandardFacts KfStruct KfGlue Examples EmSpec EmGlue EmMono ExamplesEm.
Import GRing.Theory Num.Theory.

Set Implicit Arguments.
Unset Strict Implicit.
Unset Printing Implicit Defensive.
Local Open Scope ring_scope.

(** ** C19 *)
Theorem C19_only_selected (R : rcfType) (o : kf R) X N ev q (Hs : seed_ok (k_rs o)) :
  ~ selects (requested o ev) q -> attribute (kf_em o X N ev).1 q = Some (initial_value o q).
Proof. exact: (kf_em_only_selected X N Hs). Qed.
Print Assumptions C19_only_selected.

Theorem C19_all (R : rcfType) (o : kf R) X N :
  kf_em o X N (Some (EmStr "all")) =
  kf_em o X N (Some (EmNames [:: "transition_matrices"; "transition_offsets"; "transition_covariance";
    "observation_matrices"; "observation_offsets"; "observation_covariance"; "initial_state_mean";
    "initial_state_covariance"]%string)).
Proof. exact: (kf_em_all o X N). Qed.
Print Assumptions C19_all.

Theorem C19_default (R : rcfType) (a : kfargs R) o X N (Hi : kf_init a = Ok o) (Ha : a_em a = None) :
  kf_em o X N None =
  kf_em o X N (Some (EmNames [:: "transition_covariance"; "observation_covariance";
    "initial_state_mean"; "initial_state_covariance"]%string)).
Proof. exact: (kf_em_default X N Hi Ha). Qed.
Print Assumptions C19_default.

Theorem C19_constructor (R : rcfType) (a : kfargs R) o X N e (Hi : kf_init a = Ok o) (Ha : a_em a = Some e) :
  kf_em o X N None = kf_em o X N (Some e).
Proof. exact: (kf_em_ctor X N Hi Ha). Qed.
Print Assumptions C19_constructor.

(** a single name given as a plain string (other than 'all') estimates
    nothing: the string is not a collection containing any of the names *)
Theorem C19_single_string_selects_nothing (R : rcfType) (o : kf R) X N s q (Hs : seed_ok (k_rs o)) :
  s <> "all"%string -> attribute (kf_em o X N (Some (EmStr s))).1 q = Some (initial_value o q).
Proof. exact: (kf_em_string X N q Hs). Qed.
Print Assumptions C19_single_string_selects_nothing.

(** a parameter that is selected does change *)
Example C19_hypotheses_met (R : rcfType) : seed_ok (k_rs (ex_o R)) /\
  (forall q, selects (requested (ex_o R) None) q <-> In q [:: Tc; Oc; Ism; Isc]) /\
  exists a, kf_init a = Ok (ex_o R) /\ a_em a = None.
Proof. exact: ex_selects. Qed.

(** ** C20 *)
Theorem C20_iterations_compose (R : rcfType) (o : kf R) X a b ev o1 (Hs : seed_ok (k_rs o)) :
  kf_em o X a ev = (o1, Ok tt) -> kf_em o1 X b ev = kf_em o X (a + b) ev.
Proof. exact: (kf_em_compose b Hs). Qed.
Print Assumptions C20_iterations_compose.

Theorem C20_failure_is_final (R : rcfType) (o : kf R) X a b ev o1 e (Hs : seed_ok (k_rs o)) :
  kf_em o X a ev = (o1, Err e) -> kf_em o X (a + b) ev = (o1, Err e).
Proof. exact: (kf_em_stuck b Hs). Qed.
Print Assumptions C20_failure_is_final.

Theorem C20_zero_iterations (R : rcfType) (o : kf R) X ev (Hs : seed_ok (k_rs o)) :
  (kf_em o X 0 ev).2 = Ok tt /\ forall q, attribute (kf_em o X 0 ev).1 q = Some (initial_value o q).
Proof. exact: (kf_em_zero X ev Hs). Qed.
Print Assumptions C20_zero_iterations.

Example C20_hypotheses_met (R : rcfType) : seed_ok (k_rs (ex_o R)) /\
  (forall N ev, exists o', kf_em (ex_o R) (O2 2 (ex_zs R)) N ev = (o', Ok tt)) /\
  exists o' e, kf_em (ex_o R) (O2 2 [::]) 1 None = (o', Err e).
Proof. exact: ex_em_runs. Qed.

(** ** C21
    The E-step moments are those of the posterior of the states given the
    data; [mstep] says each selected parameter maximises the expected
    complete-data log likelihood under that posterior. *)
Theorem C21_mstep_maximises (R : rcfType) n m (o : kf R) T (M : lgm R n m) (Ho : kf_model o T M) (T0 : (0 < T)%N)
    (mis : nat -> bool) (y : nat -> 'cV[R]_m) (zs : seq (orow R m)) (Hr : rows_of T mis y zs)
    (Hk : (T != 1%N) || (m <= 1)%N)
    (Sp : l2space R) x z w v (Hob : @obeys R Sp n m M T x z w v)
    (ln : R -> R) ln2pi (Hln : multiplicative_log ln) (Hcv : concave_log ln) ev :
  exists (xs : nat -> 'cV[R]_n) (P : nat -> 'M[R]_n) (X : nat -> Om Sp -> 'cV[R]_n) (o' : kf R) (M' : lgm R n m),
  [/\ kf_smooth o (O2 m zs) = Ok [seq (A1 (xs t), A2 (P t)) | t <- iota 0 T], posterior x z mis T xs X,
      kf_em o (O2 m zs) 1 ev = (o', Ok tt), kf_model o' T M' &
      mstep ln ln2pi X y mis T (selects (requested o ev)) M M'].
Proof. exact: (kf_em_mstep Ho T0 Hr Hk Hob ln2pi Hln Hcv ev). Qed.
Print Assumptions C21_mstep_maximises.

Example C21_hypotheses_met (R : rcfType) : kf_model (ex_o R) 3 (ex_M R) /\
  rows_of 3 ex_mis (@ex_d R) (ex_zs R) /\
  exists (Sp : l2space R) x z w v, @obeys R Sp 2 2 (ex_M R) 3 x z w v.
Proof. by split; [exact: ex_model|split; [exact: ex_rows|exact: ex_obeys]]. Qed.

(** ** C22
    Positive definite covariances; whatever EM estimates, and the noise
    covariances it uses as weights, constant in time; observation covariance
    estimated on the way positive definite if it is estimated at all. *)
Theorem C22_likelihood_never_decreases_partial (R : rcfType) (ln : R -> R) (ln2pi : R)
    (Hln : multiplicative_log ln) (Hcv : concave_log ln) n m T (mis : nat -> bool) (y : nat -> 'cV[R]_m)
    (zs : seq (orow R m)) (T0 : (0 < T)%N) (Hr : rows_of T mis y zs) (Hk : (T != 1%N) || (m <= 1)%N)
    (o : kf R) (M : lgm R n m) ev N (Ho : kf_model o T M) (Hc : const2 (k_oc o)) (HM : psd_model M T)
    (Hpd : pd_model mis T M) (Hst : em_steady T (selects (requested o ev)) M)
    (Hpd' : selects (requested o ev) Oc -> forall k o' (M' : lgm R n m), (0 < k <= N)%N ->
       kf_em o (O2 m zs) k ev = (o', Ok tt) -> kf_model o' T M' ->
       forall t, (t < T)%N -> ~~ mis t -> pd (mR M' t)) :
  exists o' l l', [/\ kf_em o (O2 m zs) N ev = (o', Ok tt), kf_loglikelihood ln ln2pi o (O2 m zs) = Ok l,
    kf_loglikelihood ln ln2pi o' (O2 m zs) = Ok l' & l <= l'].
Proof. exact: (em_mono ln2pi Hln Hcv T0 Hr Hk Ho Hc HM Hpd Hst Hpd'). Qed.
Print Assumptions C22_likelihood_never_decreases_partial.

(** time-varying transition matrices; all covariances positive definite;
    everything but transition matrices and observation covariance estimated *)
Example C22_hypotheses_met (R : rcfType) :
  let ev := Some (EmNames [:: "transition_offsets"; "transition_covariance"; "observation_matrices";
     "observation_offsets"; "initial_state_mean"; "initial_state_covariance"]%string) in
  [/\ kf_model (em_o R) 3 (em_M R), const2 (k_oc (em_o R)), psd_model (em_M R) 3, pd_model ex_mis 3 (em_M R) &
      em_steady 3 (selects (requested (em_o R) ev)) (em_M R) /\ ~ selects (requested (em_o R) ev) Oc].
Proof. exact: ex_em_mono. Qed.

(** ** C23 *)
Theorem C23_covariances_stay_valid (R : rcfType) n m (o : kf R) T (M : lgm R n m) (Ho : kf_model o T M)
    (HM : psd_model M T) (T0 : (0 < T)%N) (zs : seq (orow R m)) (Hsz : size zs = T) (Hk : keeps zs) N ev :
  exists (o' : kf R) (M' : lgm R n m),
    [/\ kf_em o (O2 m zs) N ev = (o', Ok tt), kf_model o' T M' & psd_model M' T].
Proof. exact: (kf_em_psd Ho HM T0 Hsz Hk N ev). Qed.
Print Assumptions C23_covariances_stay_valid.

Example C23_hypotheses_met (R : rcfType) :
  [/\ kf_model (ex_o R) 3 (ex_M R), psd_model (ex_M R) 3, size (ex_zs R) = 3%N & keeps (ex_zs R)].
Proof. by split=> //; [exact: ex_model|exact: ex_psd]. Qed.

(** ** C24 *)
Theorem C24_last_completed_iteration (R : rcfType) (o : kf R) X N ev o' e (Hs : seed_ok (k_rs o)) :
  kf_em o X N ev = (o', Err e) ->
  exists i, [/\ (i < N)%N, kf_em o X i ev = (o', Ok tt) & kf_em o X i.+1 ev = (o', Err e)].
Proof. exact: (kf_em_fail Hs). Qed.
Print Assumptions C24_last_completed_iteration.

Theorem C24_settings_unchanged (R : rcfType) (o : kf R) X N ev (o' := (kf_em o X N ev).1) :
  [/\ k_n o' = k_n o, k_m o' = k_m o, k_em o' = k_em o, k_em_ o' = k_em_ o & k_rs o' = k_rs o].
Proof. exact: (kf_em_other o X N ev). Qed.
Print Assumptions C24_settings_unchanged.

Theorem C24_bad_seed_unchanged (R : rcfType) (o : kf R) X N ev (Hs : ~ seed_ok (k_rs o)) :
  exists e, kf_em o X N ev = (o, Err e).
Proof. exact: (kf_em_init_fail X N ev Hs). Qed.
Print Assumptions C24_bad_seed_unchanged.

(** the failure hypothesis is met: no observations at all *)
Example C24_hypotheses_met (R : rcfType) : seed_ok (k_rs (ex_o R)) /\
  exists o' e, kf_em (ex_o R) (O2 2 [::]) 1 None = (o', Err e).
Proof. by have [H1 [_ H2]] := ex_em_runs R; split. Qed.
