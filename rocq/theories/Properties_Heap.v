(** C66, C67: arrays in memory.  Objects hold references; calls read and write
    buffers (Heap.v).  [extends h h']: [h'] is [h] with further buffers, so no
    array of [h] was written to.  [stands_for h o o']: the object [o] whose
    arrays are in [h] has the attribute values of [o'] (HeapSpec.v). *)
From Coq Require Import String List.
From mathcomp Require Import all_ssreflect all_algebra.
From Verif Require Import Prelude LinAlg Numpy Sklearn Standard Model Rng Sample Client.
From Verif Require Import Heap HeapSpec HeapFacts HeapClass HeapClient HeapClientSpec HeapClientFacts HeapWrites HeapNeg HeapSample HeapSampleFacts.
Import GRing.Theory Num.Theory.

Set Implicit Arguments.
Unset Strict Implicit.
Unset Printing Implicit Defensive.
Local Open Scope ring_scope.

(** the constructor *)
Theorem C66_constructor (R : rcfType) (h : heap R) (a : hargs) (a' : kfargs R) :
  args_stand h a a' -> (kf_init_h a h).1 = h /\ agree (stands_for h) (kf_init_h a h).2 (kf_init a').
Proof. exact: init_call. Qed.
Print Assumptions C66_constructor.

(** filter and smooth: results in two new arrays, with the values of the call on copies *)
Theorem C66_filter (R : rcfType) (h : heap R) o (o' : kf R) x X :
  stands_for h o o' -> seed_ok (k_rs o') -> getidx h x = Ok (CObs X) ->
  extends h (kf_filter_h o x h).1 /\
  agree (moments_at h (kf_filter_h o x h).1) (kf_filter_h o x h).2 (kf_filter o' X).
Proof. exact: filter_all. Qed.
Print Assumptions C66_filter.

Theorem C66_smooth (R : rcfType) (h : heap R) o (o' : kf R) x X :
  stands_for h o o' -> seed_ok (k_rs o') -> getidx h x = Ok (CObs X) ->
  extends h (kf_smooth_h o x h).1 /\
  agree (moments_at h (kf_smooth_h o x h).1) (kf_smooth_h o x h).2 (kf_smooth o' X).
Proof. exact: smooth_all. Qed.
Print Assumptions C66_smooth.

Theorem C66_loglikelihood (R : rcfType) (ln : R -> R) (ln2pi : R) (h : heap R) o (o' : kf R) x X :
  stands_for h o o' -> seed_ok (k_rs o') -> getidx h x = Ok (CObs X) ->
  extends h (kf_loglikelihood_h ln ln2pi o x h).1 /\
  (kf_loglikelihood_h ln ln2pi o x h).2 = kf_loglikelihood ln ln2pi o' X.
Proof. exact: loglik_all. Qed.
Print Assumptions C66_loglikelihood.

(** em: also the attributes of the updated object *)
Theorem C66_em (R : rcfType) (h : heap R) o (o' : kf R) x X n_iter ev :
  stands_for h o o' -> seed_ok (k_rs o') -> getidx h x = Ok (CObs X) ->
  let y := kf_em_h o x n_iter ev h in let y' := kf_em o' X n_iter ev in
  [/\ extends h y.1, stands_for y.1 y.2.1 y'.1 & y.2.2 = y'.2].
Proof. exact: em_all. Qed.
Print Assumptions C66_em.

Theorem C66_filter_update (R : rcfType) (h : heap R) o (o' : kf R)
    fmv fm fcv fc zv z tmv tm tov to tcv tc omv om oov oo ocv oc :
  stands_for h o o' -> seed_ok (k_rs o') ->
  vread h fmv = Ok fm -> vread h fcv = Ok fc -> shows_obs h zv z ->
  [/\ shows h tmv tm, shows h tov to & shows h tcv tc] ->
  [/\ shows h omv om, shows h oov oo & shows h ocv oc] ->
  let y := kf_filter_update_h o fmv fcv zv tmv tov tcv omv oov ocv h in
  extends h y.1 /\ agree (state_at h y.1) y.2 (kf_filter_update o' fm fc z tm to tc om oo oc).
Proof. exact: update_all. Qed.
Print Assumptions C66_filter_update.

(** sample: states and observations in two new arrays, and the same state of every generator *)
Theorem C66_sample (R : rcfType) (G : Type) (rl : rng_lib R G) (h : heap R) o (o' : kf R)
    T init init' rs (w : world G) :
  stands_for h o o' -> seed_ok (k_rs o') -> shows h init init' ->
  let y := kf_sample_h rl o T init rs h w in let y' := kf_sample rl o' T init' rs w in
  [/\ extends h y.1.1, y.1.2 = y'.1 & agree (moments_at h y.1.1) y.2 y'.2].
Proof. exact: sample_call. Qed.
Print Assumptions C66_sample.

(** objects [os 0], [os 1], ... in one memory, sharing any arrays, called in any
    order, results of earlier calls as arguments of later ones: object [i] ends
    up and replies as if it had been alone with copies of its arrays *)
Theorem C66_many_objects (R : rcfType) (ln : R -> R) (ln2pi : R) (G : Type) (rl : rng_lib R G)
    i cs cs' (h : heap R) (os : nat -> hkf) (os' : nat -> kf R) w :
  (forall j, stands_for h (os j) (os' j)) -> (forall j, seed_ok (k_rs (os' j))) ->
  same_calls ln ln2pi h os cs cs' ->
  let y := hrun ln ln2pi h os cs in
  let y' := run rl ln ln2pi (os' i, w) (of_object i cs') in
  [/\ extends h y.1.1, stands_for y.1.1 (y.1.2 i) y'.1.1 &
      pairwise (same_reply y.1.1) (of_object i y.2) y'.2].
Proof. exact: hrun_sim. Qed.
Print Assumptions C66_many_objects.

(** every object, every observations array: a memory that holds them *)
Example C66_layout (R : rcfType) (o' : kf R) (X : obs R) : exists (h : heap R) (o : hkf) (x : nat),
  [/\ stands_for h o o', getidx h x = Ok (CObs X), h_em_ o = k_em_ o' & ~ refers o x].
Proof. exact: layout. Qed.

(** two objects sharing the array at address 0, each filtering the array at address 1 *)
Example C66_hypotheses_met (R : rcfType) : let h := ex_heap (0 : R) in
  [/\ forall j : nat, stands_for h ex_obj (ex_kf 0), seed_ok (k_rs (ex_kf (0 : R))), refers ex_obj 0,
      ~ refers ex_obj 1 &
      forall (ln : R -> R) (ln2pi : R), same_calls ln ln2pi h (fun=> ex_obj)
        [:: (0%N, HFilter 1); (1%N, HFilter 1)]
        [:: (0%N, CFilter (ex_obs R)); (1%N, CFilter (ex_obs R))]].
Proof. exact: sharing_met. Qed.

(** sample starting from the array that is also the object's initial mean *)
Example C66_sample_hypotheses_met (R : rcfType) : let h := ex_heap (0 : R) in exists v,
  [/\ stands_for h ex_obj (ex_kf 0), seed_ok (k_rs (ex_kf (0 : R))), h_im ex_obj = Some v &
      shows h (Some v) (k_im (ex_kf (0 : R)))].
Proof. exact: sample_met. Qed.

(** the constructor keeps references: the user writes 1 into the array passed
    as initial_state_mean, and the filtered mean of a masked reading changes
    from 0 to 1 *)
Theorem C67_snapshot_refuted (R : rcfType) :
  exists (h : heap R) (a : hargs) (o : hkf) (x : nat) (ad : nat) (c : cell R),
  kf_init_h a h = (h, Ok o) /\
  exists ab ab' : nat * nat,
    [/\ (kf_filter_h o x h).2 = Ok ab, (kf_filter_h o x (overwrite h ad c)).2 = Ok ab',
        getidx (kf_filter_h o x h).1 ab.1 = Ok (CRows [:: A1 (0 : 'cV[R]_1)]) &
        getidx (kf_filter_h o x (overwrite h ad c)).1 ab'.1 = Ok (CRows [:: A1 (const_mx 1 : 'cV[R]_1)])].
Proof. exact: not_copied. Qed.
Print Assumptions C67_snapshot_refuted.

(** writing to an array the object does not refer to changes nothing *)
Theorem C67_unrelated_writes_partial (R : rcfType) (h : heap R) o (o' : kf R) x X a c :
  stands_for h o o' -> seed_ok (k_rs o') ->
  getidx h x = Ok (CObs X) -> ~ refers o a -> x <> a ->
  let h' := overwrite h a c in
  [/\ agree (moments_at h' (kf_filter_h o x h').1) (kf_filter_h o x h').2 (kf_filter o' X),
      agree (moments_at h' (kf_smooth_h o x h').1) (kf_smooth_h o x h').2 (kf_smooth o' X) &
      forall ln ln2pi, (kf_loglikelihood_h ln ln2pi o x h').2 = kf_loglikelihood ln ln2pi o' X].
Proof. exact: unrelated_filter. Qed.
Print Assumptions C67_unrelated_writes_partial.

(** after a successful em with em_vars="all" the object refers to no array that
    existed before: writing to those no longer matters *)
Theorem C67_after_em_partial (R : rcfType) (h : heap R) o (o' : kf R) x X n_iter ev :
  stands_for h o o' -> seed_ok (k_rs o') -> getidx h x = Ok (CObs X) ->
  (0 < n_iter)%N -> em_is_all (odflt (h_em_ o) ev) ->
  let y := kf_em_h o x n_iter ev h in let y' := kf_em o' X n_iter ev in
  y.2.2 = Ok tt -> forall a c, (a < size h)%N -> stands_for (overwrite y.1 a c) y.2.1 y'.1.
Proof. exact: em_detaches. Qed.
Print Assumptions C67_after_em_partial.

Example C67_hypotheses_met (R : rcfType) : exists (h : heap R) o (o' : kf R) x X,
  [/\ stands_for h o o' /\ seed_ok (k_rs o'), getidx h x = Ok (CObs X), em_is_all (EmStr "all"),
      (kf_em_h o x 2 (Some (EmStr "all")) h).2.2 = Ok tt & exists a, refers o a /\ (a < size h)%N].
Proof. exact: detach_met. Qed.
