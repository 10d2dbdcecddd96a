(** Property theorems about KalmanFilter (pykalman/standard.py): online
    updates, time-varying parameters, constructor, defaults, observation
    parsing. *)
From Coq Require Import String List.
From mathcomp Require Import all_ssreflect all_algebra.
From Verif Require Import Prelude LinAlg Numpy Sklearn SklearnFacts Standard Model KfSpec.
From Verif Require Import StandardInit StandardFacts KfStruct KfStruct2 KfModelFacts KfOnline KfGlue Examples.
Import GRing.Theory Num.Theory.

Set Implicit Arguments.
Unset Strict Implicit.
Unset Printing Implicit Defensive.
Local Open Scope ring_scope.

(** ** C10 *)
Theorem C10_online_equals_batch (R : rcfType) n m (o : kf R) T (M : lgm R n m)
    (Ho : kf_model o T M) (Hm : (0 < m)%N) (zs : seq (orow R m)) (Hsz : size zs = T) (Hk : keeps zs)
    rows s st (us : seq (uargs R))
    (Hf : kf_filter o (O2 m zs) = Ok rows) (Hst : List.nth_error rows s = Some st)
    (Hus : size us = (T - s.+1)%N)
    (Hargs : forall j u r, List.nth_error us j = Some u -> List.nth_error zs (s.+1 + j) = Some r ->
             step_args o M (s + j) r u) :
  updates o st us = Ok (drop s.+1 rows).
Proof. exact: (online_batch Ho Hm Hsz Hk Hf Hst Hus Hargs). Qed.
Print Assumptions C10_online_equals_batch.

(** second observation missing, passed as [None]; transition matrices passed
    explicitly because they vary, everything else left to the object *)
Example C10_hypotheses_met (R : rcfType) :
  let us := [:: UArgs None (Some (A2 (shear (1 : R)))) None None None None None;
                UArgs (Some (A1 (@ex_d R 2), false)) (Some (A2 (shear 2%:R))) None None None None None] in
  exists rows st, [/\ kf_model (ex_o R) 3 (ex_M R), kf_filter (ex_o R) (O2 2 (ex_zs R)) = Ok rows,
    List.nth_error rows 0 = Some st, size us = (3 - 1)%N &
    forall j u r, List.nth_error us j = Some u -> List.nth_error (ex_zs R) (1 + j) = Some r ->
      step_args (ex_o R) (ex_M R) (0 + j) r u].
Proof.
have [rows [H1 H2 _]] := filter_shapes (ex_model R) (erefl : size (ex_zs R) = 3%N) erefl.
case: rows H1 H2 => // st rows H1 H2; exists (st :: rows), st; split=> //; first exact: ex_model.
case=> [|[|j]] u r //=; last by case: j.
- case=> <- [<-]; split; rewrite /gives2 /gives1 /=; try by right.
  + by right; rewrite missing_row; split=> //; left.
  + by left.
- case=> <- [<-]; split; rewrite /gives2 /gives1 /=; try by right.
  + by left; rewrite missing_row.
  + by left.
Qed.

(** ** C11 *)
Theorem C11_update_refuses (R : rcfType) (o : kf R) fm fc z tm to tc om oo oc (Hs : seed_ok (k_rs o)) :
  tm = None /\ ~ const2 (k_tm o) \/ to = None /\ ~ const1 (k_to o) \/
  tc = None /\ ~ const2 (k_tc o) \/ om = None /\ ~ const2 (k_om o) \/
  oo = None /\ ~ const1 (k_oo o) \/ oc = None /\ ~ const2 (k_oc o) ->
  kf_filter_update o fm fc z tm to tc om oo oc = Err ValueError.
Proof. exact: (update_refuses _ _ _ Hs). Qed.
Print Assumptions C11_update_refuses.

Theorem C11_explicit_arguments_win (R : rcfType) (o : kf R) fm fc z tm to tc om oo oc (Hs : seed_ok (k_rs o))
    (Htm : nd_ok 2 tm) (Hto : nd_ok 1 to) (Htc : nd_ok 2 tc)
    (Hom : nd_ok 2 om) (Hoo : nd_ok 1 oo) (Hoc : nd_ok 2 oc) :
  kf_filter_update o fm fc z tm to tc om oo oc =
  kf_filter_update (with_args o tm to tc om oo oc) fm fc z None None None None None None.
Proof. exact: (update_precedence fm fc z Hs Htm Hto Htc Hom Hoo Hoc). Qed.
Print Assumptions C11_explicit_arguments_win.

Theorem C11_all_explicit (R : rcfType) (o o' : kf R) fm fc z tm to tc om oo oc
    (Hs : seed_ok (k_rs o)) (Hs' : seed_ok (k_rs o')) :
  kf_filter_update o fm fc z (Some tm) (Some to) (Some tc) (Some om) (Some oo) (Some oc) =
  kf_filter_update o' fm fc z (Some tm) (Some to) (Some tc) (Some om) (Some oo) (Some oc).
Proof. exact: (update_explicit fm fc z tm to tc om oo oc Hs Hs'). Qed.
Print Assumptions C11_all_explicit.

Example C11_hypotheses_met (R : rcfType) :
  [/\ seed_ok (k_rs (ex_o R)), ~ const2 (k_tm (ex_o R)), const2 (k_tc (ex_o R)) & nd_ok 2 (Some (A2 (shear (1 : R))))].
Proof. by split=> // H; case: H. Qed.

(** ** C12 *)
Theorem C12_stacked_filter (R : rcfType) T (o o' : kf R) (Hst : stacked T o o') (Hs : seed_ok (k_rs o))
    k (zs : seq (orow R k)) (Hsz : size zs = T) (Hk : keeps zs) :
  kf_filter o' (O2 k zs) = kf_filter o (O2 k zs).
Proof. exact: (stacked_filter Hst Hs Hsz Hk). Qed.
Print Assumptions C12_stacked_filter.

Theorem C12_stacked_smooth (R : rcfType) T (o o' : kf R) (Hst : stacked T o o') (Hs : seed_ok (k_rs o))
    k (zs : seq (orow R k)) (Hsz : size zs = T) (Hk : keeps zs) :
  kf_smooth o' (O2 k zs) = kf_smooth o (O2 k zs).
Proof. exact: (stacked_smooth Hst Hs Hsz Hk). Qed.
Print Assumptions C12_stacked_smooth.

(** constant transition matrix (resp. observation offset) against its stack;
    the transition stack has one extra slice *)
Example C12_hypotheses_met (R : rcfType) :
  let o X Y := KF (Some X) None (Some (A2 (proj R))) None None (Some Y) None None None None 2 2
                  (EmNames default_em_vars) in
  stacked 3 (o (A2 (shear 1)) (A1 (e0 R))) (o (A3 (nseq 3 (shear 1))) (A2 (\matrix_(i < 3, j < 2) e0 R j 0))).
Proof.
split=> //; try by left.
- right; exists (A2 (shear 1)), 2%N, 2%N, (shear 1), 3%N; split=> //.
- right; exists (A1 (e0 R)), 2%N, (e0 R), 3%N; split=> //.
Qed.

(** ** C13 *)
Theorem C13_stack_lengths (R : rcfType) n m (o : kf R) l (Ho : shaped_kf n m o l)
    (zs : seq (orow R m)) (Hk : keeps zs) :
  if long_enough l (size zs) then exists rows, kf_filter o (O2 m zs) = Ok rows
  else kf_filter o (O2 m zs) = Err IndexError.
Proof. exact: (filter_lengths Ho Hk). Qed.
Print Assumptions C13_stack_lengths.

(** two transition matrices suffice for three observations, not for four *)
Example C13_hypotheses_met (R : rcfType) :
  let l := Lens (Some 2%N) None None None None None in
  [/\ shaped_kf 2 2 (ex_o R) l, long_enough l (size (ex_zs R)), keeps (ex_zs R) &
      ~~ long_enough l (size (mk_row false (e0 R) :: ex_zs R))].
Proof. by split=> //; split=> //=; eexists. Qed.

(** ** C15 *)
Theorem C15_constructor_succeeds_iff (R : rcfType) (a : kfargs R) n m :
  (exists o, [/\ kf_init a = Ok o, k_n o = n & k_m o = m]) <->
  agreed (state_claims a) n /\ agreed (obs_claims a) m.
Proof. exact: kf_init_iff. Qed.
Print Assumptions C15_constructor_succeeds_iff.

Theorem C15_constructor_error (R : rcfType) (a : kfargs R)
    (Ha : forall n m, ~ (agreed (state_claims a) n /\ agreed (obs_claims a) m)) :
  kf_init a = Err ValueError.
Proof. exact: (kf_init_error Ha). Qed.
Print Assumptions C15_constructor_error.

Theorem C15_constructor_keeps_arguments (R : rcfType) (a : kfargs R) o (Ha : kf_init a = Ok o) :
  [/\ (k_tm o, k_om o, k_tc o, k_oc o) = (a_tm a, a_om a, a_tc a, a_oc a),
      (k_to o, k_oo o, k_im o, k_ic o) = (a_to a, a_oo a, a_im a, a_ic a),
      (k_rs o, k_em o) = (a_rs a, a_em a) &
      k_em_ o = odflt (EmNames default_em_vars) (a_em a)].
Proof. exact: (kf_init_attrs Ha). Qed.
Print Assumptions C15_constructor_keeps_arguments.

(** the example's arguments agree; replacing the initial mean by a scalar makes
    them clash *)
Example C15_hypotheses_met (R : rcfType) :
  (agreed (state_claims (ex_args R)) 2 /\ agreed (obs_claims (ex_args R)) 2) /\
  let a := KFArgs (Some (A2 (shear (1 : R)))) None None None None None (Some (A0 0)) None None None None None in
  forall n m, ~ (agreed (state_claims a) n /\ agreed (obs_claims a) m).
Proof.
split; first by split; split=> // c; rewrite !inE => H; repeat (case/orP: H => [/eqP -> //|H]); move/eqP: H.
move=> a n m [[H _] _].
have E2 : 2%N = n by apply: H.
have E1 : 1%N = n by apply: H; rewrite inE orbT.
by move: E1; rewrite -E2.
Qed.

(** ** C16 *)
Theorem C16_defaults_and_promotion (R : rcfType) (o : kf R) (Hs : seed_ok (k_rs o)) :
  exists2 p, initialize_parameters o = Ok p & forall x, field p x = initial_value o x.
Proof. exact: (init_fields Hs). Qed.
Print Assumptions C16_defaults_and_promotion.

(** the argument merging function in general: the first value given for a name
    wins, unknown names and names without value are rejected *)
Theorem C16_first_value_wins (V : Type) (conv : seq (string * (V -> res V))) argsets
    (Hc : NoDup (keys conv))
    (Ha : forall a, In a argsets -> [/\ NoDup (keys a), known conv a & conv_total conv a])
    (Hv : forall k, In k (keys conv) -> exists v, first_some argsets k = Some v) :
  exists2 d, preprocess_arguments argsets conv = Ok d &
    forall k v, first_some argsets k = Some v -> dget d k = conv_val conv k v.
Proof. exact: (preprocess_ok Hc Ha Hv). Qed.
Print Assumptions C16_first_value_wins.

Theorem C16_unknown_name (V : Type) (conv : seq (string * (V -> res V))) argsets
    (Ha : forall a, In a argsets -> NoDup (keys a) /\ conv_total conv a)
    (Hu : exists2 a, In a argsets & ~ known conv a) :
  preprocess_arguments argsets conv = Err ValueError.
Proof. exact: (preprocess_unknown Ha Hu). Qed.
Print Assumptions C16_unknown_name.

Theorem C16_missing_name (V : Type) (conv : seq (string * (V -> res V))) argsets
    (Hc : NoDup (keys conv))
    (Ha : forall a, In a argsets -> [/\ NoDup (keys a), known conv a & conv_total conv a])
    (Hm : exists2 k, In k (keys conv) & first_some argsets k = None) :
  preprocess_arguments argsets conv = Err ValueError.
Proof. exact: (preprocess_missing Hc Ha Hm). Qed.
Print Assumptions C16_missing_name.

Local Open Scope string_scope.
Example C16_hypotheses_met :
  let conv := [:: ("a", fun v : nat => Ok v.+1); ("b", @Ok nat)] in
  let user := [:: ("b", Some 5%N); ("a", None)] in
  let dflt := [:: ("a", Some 1%N); ("b", Some 2%N)] in
  [/\ preprocess_arguments [:: user; dflt] conv = Ok [:: ("b", 5%N); ("a", 2%N)],
      preprocess_arguments [:: user] conv = Err ValueError &
      preprocess_arguments [:: [:: ("c", Some 1%N)]; dflt] conv = Err ValueError]%N /\
  [/\ NoDup (keys conv), forall a, In a [:: user; dflt] -> [/\ NoDup (keys a), known conv a & conv_total conv a] &
      ~ known conv [:: ("c", Some 1%N)]].
Proof.
have nd (T : Type) (x y : T) : NoDup (keys [:: ("a", x); ("b", y)]).
  by do !constructor=> //=; case.
have nd' (T : Type) (x y : T) : NoDup (keys [:: ("b", x); ("a", y)]).
  by do !constructor=> //=; case.
have tot : forall a : seq (string * option nat), conv_total [:: ("a", fun v : nat => Ok v.+1); ("b", @Ok nat)] a.
  move=> a k v c _ /=; case: (String.eqb k "a") => [[<-]|]; first by exists v.+1.
  by case: (String.eqb k "b") => // -[<-]; exists v.
do 2 split=> //.
  move=> a /= [<-|[<-|[]]]; split=> //; move=> k /=; tauto.
by move=> /(_ "c" (or_introl erefl)) /= [|[|[]]].
Qed.
Local Close Scope string_scope.

(** ** C17 *)
Theorem C17_no_entry_lost (R : rcfType) (X : obs R) : entries (as_obs (parse_observations X)) = entries X.
Proof. exact: parse_entries. Qed.
Print Assumptions C17_no_entry_lost.

Theorem C17_idempotent (R : rcfType) (X : obs R) :
  parse_observations (as_obs (parse_observations X)) = parse_observations X.
Proof. exact: parse_idem. Qed.
Print Assumptions C17_idempotent.

Theorem C17_arrays_unchanged (R : rcfType) k (rows : seq (orow R k)) :
  (1 < size rows)%N -> parse_observations (O2 k rows) = existT _ k rows.
Proof. exact: parse_long. Qed.
Print Assumptions C17_arrays_unchanged.

Theorem C17_series_is_column (R : rcfType) (s : seq (R * bool)) :
  s <> [::] -> parse_observations (O1 s) = existT _ 1%N [seq @scalar_row R x | x <- s].
Proof. exact: parse_series. Qed.
Print Assumptions C17_series_is_column.

Example C17_hypotheses_met (R : rcfType) :
  (1 < size (ex_zs R))%N /\ [:: (1%:R : R, false); (2%:R, true)] <> [::].
Proof. by []. Qed.

(** ** C18: false for every object with two or more observation dimensions *)
Theorem C18_single_row_refuted (R : rcfType) m : (1 < m)%N ->
  exists (a : kfargs R) o (r : orow R m),
    [/\ kf_init a = Ok o, k_m o = m, missing r = false & kf_filter o (O2 m [:: r]) = Err ValueError].
Proof. exact: single_row_refuted. Qed.
Print Assumptions C18_single_row_refuted.

Theorem C18_single_row_always_fails (R : rcfType) n m (o : kf R) T (M : lgm R n m) (Ho : kf_model o T M)
    (r : orow R m) (HT : (0 < T)%N) (Hm : (1 < m)%N) :
  kf_filter o (O2 m [:: r]) = Err ValueError.
Proof. exact: (single_row Ho). Qed.
Print Assumptions C18_single_row_always_fails.

(** what does hold: one time step is processed when the model has one
    observation dimension *)
Theorem C18_one_dimension_partial (R : rcfType) n (o : kf R) (M : lgm R n 1) (Ho : kf_model o 1 M) (r : orow R 1) :
  exists row, kf_filter o (O2 1 [:: r]) = Ok [:: row].
Proof. exact: (single_row_1d Ho). Qed.
Print Assumptions C18_one_dimension_partial.

Example C18_hypotheses_met (R : rcfType) :
  kf_model (ex_o R) 3 (ex_M R) /\ kf_model (dflt_obj R 2 1) 1 (dflt_model R 2 1).
Proof. by split; [exact: ex_model|exact: dflt_is_model]. Qed.

(** ** C43 (KalmanFilter) *)
Theorem C43_wrong_width_rejected_partial (R : rcfType) n m (o : kf R) T (M : lgm R n m) (Ho : kf_model o T M)
    k (Hkm : k <> m) (zs : seq (orow R k)) (Hsz : size zs = T) (Hk : keeps zs)
    (Hv : has (fun z : orow R k => ~~ missing z) zs) :
  kf_filter o (O2 k zs) = Err ValueError.
Proof. exact: (filter_width Ho Hkm Hsz Hk Hv). Qed.
Print Assumptions C43_wrong_width_rejected_partial.

Example C43_hypotheses_met (R : rcfType) :
  let zs := nseq 3 (mk_row false (0 : 'cV[R]_3)) in
  [/\ kf_model (ex_o R) 3 (ex_M R), size zs = 3%N, keeps zs & has (fun z : orow R 3 => ~~ missing z) zs].
Proof. by split=> //; [exact: ex_model|rewrite /= missing_row]. Qed.
