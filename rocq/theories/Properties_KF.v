(** Property theorems about KalmanFilter (pykalman/standard.py): optimality,
    likelihood, causality, masks, covariances. *)
From Coq Require Import String List.
From mathcomp Require Import all_ssreflect all_algebra.
From Verif Require Import Prelude LinAlg Numpy Sklearn Standard Model KfSpec SpecL2 GaussSpec.
From Verif Require Import StandardFacts KfStruct KfStruct2 KfOptimal KfModelFacts KfOnline KfEm KfEquiv KfLoglik KfJoint KfGlue KfStackR Examples.
Import GRing.Theory Num.Theory.

Set Implicit Arguments.
Unset Strict Implicit.
Unset Printing Implicit Defensive.
Local Open Scope ring_scope.

(** ** C01 *)
Theorem C01_filter_optimal (R : rcfType) (Sp : l2space R) n m (M : lgm R n m) T x z w v
    (Hob : obeys (Sp := Sp) M T x z w v) (mis : nat -> bool) zs (Hd : data_of T z mis zs)
    (o : kf R) (Ho : kf_model o T M) (Hk : (T != 1%N) || (m <= 1)%N) :
  exists (xh : nat -> Om Sp -> 'cV[R]_n) (P : nat -> 'M[R]_n),
    (forall om, kf_filter o (O2 m (zs om)) = Ok [seq (A1 (xh t om), A2 (P t)) | t <- iota 0 T]) /\
    (forall t, (t < T)%N -> blue (x t) z mis t.+1 (xh t) (P t)).
Proof. exact: (filter_optimal Hob Hd Ho Hk). Qed.
Print Assumptions C01_filter_optimal.

(** ** C02 *)
Theorem C02_smooth_optimal (R : rcfType) (Sp : l2space R) n m (M : lgm R n m) T x z w v
    (Hob : obeys (Sp := Sp) M T x z w v) (mis : nat -> bool) zs (Hd : data_of T z mis zs)
    (o : kf R) (Ho : kf_model o T M) (Hk : (T != 1%N) || (m <= 1)%N) (HT : (0 < T)%N) :
  exists (xh : nat -> Om Sp -> 'cV[R]_n) (P : nat -> 'M[R]_n),
    (forall om, kf_smooth o (O2 m (zs om)) = Ok [seq (A1 (xh t om), A2 (P t)) | t <- iota 0 T]) /\
    (forall t, (t < T)%N -> blue (x t) z mis T (xh t) (P t)).
Proof. exact: (smooth_optimal Hob Hd Ho Hk HT). Qed.
Print Assumptions C02_smooth_optimal.

(** The hypotheses of C01 and C02 are met by the example object, its random
    processes and their data. *)
Example C01_C02_hypotheses_met (R : rcfType) :
  exists (Sp : l2space R) x z w v zs,
    [/\ obeys (Sp := Sp) (ex_M R) 3 x z w v, data_of 3 z ex_mis zs, kf_model (ex_o R) 3 (ex_M R),
        (3 != 1)%N || (2 <= 1)%N & ~ pd (mP (ex_M R))].
Proof.
have [Sp [x [z [w [v H]]]]] := ex_obeys R; exists Sp, x, z, w, v; eexists; split; [exact: H|exact: data_of_mk| | |].
- exact: ex_model.
- by [].
- exact: proj_not_pd.
Qed.

(** Conversely every model with positive semidefinite covariances is realised by
    some processes, so C01 and C02 say something about every such object. *)
Theorem C01_models_realised (R : rcfType) n m (M : lgm R n m) T (HM : psd_model M T) :
  exists (Sp : l2space R) x z w v, obeys (Sp := Sp) M T x z w v.
Proof. exact: (Exists.model_exists HM). Qed.
Print Assumptions C01_models_realised.

(** ** C03 *)
Theorem C03_pair_covariance (R : rcfType) (Sp : l2space R) n m (M : lgm R n m) T x z w v
    (Hob : obeys (Sp := Sp) M T x z w v) (mis : nat -> bool) zs (Hd : data_of T z mis zs)
    (p : kfparams R) (Hp : params_model p T M) (HT : (0 < T)%N) :
  exists (xh : nat -> Om Sp -> 'cV[R]_n) (P Lag : nat -> 'M[R]_n),
    (forall om g, em_iter (@filter_ R) (zs om) g p =
       em_ n (zs om) [seq SRow (A1 (xh t om)) (A2 (P t)) | t <- iota 0 T]
         [seq A2 (Lag t) | t <- iota 0 T] (p_to p) (p_oo p) g) /\
    [/\ Lag 0%N = 0, forall t, (t < T)%N -> blue (x t) z mis T (xh t) (P t) &
     forall t, (t.+1 < T)%N ->
       Lag t.+1 = cov (fun om => x t.+1 om - xh t.+1 om) (fun om => x t om - xh t om)].
Proof. exact: (em_iter_correct Hob Hd Hp HT). Qed.
Print Assumptions C03_pair_covariance.

Example C03_hypotheses_met (R : rcfType) :
  exists (Sp : l2space R) x z w v zs, [/\ obeys (Sp := Sp) (ex_M R) 3 x z w v, data_of 3 z ex_mis zs &
    params_model (StandardInit.init_value (ex_o R)) 3 (ex_M R)].
Proof.
have [Sp [x [z [w [v H]]]]] := ex_obeys R; exists Sp, x, z, w, v; eexists; split; [exact: H|exact: data_of_mk|].
exact: kf_model_params (ex_model R).
Qed.

(** ** C04 *)
Theorem C04_loglikelihood_is_joint_density (R : rcfType) n m (o : kf R) T (M : lgm R n m)
    (Ho : kf_model o T M) (Hc : const2 (k_oc o)) (mis : nat -> bool) (Hk : (T != 1%N) || (m <= 1)%N)
    (ln : R -> R) (ln2pi : R) (Hln : multiplicative_log ln)
    (Sp : l2space R) x z w v (Hob : obeys (Sp := Sp) M T x z w v)
    (d : nat -> 'cV[R]_m) zs (Hd : rows_of T mis d zs) :
  let Z om := stack_obs mis (fun t => z t om) T in
  pd (cov Z Z) ->
  kf_loglikelihood ln ln2pi o (O2 m zs) =
  Ok (gauss_logpdf ln ln2pi (stack_obs mis d T) (mean Z) (cov Z Z)).
Proof. exact (loglik_joint Ho Hc Hk ln2pi Hln Hob Hd). Qed.
Print Assumptions C04_loglikelihood_is_joint_density.

(** positive definite observation noise makes the joint covariance positive definite *)
Theorem C04_joint_covariance_pd (R : rcfType) n m T (M : lgm R n m) (mis : nat -> bool)
    (Sp : l2space R) x z w v (Hob : obeys (Sp := Sp) M T x z w v)
    (HR : forall t, (t < T)%N -> ~~ mis t -> pd (mR M t)) :
  let Z om := stack_obs mis (fun t => z t om) T in pd (cov Z Z).
Proof. exact (joint_pd_R Hob HR). Qed.
Print Assumptions C04_joint_covariance_pd.

Example C04_hypotheses_met (R : rcfType) :
  exists (Sp : l2space R) x z w v,
    [/\ obeys (Sp := Sp) (ex_M R) 3 x z w v, kf_model (ex_o R) 3 (ex_M R) /\ const2 (k_oc (ex_o R)),
        rows_of 3 ex_mis (@ex_d R) (ex_zs R) &
        let Z om := stack_obs ex_mis (fun t => z t om) 3 in pd (cov Z Z)].
Proof.
have [Sp [x [z [w [v H]]]]] := ex_obeys R; exists Sp, x, z, w, v; split=> //.
- by split; [exact: ex_model|].
- exact: ex_rows.
- by apply: (joint_pd_R H) => t _ _; exact: pd1.
Qed.

(** ** C05 *)
Theorem C05_filter_causal (R : rcfType) (o : kf R) k (zs : seq (orow R k)) rows j :
  keeps zs -> keeps (take j zs) ->
  kf_filter o (O2 k zs) = Ok rows -> kf_filter o (O2 k (take j zs)) = Ok (take j rows).
Proof. exact: kf_filter_take. Qed.
Print Assumptions C05_filter_causal.

Theorem C05_future_irrelevant (R : rcfType) (o : kf R) k (zs zs' : seq (orow R k)) rows rows' j :
  keeps zs -> keeps zs' -> take j zs = take j zs' ->
  kf_filter o (O2 k zs) = Ok rows -> kf_filter o (O2 k zs') = Ok rows' -> take j rows = take j rows'.
Proof. exact: kf_filter_agree. Qed.
Print Assumptions C05_future_irrelevant.

Example C05_hypotheses_met (R : rcfType) : exists rows,
  [/\ keeps (ex_zs R), keeps (take 2 (ex_zs R)) & kf_filter (ex_o R) (O2 2 (ex_zs R)) = Ok rows /\ size rows = 3%N].
Proof.
have [rows [H1 H2 _]] := filter_shapes (ex_model R) (erefl : size (ex_zs R) = 3%N) erefl.
by exists rows.
Qed.

(** ** C06 *)
Theorem C06_mask_hides_data (R : rcfType) (o : kf R) k (zs zs' : seq (orow R k)) :
  keeps zs -> same_visible_rows zs zs' ->
  [/\ kf_filter o (O2 k zs) = kf_filter o (O2 k zs'), kf_smooth o (O2 k zs) = kf_smooth o (O2 k zs'),
      forall ln ln2pi, kf_loglikelihood ln ln2pi o (O2 k zs) = kf_loglikelihood ln ln2pi o (O2 k zs') &
      forall i ev, kf_em o (O2 k zs) i ev = kf_em o (O2 k zs') i ev].
Proof. exact: mask_hides. Qed.
Print Assumptions C06_mask_hides_data.

Theorem C06_mask_hides_data_1d (R : rcfType) (o : kf R) (s s' : seq (R * bool)) :
  s <> [::] -> List.Forall2 (@same_visible1 R) s s' ->
  [/\ kf_filter o (O1 s) = kf_filter o (O1 s'), kf_smooth o (O1 s) = kf_smooth o (O1 s'),
      forall ln ln2pi, kf_loglikelihood ln ln2pi o (O1 s) = kf_loglikelihood ln ln2pi o (O1 s') &
      forall i ev, kf_em o (O1 s) i ev = kf_em o (O1 s') i ev].
Proof. exact: mask_hides1. Qed.
Print Assumptions C06_mask_hides_data_1d.

(** only the first component of row 1 is masked, both components differ *)
Example C06_hypotheses_met (R : rcfType) :
  let b : 'cV[bool]_2 := \col_i (i == ord0) in
  let zs c := [:: mk_row false (e0 R); (c *: (e0 R + e1 R), b)] in
  [/\ keeps (zs 0), same_visible_rows (zs 0) (zs 1) & zs 0 <> zs 1].
Proof.
split=> //.
  constructor; first by [].
  constructor=> //; split=> //= H; exfalso; move: H.
  have -> : missing (0 *: (e0 R + e1 R), \col_(i < 2) (i == ord0)) = true by apply/existsP; exists ord0; rewrite mxE.
  by [].
case=> /matrixP /(_ ord0 ord0); rewrite !mxE /= mul0r addr0 mulr1 => /esym /eqP; by rewrite oner_eq0.
Qed.

(** ** C07 *)
Theorem C07_missing_is_prediction (R : rcfType) n m (o : kf R) T (M : lgm R n m) (Ho : kf_model o T M)
    (zs : seq (orow R m)) (Hsz : size zs = T) (Hk : keeps zs) :
  exists rows (f : nat -> 'cV[R]_n * 'M[R]_n),
  [/\ kf_filter o (O2 m zs) = Ok rows,
      forall t, (t < T)%N -> List.nth_error rows t = Some (A1 (f t).1, A2 (f t).2) &
      forall t r, List.nth_error zs t = Some r -> missing r ->
        f t = match t with 0 => (mmu M, mP M)
              | t'.+1 => (mA M t' *m (f t').1 + mb M t',
                          mA M t' *m (f t').2 *m (mA M t')^T + mQ M t') end].
Proof. exact: (filter_missing Ho Hsz Hk). Qed.
Print Assumptions C07_missing_is_prediction.

(** a trailing missing row contributes nothing to loglikelihood (interior ones:
    see C04, where missing rows do not enter the joint density) *)
Theorem C07_missing_loglikelihood (R : rcfType) n m (o : kf R) T (M : lgm R n m)
    (Ho : kf_model o T.+1 M) (Hc : const2 (k_oc o)) (ln : R -> R) (ln2pi : R)
    (zs : seq (orow R m)) r (Hsz : size zs = T) (Hk : keeps zs) (Hk' : keeps (rcons zs r)) (Hr : missing r) :
  kf_loglikelihood ln ln2pi o (O2 m (rcons zs r)) = kf_loglikelihood ln ln2pi o (O2 m zs).
Proof. exact: (loglik_missing Ho Hc ln ln2pi Hsz Hk Hk' Hr). Qed.
Print Assumptions C07_missing_loglikelihood.

Example C07_hypotheses_met (R : rcfType) :
  [/\ kf_model (ex_o R) 3 (ex_M R), size (ex_zs R) = 3%N, keeps (ex_zs R) &
      exists r, List.nth_error (ex_zs R) 1 = Some r /\ missing r] /\
  exists r : orow R 2, [/\ size (take 2 (ex_zs R)) = 2%N, keeps (take 2 (ex_zs R)),
     keeps (rcons (take 2 (ex_zs R)) r), missing r & const2 (k_oc (ex_o R))].
Proof.
split; first by split=> //; [exact: ex_model|eexists; split; [by []|exact: missing_row]].
by exists (mk_row true 0); split=> //; exact: missing_row.
Qed.

(** ** C08 *)
Theorem C08_filter_mask_only (R : rcfType) n m (o : kf R) T (M : lgm R n m)
    (Ho : kf_model o T M) (Hk : (T != 1%N) || (m <= 1)%N) (mis : nat -> bool) :
  exists (P : nat -> 'M[R]_n) (c : nat -> 'cV[R]_n) (L : nat -> nat -> 'M[R]_(n, m)),
  forall d zs, rows_of T mis d zs -> kf_filter o (O2 m zs) =
    Ok [seq (A1 (c t + \sum_(s < t.+1 | ~~ mis s) L t s *m d s), A2 (P t)) | t <- iota 0 T].
Proof. exact: (filter_mask_only Ho Hk mis). Qed.
Print Assumptions C08_filter_mask_only.

Theorem C08_smooth_mask_only (R : rcfType) n m (o : kf R) T (M : lgm R n m)
    (Ho : kf_model o T M) (Hk : (T != 1%N) || (m <= 1)%N) (mis : nat -> bool) (HT : (0 < T)%N) :
  exists (P : nat -> 'M[R]_n) (c : nat -> 'cV[R]_n) (L : nat -> nat -> 'M[R]_(n, m)),
  forall d zs, rows_of T mis d zs -> kf_smooth o (O2 m zs) =
    Ok [seq (A1 (c t + \sum_(s < T | ~~ mis s) L t s *m d s), A2 (P t)) | t <- iota 0 T].
Proof. exact: (smooth_mask_only Ho Hk mis HT). Qed.
Print Assumptions C08_smooth_mask_only.

Example C08_hypotheses_met (R : rcfType) :
  kf_model (ex_o R) 3 (ex_M R) /\
  exists zs, [/\ rows_of 3 ex_mis (@ex_d R) (ex_zs R), rows_of 3 ex_mis (fun _ => e1 R) zs & zs <> ex_zs R].
Proof.
split; first exact: ex_model.
exists [seq mk_row (ex_mis t) (e1 R) | t <- iota 0 3]; split; try exact: rows_of_mk.
exact: ex_rows_differ.
Qed.

(** ** C09 *)
Theorem C09_covariances_valid_and_shrink (R : rcfType) n m (o : kf R) T (M : lgm R n m)
    (Ho : kf_model o T M) (HM : psd_model M T) (Hk : (T != 1%N) || (m <= 1)%N) :
  exists Pf Ps : seq bool -> nat -> 'M[R]_n,
  [/\ forall zs : seq (orow R m), size zs = T -> exists mf ms : nat -> 'cV[R]_n,
        kf_filter o (O2 m zs) = Ok [seq (A1 (mf t), A2 (Pf (map (@missing R m) zs) t)) | t <- iota 0 T] /\
        ((0 < T)%N -> kf_smooth o (O2 m zs) =
                      Ok [seq (A1 (ms t), A2 (Ps (map (@missing R m) zs) t)) | t <- iota 0 T]),
      forall b t, (t < T)%N -> [/\ psd (Pf b t), psd (Ps b t) & lep (Ps b t) (Pf b t)],
      forall b t, (t < T)%N -> lep (Pf b t)
        (if t is t'.+1 then mA M t' *m Pf b t' *m (mA M t')^T + mQ M t' else mP M) &
      forall b b' t, (t < T)%N -> size b = T -> size b' = T ->
        (forall s, nth true b s -> nth true b' s) ->
        lep (Pf b t) (Pf b' t) /\ lep (Ps b t) (Ps b' t)].
Proof. exact: (cov_shrink Ho HM Hk). Qed.
Print Assumptions C09_covariances_valid_and_shrink.

Example C09_hypotheses_met (R : rcfType) : kf_model (ex_o R) 3 (ex_M R) /\ psd_model (ex_M R) 3.
Proof. by split; [exact: ex_model|exact: ex_psd]. Qed.

(** ** C14 *)
Theorem C14_filter_shapes (R : rcfType) n m (o : kf R) T (M : lgm R n m) (Ho : kf_model o T M)
    (zs : seq (orow R m)) (Hsz : size zs = T) (Hk : keeps zs) :
  exists rows, [/\ kf_filter o (O2 m zs) = Ok rows, size rows = T &
  List.Forall (fun r => shape r.1 = [:: n] /\ shape r.2 = [:: n; n]) rows].
Proof. exact: (filter_shapes Ho Hsz Hk). Qed.
Print Assumptions C14_filter_shapes.

Theorem C14_smooth_shapes (R : rcfType) n m (o : kf R) T (M : lgm R n m) (Ho : kf_model o T M)
    (zs : seq (orow R m)) (Hsz : size zs = T) (Hk : keeps zs) (HT : (0 < T)%N) :
  exists rows, [/\ kf_smooth o (O2 m zs) = Ok rows, size rows = T &
  List.Forall (fun r => shape r.1 = [:: n] /\ shape r.2 = [:: n; n]) rows].
Proof. exact: (smooth_shapes Ho Hsz Hk HT). Qed.
Print Assumptions C14_smooth_shapes.

(** an empty series has no smoothed states: ValueError *)
Theorem C14_smooth_empty (R : rcfType) n m (o : kf R) T (M : lgm R n m) (Ho : kf_model o T M)
    (zs : seq (orow R m)) (Hsz : size zs = T) (Hk : keeps zs) (HT : T = 0%N) :
  kf_smooth o (O2 m zs) = Err ValueError.
Proof. exact: (smooth_empty Ho Hsz Hk HT). Qed.
Print Assumptions C14_smooth_empty.

Example C14_hypotheses_met (R : rcfType) :
  [/\ kf_model (ex_o R) 3 (ex_M R), size (ex_zs R) = 3%N & keeps (ex_zs R)] /\
  kf_model (dflt_obj R 2 3) 0 (dflt_model R 2 3).
Proof. by split; [split=> //; exact: ex_model|exact: dflt_is_model]. Qed.

(** ** C26 *)
Theorem C26_state_coordinates (R : rcfType) n m (M : lgm R n m) T (o o' : kf R)
    (Hk : (T != 1%N) || (m <= 1)%N) (HM : psd_model M T) (G : 'M[R]_n) (h : 'cV[R]_n)
    (UG : G \in unitmx) (Ho : kf_model o T M) (Ho' : kf_model o' T (coord_model M G h))
    (zs : seq (orow R m)) (Hsz : size zs = T) :
  exists (mf : nat -> 'cV[R]_n) (Pf : nat -> 'M[R]_n) (ms : nat -> 'cV[R]_n) (Ps : nat -> 'M[R]_n),
  [/\ kf_filter o (O2 m zs) = Ok [seq (A1 (mf t), A2 (Pf t)) | t <- iota 0 T],
      kf_filter o' (O2 m zs) = Ok [seq (A1 (G *m mf t + h), A2 (G *m Pf t *m G^T)) | t <- iota 0 T] &
      (0 < T)%N ->
      kf_smooth o (O2 m zs) = Ok [seq (A1 (ms t), A2 (Ps t)) | t <- iota 0 T] /\
      kf_smooth o' (O2 m zs) = Ok [seq (A1 (G *m ms t + h), A2 (G *m Ps t *m G^T)) | t <- iota 0 T]].
Proof. exact: (coord_api Hk HM UG Ho Ho' Hsz). Qed.
Print Assumptions C26_state_coordinates.

Theorem C26_state_coordinates_loglikelihood (R : rcfType) n m (M : lgm R n m) T (o o' : kf R)
    (Hk : (T != 1%N) || (m <= 1)%N) (G : 'M[R]_n) (h : 'cV[R]_n)
    (UG : G \in unitmx) (Ho : kf_model o T M) (Ho' : kf_model o' T (coord_model M G h))
    (zs : seq (orow R m)) ln ln2pi (Hsz : size zs = T) (Hc : const2 (k_oc o)) (Hc' : const2 (k_oc o')) :
  kf_loglikelihood ln ln2pi o' (O2 m zs) = kf_loglikelihood ln ln2pi o (O2 m zs).
Proof. exact: (coord_loglik Hk UG Ho Ho' _ _ Hsz Hc Hc'). Qed.
Print Assumptions C26_state_coordinates_loglikelihood.

(** the example in coordinates x' = G x + h with a shear G *)
Example C26_hypotheses_met (R : rcfType) :
  let G := shear (3%:R : R) in let h := e1 R in
  exists o' : kf R, [/\ psd_model (ex_M R) 3, G \in unitmx, kf_model (ex_o R) 3 (ex_M R),
    kf_model o' 3 (coord_model (ex_M R) G h) & const2 (k_oc (ex_o R)) /\ const2 (k_oc o')].
Proof.
exists (obj_of (coord_model (ex_M R) (shear 3%:R) (e1 R)) 3 true); split=> //;
  [exact: ex_psd|exact: shear_unit|exact: ex_model|exact: obj_model].
Qed.

(** ** C27 (for positive definite observation noise) *)
Theorem C27_observation_recoding_partial (R : rcfType) n m (M : lgm R n m) T (o o' : kf R)
    (Hk : (T != 1%N) || (m <= 1)%N) (HM : psd_model M T) (N : 'M[R]_m) (g : 'cV[R]_m)
    (UN : N \in unitmx) (HR : forall t, (t < T)%N -> pd (mR M t))
    (Ho : kf_model o T M) (Ho' : kf_model o' T (recode_model M N g))
    (zs zs' : seq (orow R m)) (Hsz : size zs = T) (Hz : recoded N g zs zs') :
  kf_filter o' (O2 m zs') = kf_filter o (O2 m zs) /\
  ((0 < T)%N -> kf_smooth o' (O2 m zs') = kf_smooth o (O2 m zs)).
Proof. exact: (recode_api Hk HM UN HR Ho Ho' Hsz Hz). Qed.
Print Assumptions C27_observation_recoding_partial.

Example C27_hypotheses_met (R : rcfType) :
  let N := shear (3%:R : R) in let g := e1 R in
  exists (o' : kf R) zs', [/\ psd_model (ex_M R) 3 /\ N \in unitmx, forall t, (t < 3)%N -> pd (mR (ex_M R) t),
    kf_model (ex_o R) 3 (ex_M R), kf_model o' 3 (recode_model (ex_M R) N g) & recoded N g (ex_zs R) zs'].
Proof.
exists (obj_of (recode_model (ex_M R) (shear 3%:R) (e1 R)) 3 false).
exists [seq mk_row (missing r) (shear 3%:R *m r.1 + e1 R) | r <- ex_zs R]; split.
- by split; [exact: ex_psd|exact: shear_unit].
- by move=> t _; exact: pd1.
- exact: ex_model.
- exact: obj_model.
- by do 3 (constructor; first by split=> //; rewrite missing_row); constructor.
Qed.

(** ** C47: false for stacked observation covariances *)
Theorem C47_stacked_covariance_refuted (R : rcfType) n m (o : kf R) T (M : lgm R n m)
    (Ho : kf_model o T M) (zs : seq (orow R m)) (r : orow R m) (Hsz : size zs = T) (Hk : keeps zs)
    (ln : R -> R) (ln2pi : R) p q (s : seq 'M[R]_(p, q)) (Hs : k_oc o = Some (A3 s))
    (Hr : List.nth_error zs 0 = Some r) (Hm : missing r = false) :
  (exists rows, kf_filter o (O2 m zs) = Ok rows) /\
  kf_loglikelihood ln ln2pi o (O2 m zs) = Err ValueError.
Proof. exact: (stack_refuted Ho Hsz Hk ln ln2pi Hs Hr Hm). Qed.
Print Assumptions C47_stacked_covariance_refuted.

Example C47_hypotheses_met (R : rcfType) :
  exists (o : kf R) s r, [/\ kf_model o 3 (ex_M R), k_oc o = Some (@A3 R 2 2 s),
     forall S, In S s -> pd S, List.nth_error (ex_zs R) 0 = Some r & missing r = false].
Proof.
exists (obj_of (ex_M R) 3 false); do 2 eexists; split; [exact: obj_model|by []| |by []|exact: missing_row].
by move=> S /= [<-|[<-|[<-|[]]]]; exact: pd1.
Qed.

Theorem C47_constant_covariance_partial (R : rcfType) n m (o : kf R) T (M : lgm R n m)
    (Ho : kf_model o T M) (HM : psd_model M T) (Hc : const2 (k_oc o)) (mis : nat -> bool)
    (HR : forall t, (t < T)%N -> ~~ mis t -> pd (mR M t))
    (Hk : (T != 1%N) || (m <= 1)%N) (ln : R -> R) (ln2pi : R) (Hln : multiplicative_log ln)
    (d : nat -> 'cV[R]_m) zs (Hd : rows_of T mis d zs) :
  exists l, kf_loglikelihood ln ln2pi o (O2 m zs) = Ok l.
Proof. exact: (loglik_succeeds Ho HM Hc HR Hk ln2pi Hln Hd). Qed.
Print Assumptions C47_constant_covariance_partial.

(** ** C48 *)
Theorem C48_density (R : rcfType) (ln : R -> R) (ln2pi : R) (Hln : multiplicative_log ln)
    n (x mu : 'cV[R]_n) (S : 'M[R]_n) : pd S ->
  lmnd ln ln2pi (A1 x) (A1 mu) (A2 S) = Ok (gauss_logpdf ln ln2pi x mu S).
Proof. exact: lmnd_pd. Qed.
Print Assumptions C48_density.

Theorem C48_jitter (R : rcfType) (ln : R -> R) (ln2pi : R) (Hln : multiplicative_log ln)
    n (x mu : 'cV[R]_n) (S : 'M[R]_n) : S^T = S -> ~ pd S -> pd (S + (min_covar R)%:M) ->
  lmnd ln ln2pi (A1 x) (A1 mu) (A2 S) = Ok (gauss_logpdf ln ln2pi x mu (S + (min_covar R)%:M)).
Proof. exact: lmnd_jitter. Qed.
Print Assumptions C48_jitter.

Theorem C48_failure (R : rcfType) (ln : R -> R) (ln2pi : R)
    n (x mu : 'cV[R]_n) (S : 'M[R]_n) : S^T = S -> ~ pd S -> ~ pd (S + (min_covar R)%:M) ->
  lmnd ln ln2pi (A1 x) (A1 mu) (A2 S) = Err LinAlgError.
Proof. exact: lmnd_fail. Qed.
Print Assumptions C48_failure.

Example C48_hypotheses_met (R : rcfType) :
  [/\ pd (1%:M : 'M[R]_2), ~ pd (proj R) /\ (proj R)^T = proj R & pd (proj R + (min_covar R)%:M)] /\
  (~ pd (- 1%:M : 'M[R]_1) /\ ~ pd (- 1%:M + (min_covar R)%:M : 'M[R]_1)).
Proof. exact: ex_jitter. Qed.
