(** Property theorems C53 to C60: forecasting, restarting, units of the
    covariances, known states, mis-tuned noise, independent subsystems, recoded
    observations, sample lengths. *)
From Coq Require Import String List.
From mathcomp Require Import all_ssreflect all_algebra.
From Verif Require Import Prelude LinAlg Numpy Sklearn Standard Model KfSpec SpecL2 GaussSpec Rng Sample SampleSpec Unscented UscSampleSpec
  KfMoreSpec KfGlue KfMoreGlue KfMoreGlue2 SampleFacts UscInit UscSample SamplePrefix Examples ExamplesUsc ExamplesMore.
Import GRing.Theory Num.Theory.

Set Implicit Arguments.
Unset Strict Implicit.
Unset Printing Implicit Defensive.
Local Open Scope ring_scope.

(** ** C53: appending masked rows forecasts. *)
Theorem C53_forecast_filter (R : rcfType) n m (o : kf R) T h (M : lgm R n m) (zs ms : seq (orow R m))
    (Ho : kf_model o (T.+1 + h) M) (Hsz : size zs = T.+1) (Hms : size ms = h) (Hm : all (@missing R m) ms)
    (Hk : keeps zs) (Hk' : keeps (zs ++ ms)) :
  exists rows (f : 'cV[R]_n * 'M[R]_n), [/\ kf_filter o (O2 m zs) = Ok rows,
    List.nth_error rows T = Some (A1 f.1, A2 f.2) &
    kf_filter o (O2 m (zs ++ ms)) =
      Ok (rows ++ [seq (A1 (forecast M T f k).1, A2 (forecast M T f k).2) | k <- iota 1 h])].
Proof. exact: (forecast_filter Ho Hsz Hms Hm Hk Hk'). Qed.
Print Assumptions C53_forecast_filter.

Theorem C53_forecast_smooth (R : rcfType) n m (o : kf R) T h (M : lgm R n m) (zs ms : seq (orow R m))
    (Ho : kf_model o (T.+1 + h) M) (Hsz : size zs = T.+1) (Hms : size ms = h) (Hm : all (@missing R m) ms)
    (Hk : keeps zs) (Hk' : keeps (zs ++ ms)) :
  exists rows (f : 'cV[R]_n * 'M[R]_n), [/\ kf_smooth o (O2 m zs) = Ok rows,
    List.nth_error rows T = Some (A1 f.1, A2 f.2) &
    kf_smooth o (O2 m (zs ++ ms)) =
      Ok (rows ++ [seq (A1 (forecast M T f k).1, A2 (forecast M T f k).2) | k <- iota 1 h])].
Proof. exact: (forecast_smooth Ho Hsz Hms Hm Hk Hk'). Qed.
Print Assumptions C53_forecast_smooth.

Theorem C53_forecast_loglikelihood (R : rcfType) n m (o : kf R) T (M : lgm R n m) ln ln2pi (zs ms : seq (orow R m))
    (Hc : const2 (k_oc o)) (Ho : kf_model o (T + size ms) M) (Hsz : size zs = T) (Hm : all (@missing R m) ms)
    (Hk : forall k, (k <= size ms)%N -> keeps (zs ++ take k ms)) :
  kf_loglikelihood ln ln2pi o (O2 m (zs ++ ms)) = kf_loglikelihood ln ln2pi o (O2 m zs).
Proof. exact: (forecast_loglik ln ln2pi Hc Ho Hsz Hm Hk). Qed.
Print Assumptions C53_forecast_loglikelihood.

Example C53_hypotheses_met (R : rcfType) : let zs := take 2 (ex_zs R) in let ms := [:: mk_row true (0 : 'cV[R]_2)] in
  [/\ kf_model (ex_o R) (2 + 1) (ex_M R) /\ const2 (k_oc (ex_o R)), size zs = 2%N, all (@missing R 2) ms &
      keeps zs /\ forall k, (k <= 1)%N -> keeps (zs ++ take k ms)].
Proof. exact: ex_forecast. Qed.

(** ** C54: a filter restarted from the forecast of an earlier estimate *)
Theorem C54_restart_filter (R : rcfType) n m (o o' : kf R) T s (M : lgm R n m) (zs : seq (orow R m))
    (Ho : kf_model o T M) (Hsz : size zs = T) (Hk : keeps zs) (Hk' : keeps (drop s.+1 zs)) (sT : (s < T)%N)
    rows (f : 'cV[R]_n * 'M[R]_n) (Hrows : kf_filter o (O2 m zs) = Ok rows)
    (Hf : List.nth_error rows s = Some (A1 f.1, A2 f.2))
    (Ho' : kf_model o' (T - s.+1) (shift_model M s.+1 (forecast M s f 1))) :
  kf_filter o' (O2 m (drop s.+1 zs)) = Ok (drop s.+1 rows).
Proof. exact: (restart_filter Ho Hsz Hk Hk' sT Hrows Hf Ho'). Qed.
Print Assumptions C54_restart_filter.

Theorem C54_restart_smooth (R : rcfType) n m (o o' : kf R) T s (M : lgm R n m) (zs : seq (orow R m))
    (Ho : kf_model o T M) (Hsz : size zs = T) (Hk : keeps zs) (Hk' : keeps (drop s.+1 zs)) (sT : (s.+1 < T)%N)
    rows srows (f : 'cV[R]_n * 'M[R]_n) (Hrows : kf_filter o (O2 m zs) = Ok rows)
    (Hf : List.nth_error rows s = Some (A1 f.1, A2 f.2)) (Hsrows : kf_smooth o (O2 m zs) = Ok srows)
    (Ho' : kf_model o' (T - s.+1) (shift_model M s.+1 (forecast M s f 1))) :
  kf_smooth o' (O2 m (drop s.+1 zs)) = Ok (drop s.+1 srows).
Proof. exact: (restart_smooth Ho Hsz Hk Hk' (ltnW sT) Hrows Hf Ho' sT Hsrows). Qed.
Print Assumptions C54_restart_smooth.

Theorem C54_restart_loglikelihood (R : rcfType) n m (o o' : kf R) T s (M : lgm R n m) ln ln2pi (zs : seq (orow R m))
    (Ho : kf_model o T M) (Hsz : size zs = T) (Hk : keeps zs) (Hk' : keeps (drop s.+1 zs)) (sT : (s < T)%N)
    rows (f : 'cV[R]_n * 'M[R]_n) (Hrows : kf_filter o (O2 m zs) = Ok rows)
    (Hf : List.nth_error rows s = Some (A1 f.1, A2 f.2))
    (Ho' : kf_model o' (T - s.+1) (shift_model M s.+1 (forecast M s f 1)))
    (Hc : const2 (k_oc o)) (Hc' : const2 (k_oc o')) (Hk1 : keeps (take s.+1 zs)) :
  kf_loglikelihood ln ln2pi o (O2 m zs) =
  (l1 <-- kf_loglikelihood ln ln2pi o (O2 m (take s.+1 zs)) ;;
   l2 <-- kf_loglikelihood ln ln2pi o' (O2 m (drop s.+1 zs)) ;; Ok (l1 + l2)).
Proof. exact: (restart_loglik Ho Hsz Hk Hk' sT Hrows Hf Ho' ln ln2pi Hc Hc' Hk1). Qed.
Print Assumptions C54_restart_loglikelihood.

Example C54_hypotheses_met (R : rcfType) : exists rows srows (f : 'cV[R]_2 * 'M[R]_2) o',
  [/\ kf_model (ex_o4 R) 4 (ex_M R) /\ size (ex_zs4 R) = 4%N, keeps (ex_zs4 R) /\ keeps (drop 2 (ex_zs4 R)),
      keeps (take 2 (ex_zs4 R)) /\ kf_filter (ex_o4 R) (O2 2 (ex_zs4 R)) = Ok rows,
      List.nth_error rows 1 = Some (A1 f.1, A2 f.2) /\ kf_smooth (ex_o4 R) (O2 2 (ex_zs4 R)) = Ok srows &
      kf_model o' (4 - 2) (shift_model (ex_M R) 2 (forecast (ex_M R) 1 f 1)) /\
      (const2 (k_oc (ex_o4 R)) /\ const2 (k_oc o'))].
Proof. exact: ex_restart. Qed.

(** ** C55: units of the covariances *)
Theorem C55_scaled_covariances (R : rcfType) n m (o o' : kf R) T (M : lgm R n m) (c : R) (zs : seq (orow R m)) (c0 : c != 0)
    (Ho : kf_model o T M) (Ho' : kf_model o' T (scale_model M c)) (Hsz : size zs = T) (Hk : keeps zs) :
  exists (mf : nat -> 'cV[R]_n) (Pf : nat -> 'M[R]_n) (ms : nat -> 'cV[R]_n) (Ps : nat -> 'M[R]_n),
  [/\ kf_filter o (O2 m zs) = Ok [seq (A1 (mf t), A2 (Pf t)) | t <- iota 0 T],
      kf_filter o' (O2 m zs) = Ok [seq (A1 (mf t), A2 (c *: Pf t)) | t <- iota 0 T] &
      (0 < T)%N ->
      kf_smooth o (O2 m zs) = Ok [seq (A1 (ms t), A2 (Ps t)) | t <- iota 0 T] /\
      kf_smooth o' (O2 m zs) = Ok [seq (A1 (ms t), A2 (c *: Ps t)) | t <- iota 0 T]].
Proof. exact: (scale_api c0 Ho Ho' Hsz Hk). Qed.
Print Assumptions C55_scaled_covariances.

Example C55_hypotheses_met (R : rcfType) : exists o' : kf R, [/\ (4%:R : R) != 0, kf_model (ex_o R) 3 (ex_M R),
  kf_model o' 3 (scale_model (ex_M R) 4%:R), size (ex_zs R) = 3%N & keeps (ex_zs R)].
Proof. exact: ex_scale. Qed.

(** ** C56: known states *)
Theorem C56_known_state (R : rcfType) n m (o : kf R) T (M : lgm R n m) (zs : seq (orow R m))
    (Ho : kf_model o T M) (HK : known_state M T) (Hsz : size zs = T) (Hk : keeps zs) :
  kf_filter o (O2 m zs) = Ok [seq (A1 (mean_path M t), A2 (0 : 'M[R]_n)) | t <- iota 0 T] /\
  ((0 < T)%N -> kf_smooth o (O2 m zs) = Ok [seq (A1 (mean_path M t), A2 (0 : 'M[R]_n)) | t <- iota 0 T]).
Proof. exact: (known_api Ho HK Hsz Hk). Qed.
Print Assumptions C56_known_state.

Example C56_hypotheses_met (R : rcfType) : exists (o : kf R) (M : lgm R 2 2),
  [/\ kf_model o 3 M, known_state M 3, size (ex_zs R) = 3%N & keeps (ex_zs R)].
Proof. exact: ex_known. Qed.

(** ** C57: larger modelled noise *)
Theorem C57_more_noise_less_certainty (R : rcfType) n m T (M M' : lgm R n m) (o o' : kf R) (zs zs' : seq (orow R m))
    (HL : less_noise T M M') (HM : psd_model M T) (HM' : psd_model M' T) (Ho : kf_model o T M) (Ho' : kf_model o' T M')
    (Hsz : size zs = T) (Hsz' : size zs' = T) (Hk : keeps zs)
    (Hm : forall t r r', List.nth_error zs t = Some r -> List.nth_error zs' t = Some r' -> missing r = missing r') :
  exists (mf mf' ms ms' : nat -> 'cV[R]_n) (Pf Pf' Ps Ps' : nat -> 'M[R]_n),
  [/\ kf_filter o (O2 m zs) = Ok [seq (A1 (mf t), A2 (Pf t)) | t <- iota 0 T],
      kf_filter o' (O2 m zs') = Ok [seq (A1 (mf' t), A2 (Pf' t)) | t <- iota 0 T],
      forall t, (t < T)%N -> lep (Pf t) (Pf' t) &
      (0 < T)%N -> [/\ kf_smooth o (O2 m zs) = Ok [seq (A1 (ms t), A2 (Ps t)) | t <- iota 0 T],
         kf_smooth o' (O2 m zs') = Ok [seq (A1 (ms' t), A2 (Ps' t)) | t <- iota 0 T] &
         forall t, (t < T)%N -> lep (Ps t) (Ps' t)]].
Proof. exact: (noise_api HL HM HM' Ho Ho' Hsz Hsz' Hk Hm). Qed.
Print Assumptions C57_more_noise_less_certainty.

(** [M]: the true process; [M']: the model the object holds *)
Theorem C57_conservative_filter (R : rcfType) n m T (M M' : lgm R n m) (o' : kf R)
    (HL : less_noise T M M') (HM' : psd_model M' T) (Ho' : kf_model o' T M') (HS : same_offsets T M M')
    (Sp : l2space R) x z w v (Hob : @obeys R Sp n m M T x z w v) mis zs (Hd : data_of T z mis zs)
    (Hk : (T != 1%N) || (m <= 1)%N) :
  exists (xh : nat -> Om Sp -> 'cV[R]_n) (P : nat -> 'M[R]_n),
  (forall om, kf_filter o' (O2 m (zs om)) = Ok [seq (A1 (xh t om), A2 (P t)) | t <- iota 0 T]) /\
  (forall t, (t < T)%N -> safe_estimate (x t) (xh t) (P t)).
Proof. exact: (conservative_filter HL HM' Ho' HS Hob Hd Hk). Qed.
Print Assumptions C57_conservative_filter.

Theorem C57_conservative_smooth (R : rcfType) n m T (M M' : lgm R n m) (o' : kf R)
    (HL : less_noise T M M') (HM' : psd_model M' T) (Ho' : kf_model o' T M') (HS : same_offsets T M M')
    (Sp : l2space R) x z w v (Hob : @obeys R Sp n m M T x z w v) mis zs (Hd : data_of T z mis zs)
    (Hk : (T != 1%N) || (m <= 1)%N) (T0 : (0 < T)%N) :
  exists (xh : nat -> Om Sp -> 'cV[R]_n) (P : nat -> 'M[R]_n),
  (forall om, kf_smooth o' (O2 m (zs om)) = Ok [seq (A1 (xh t om), A2 (P t)) | t <- iota 0 T]) /\
  (forall t, (t < T)%N -> safe_estimate (x t) (xh t) (P t)).
Proof. exact: (conservative_smooth HL HM' Ho' HS Hob Hd Hk T0). Qed.
Print Assumptions C57_conservative_smooth.

Example C57_hypotheses_met (R : rcfType) : exists (o' : kf R) M' (Sp : l2space R) x z w v zs,
  [/\ less_noise 3 (ex_M R) M' /\ same_offsets 3 (ex_M R) M', psd_model (ex_M R) 3 /\ psd_model M' 3,
      kf_model (ex_o R) 3 (ex_M R) /\ kf_model o' 3 M', mP M' <> mP (ex_M R) &
      @obeys R Sp 2 2 (ex_M R) 3 x z w v /\ data_of 3 z ex_mis zs].
Proof. exact: ex_noise. Qed.

(** ** C58: independent subsystems *)
Theorem C58_subsystems (R : rcfType) n1 n2 m1 m2 (M1 : lgm R n1 m1) (M2 : lgm R n2 m2) T (o o1 o2 : kf R)
    (Ho : kf_model o T (block_model M1 M2)) (Ho1 : kf_model o1 T M1) (Ho2 : kf_model o2 T M2)
    mis (d1 : nat -> 'cV[R]_m1) (d2 : nat -> 'cV[R]_m2) (zs1 : seq (orow R m1)) (zs2 : seq (orow R m2))
    (zs : seq (orow R (m1 + m2))) (Hd1 : rows_of T mis d1 zs1) (Hd2 : rows_of T mis d2 zs2)
    (Hd : rows_of T mis (fun t => col_mx (d1 t) (d2 t)) zs) (Hk : (T != 1%N) || (m1 + m2 <= 1)%N) :
  exists (f1 : nat -> 'cV[R]_n1) (P1 : nat -> 'M[R]_n1) (f2 : nat -> 'cV[R]_n2) (P2 : nat -> 'M[R]_n2)
    (g1 : nat -> 'cV[R]_n1) (S1 : nat -> 'M[R]_n1) (g2 : nat -> 'cV[R]_n2) (S2 : nat -> 'M[R]_n2),
  [/\ kf_filter o1 (O2 m1 zs1) = Ok [seq (A1 (f1 t), A2 (P1 t)) | t <- iota 0 T],
      kf_filter o2 (O2 m2 zs2) = Ok [seq (A1 (f2 t), A2 (P2 t)) | t <- iota 0 T],
      kf_filter o (O2 (m1 + m2) zs) =
        Ok [seq (A1 (col_mx (f1 t) (f2 t)), A2 (block_mx (P1 t) 0 0 (P2 t))) | t <- iota 0 T] &
      (0 < T)%N -> [/\
      kf_smooth o1 (O2 m1 zs1) = Ok [seq (A1 (g1 t), A2 (S1 t)) | t <- iota 0 T],
      kf_smooth o2 (O2 m2 zs2) = Ok [seq (A1 (g2 t), A2 (S2 t)) | t <- iota 0 T] &
      kf_smooth o (O2 (m1 + m2) zs) =
        Ok [seq (A1 (col_mx (g1 t) (g2 t)), A2 (block_mx (S1 t) 0 0 (S2 t))) | t <- iota 0 T]]].
Proof. exact: (block_api Ho Ho1 Ho2 Hd1 Hd2 Hd Hk). Qed.
Print Assumptions C58_subsystems.

Theorem C58_subsystems_loglikelihood (R : rcfType) n1 n2 m1 m2 (M1 : lgm R n1 m1) (M2 : lgm R n2 m2) T (o o1 o2 : kf R)
    (Ho : kf_model o T (block_model M1 M2)) (Ho1 : kf_model o1 T M1) (Ho2 : kf_model o2 T M2)
    mis (d1 : nat -> 'cV[R]_m1) (d2 : nat -> 'cV[R]_m2) (zs1 : seq (orow R m1)) (zs2 : seq (orow R m2))
    (zs : seq (orow R (m1 + m2))) (Hd1 : rows_of T mis d1 zs1) (Hd2 : rows_of T mis d2 zs2)
    (Hd : rows_of T mis (fun t => col_mx (d1 t) (d2 t)) zs) (Hk : (T != 1%N) || (m1 + m2 <= 1)%N)
    (ln : R -> R) (ln2pi : R) (Hln : multiplicative_log ln)
    (Hc : const2 (k_oc o)) (Hc1 : const2 (k_oc o1)) (Hc2 : const2 (k_oc o2))
    (HM1 : psd_model M1 T) (HM2 : psd_model M2 T)
    (HR1 : forall t, (t < T)%N -> pd (mR M1 t)) (HR2 : forall t, (t < T)%N -> pd (mR M2 t)) :
  exists l1 l2, [/\ kf_loglikelihood ln ln2pi o1 (O2 m1 zs1) = Ok l1, kf_loglikelihood ln ln2pi o2 (O2 m2 zs2) = Ok l2 &
    kf_loglikelihood ln ln2pi o (O2 (m1 + m2) zs) = Ok (l1 + l2)].
Proof. exact: (block_loglik Ho Ho1 Ho2 Hd1 Hd2 Hd Hk ln2pi Hln Hc Hc1 Hc2 HM1 HM2 HR1 HR2). Qed.
Print Assumptions C58_subsystems_loglikelihood.

Example C58_hypotheses_met (R : rcfType) : exists (o o2 : kf R) (M2 : lgm R 1 1) zs2 (zs : seq (orow R (2 + 1))) d2,
  [/\ kf_model o 3 (block_model (ex_M R) M2) /\ const2 (k_oc o), kf_model (ex_o R) 3 (ex_M R) /\ const2 (k_oc (ex_o R)),
      kf_model o2 3 M2 /\ const2 (k_oc o2),
      [/\ rows_of 3 ex_mis (@ex_d R) (ex_zs R), rows_of 3 ex_mis d2 zs2 & rows_of 3 ex_mis (fun t => col_mx (ex_d R t) (d2 t)) zs] &
      [/\ psd_model (ex_M R) 3, psd_model M2 3, forall t, (t < 3)%N -> pd (mR (ex_M R) t) & forall t, (t < 3)%N -> pd (mR M2 t)]].
Proof. exact: ex_block. Qed.

(** ** C59: units of the observations and the log-likelihood *)
Theorem C59_recoding_shifts_loglikelihood (R : rcfType) n m (M : lgm R n m) T (o o' : kf R) (N : 'M[R]_m) (g : 'cV[R]_m)
    (UN : N \in unitmx) (Ho : kf_model o T M) (Ho' : kf_model o' T (recode_model M N g)) (HM : psd_model M T)
    (HR : forall t, (t < T)%N -> pd (mR M t)) (Hc : const2 (k_oc o)) (Hc' : const2 (k_oc o'))
    (ln : R -> R) (ln2pi : R) (Hln : multiplicative_log ln) (zs zs' : seq (orow R m))
    (Hsz : size zs = T) (Hk : (T != 1%N) || (m <= 1)%N) (Hz : recoded N g zs zs') :
  exists l, kf_loglikelihood ln ln2pi o (O2 m zs) = Ok l /\
    kf_loglikelihood ln ln2pi o' (O2 m zs') = Ok (l - (n_observed zs)%:R * (2%:R^-1 * ln (\det N ^+ 2))).
Proof. exact: (recode_loglik UN Ho Ho' HM HR Hc Hc' ln2pi Hln Hsz Hk Hz). Qed.
Print Assumptions C59_recoding_shifts_loglikelihood.

Example C59_hypotheses_met (R : rcfType) : let N := (2%:R : R)%:M : 'M[R]_2 in exists (o' : kf R) zs',
  [/\ N \in unitmx /\ \det N ^+ 2 = 16%:R, kf_model (ex_o R) 3 (ex_M R) /\ const2 (k_oc (ex_o R)),
      kf_model o' 3 (recode_model (ex_M R) N (e1 R)) /\ const2 (k_oc o'),
      psd_model (ex_M R) 3 /\ (forall t, (t < 3)%N -> pd (mR (ex_M R) t)) &
      [/\ recoded N (e1 R) (ex_zs R) zs', n_observed (ex_zs R) = 2%N & size (ex_zs R) = 3%N]].
Proof. exact: ex_recode. Qed.

(** ** C60: a shorter sample is the beginning of a longer one *)
Theorem C60_sample_prefix (R : rcfType) G (rl : rng_lib R G) (o : kf R) k K x0 rs w rows (kK : (k <= K)%N) :
  (kf_sample rl o K x0 rs w).2 = Ok rows -> (kf_sample rl o k x0 rs w).2 = Ok (take k rows).
Proof. exact: (kf_sample_take kK). Qed.
Print Assumptions C60_sample_prefix.

Theorem C60_unscented_sample_prefix (R : rcfType) G (rl : rng_lib R G) (o : ukf R) k K x0 rs w rows (kK : (k <= K)%N) :
  ((ukf_sample rl o K x0 rs w).2 = Ok rows -> (ukf_sample rl o k x0 rs w).2 = Ok (take k rows)) /\
  ((aukf_sample rl o K x0 rs w).2 = Ok rows -> (aukf_sample rl o k x0 rs w).2 = Ok (take k rows)).
Proof. exact: (conj (usample_take kK) (usample_take kK)). Qed.
Print Assumptions C60_unscented_sample_prefix.

Example C60_hypotheses_met (R : rcfType) G (rl : rng_lib R G) (w : world G) :
  (exists rows, (kf_sample rl (ex_o R) 3 None None w).2 = Ok rows /\ size rows = 3%N) /\
  (exists o T rows, (aukf_sample rl o T.+2 None (Some (RsSeed 7)) w).2 = Ok rows /\ size rows = T.+2).
Proof. exact: ex_samples. Qed.
