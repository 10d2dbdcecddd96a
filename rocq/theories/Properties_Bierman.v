(** Property theorems about BiermanKalmanFilter (pykalman/sqrt/bierman.py). *)
From Coq Require Import String List.
From mathcomp Require Import all_ssreflect all_algebra.
From Verif Require Import Prelude LinAlg Numpy Sklearn Standard Model KfSpec StandardInit KfOnline KfGlue Examples ExamplesEm.
From Verif Require Import Sqrt SqrtFacts SqrtSpec SqrtEm ExamplesSqrt Bierman BiUdu BiSingle BiBatch BiFacts BiMain.
Import GRing.Theory Num.Theory.

Set Implicit Arguments.
Unset Strict Implicit.
Unset Printing Implicit Defensive.
Local Open Scope ring_scope.

(** ** C29 *)
Theorem C29_bierman_equals_kalman_partial (R : rcfType) n m (o : kf R) T (M : lgm R n m) (n0 : (0 < n)%N) (T0 : (0 < T)%N)
    (Ho : psd_kf o T M) (zs : seq (orow R m)) (Hsz : size zs = T) (Hk : keeps zs) :
  let X := O2 m zs in
  [/\ bkf_filter o X = kf_filter o X, bkf_smooth o X = kf_smooth o X &
      forall ln ln2pi, bkf_loglikelihood ln ln2pi o X = kf_loglikelihood ln ln2pi o X].
Proof. exact: (bi_equal n0 T0 Ho Hsz Hk). Qed.
Print Assumptions C29_bierman_equals_kalman_partial.

Theorem C29_em_equals_kalman (R : rcfType) n m (o : kf R) T (M : lgm R n m) (n0 : (0 < n)%N) (T0 : (0 < T)%N)
    (Ho : psd_kf o T M) (zs : seq (orow R m)) (Hsz : size zs = T) (Hk : keeps zs) e N
    (H : forall i, (i < N)%N -> exists M' : lgm R n m, psd_kf (kf_em o (O2 m zs) i (Some e)).1 T M') :
  bkf_em o (O2 m zs) N (Some e) = kf_em o (O2 m zs) N (Some e).
Proof. exact: (bi_em_equal n0 T0 Ho Hsz Hk H). Qed.
Print Assumptions C29_em_equals_kalman.

Theorem C29_em_estimates_states (R : rcfType) n m (o : kf R) T (M : lgm R n m) (n0 : (0 < n)%N)
    (Ho : psd_kf o T M) (T1 : (1 < T)%N) (zs : seq (orow R m)) (Hsz : size zs = T) (Hk : keeps zs) e N
    (Hoc : ~ selects e Oc) :
  bkf_em o (O2 m zs) N (Some e) = kf_em o (O2 m zs) N (Some e) /\ (kf_em o (O2 m zs) N (Some e)).2 = Ok tt.
Proof. exact: (bi_em_fixed N n0 Ho T1 Hsz Hk Hoc). Qed.
Print Assumptions C29_em_estimates_states.

(** no observations at all: KalmanFilter returns empty arrays, this class raises *)
Theorem C29_no_observations_refuted (R : rcfType) n m (o : kf R) T (M : lgm R n m) (n0 : (0 < n)%N) (Ho : psd_kf o T M) :
  kf_filter o (O2 m [::]) = Ok [::] /\ bkf_filter o (O2 m [::]) = Err IndexError.
Proof. exact: (conj (kf_empty (sk_model Ho)) (bi_empty n0 Ho)). Qed.
Print Assumptions C29_no_observations_refuted.

(** a singular observation covariance, which KalmanFilter accepts, is rejected *)
Theorem C29_singular_noise_rejected (R : rcfType) n m (o : kf R) T (M : lgm R n m) (n0 : (0 < n)%N)
    (Ho : kf_model o T M) (pP : psd (mP M)) (Rc : 'M[R]_m) (HR : cov_is (k_oc o) Rc) (sR : Rc^T = Rc) (N : ~ pd Rc)
    k (zs : seq (orow R k)) :
  bkf_filter o (O2 k zs) = Err LinAlgError.
Proof. exact: (bi_oc_not_pd zs n0 Ho pP HR sR N). Qed.
Print Assumptions C29_singular_noise_rejected.

(** singular state noise and initial covariance, time-varying transitions, a missing observation *)
Example C29_hypotheses_met (R : rcfType) :
  let e := EmNames [:: "transition_covariance"; "observation_matrices"; "transition_offsets"]%string in
  [/\ psd_kf (ex_o R) 3 (ex_M R), ~ pd (mQ (ex_M R) 0), size (ex_zs R) = 3%N /\ keeps (ex_zs R) & ~ selects e Oc].
Proof.
by split=> //; [exact: ex_o_psd|exact: proj_not_pd|move=> /= H; repeat (case: H => // H)].
Qed.

(** ** C30 *)
Theorem C30_udu_factors (R : rcfType) n (M : 'M[R]_n) (n0 : (0 < n)%N) (pM : psd M) :
  exists (U : 'M[R]_n) (d : 'cV[R]_n),
    [/\ udu (A2 M) = Ok (A2 U, A1 d),
        (forall i, U i i = 1) /\ (forall i j : 'I_n, (j < i)%N -> U i j = 0),
        forall i, 0 <= d i 0, U *m diag_mx d^T *m U^T = M &
        bi_reconstruct (A2 U, A1 d) = Ok (A2 M)].
Proof. by have [U [d [E [HU Hd EM] Er]]] := udu_ok n0 pM; exists U, d. Qed.
Print Assumptions C30_udu_factors.

Theorem C30_empty_rejected (R : rcfType) (M : 'M[R]_0) : udu (A2 M) = Err IndexError.
Proof. exact: udu_empty. Qed.
Print Assumptions C30_empty_rejected.

Theorem C30_asymmetric_rejected (R : rcfType) n (M : 'M[R]_n) (i j : 'I_n)
    (H : (10 ^ 8)%:R^-1 + (10 ^ 5)%:R^-1 * `|M j i| < `|M i j - M j i|) :
  udu (A2 M) = Err AssertionError.
Proof. by apply: (udu_asym (i := i) (j := j)); rewrite /isclose -Order.TotalTheory.ltNge. Qed.
Print Assumptions C30_asymmetric_rejected.

(** outside the stated domain nothing is reported: the factors of this
    symmetric indefinite matrix multiply to zero *)
Theorem C30_indefinite_silent (R : rcfType) : exists (U : 'M[R]_2) (d : 'cV[R]_2),
  udu (A2 (\matrix_(i < 2, j < 2) (i != j)%:R)) = Ok (A2 U, A1 d) /\
  bi_reconstruct (A2 U, A1 d) = Ok (A2 (0 : 'M[R]_2)).
Proof. exact: udu_swap. Qed.
Print Assumptions C30_indefinite_silent.

Example C30_hypotheses_met (R : rcfType) : psd (proj R) /\ ~ pd (proj R).
Proof. by split; [exact: proj_psd|exact: proj_not_pd]. Qed.

(** ** C31 *)
Theorem C31_scalar_update (R : rcfType) n (U : 'M[R]_n) (d h : 'cV[R]_n) (r : R) (n0 : (0 < n)%N)
    (U1 : forall i, U i i = 1) (U0 : forall i j : 'I_n, (j < i)%N -> U i j = 0) (d0 : forall i, 0 <= d i 0) (r0 : 0 < r) :
  let P := U *m diag_mx d^T *m U^T in
  let s := (h^T *m P *m h) 0 0 + r in
  exists (U' : 'M[R]_n) (d' : 'cV[R]_n),
    [/\ bi_single (A2 U, A1 d) (A1 h) r = Ok ((A2 U', A1 d'), A1 (s^-1 *: (P *m h))),
        (forall i, U' i i = 1) /\ (forall i j : 'I_n, (j < i)%N -> U' i j = 0),
        forall i, 0 <= d' i 0 &
        U' *m diag_mx d'^T *m U'^T = P - s^-1 *: (P *m h *m h^T *m P)].
Proof.
move=> P s; have HU : is_udu P U d by [].
have [U' [d' [E [HU' Hd EP]]]] := single_ok h n0 HU r0; exists U', d'; split=> //.
by rewrite EP /rank1_cov trmx_mul (psd_sym (udu_psd HU)) mulmxA.
Qed.
Print Assumptions C31_scalar_update.

Example C31_hypotheses_met (R : rcfType) :
  exists (U : 'M[R]_2) (d : 'cV[R]_2), is_udu (proj R) U d /\ (0 : R) < 1.
Proof. by have [U [d [_ H _]]] := udu_ok (isT : (0 < 2)%N) (proj_psd R); exists U, d; split=> //; exact: ltr01. Qed.

(** ** C05 (BiermanKalmanFilter) *)
Theorem C05_bierman_causal_partial (R : rcfType) (o : kf R) k (zs : seq (orow R k)) rows j (j0 : (0 < j)%N) :
  keeps zs -> keeps (take j zs) ->
  bkf_filter o (O2 k zs) = Ok rows -> bkf_filter o (O2 k (take j zs)) = Ok (take j rows).
Proof. exact: bkf_filter_take. Qed.
Print Assumptions C05_bierman_causal_partial.

Theorem C05_bierman_future_irrelevant (R : rcfType) (o : kf R) k (zs zs' : seq (orow R k)) rows rows' j :
  keeps zs -> keeps zs' -> take j zs = take j zs' ->
  bkf_filter o (O2 k zs) = Ok rows -> bkf_filter o (O2 k zs') = Ok rows' -> take j rows = take j rows'.
Proof. exact: bkf_filter_agree. Qed.
Print Assumptions C05_bierman_future_irrelevant.

(** ** C06 (BiermanKalmanFilter) *)
Theorem C06_bierman_mask_hides (R : rcfType) (o : kf R) k (zs zs' : seq (orow R k))
    (Hk : keeps zs) (H : same_visible_rows zs zs') :
  [/\ bkf_filter o (O2 k zs) = bkf_filter o (O2 k zs'), bkf_smooth o (O2 k zs) = bkf_smooth o (O2 k zs'),
      forall ln ln2pi, bkf_loglikelihood ln ln2pi o (O2 k zs) = bkf_loglikelihood ln ln2pi o (O2 k zs') &
      forall i ev, bkf_em o (O2 k zs) i ev = bkf_em o (O2 k zs') i ev].
Proof. exact: (bkf_mask_hides o Hk H). Qed.
Print Assumptions C06_bierman_mask_hides.

(** ** C32 (BiermanKalmanFilter) *)
Theorem C32_bierman_shape_refuted (R : rcfType) n m (o : kf R) T (M : lgm R n m)
    (Ho : kf_model o T M) (n0 : (0 < n)%N) (m0 : (0 < m)%N) t (r : orow R m) u (mu : 'cV[R]_n) (P : 'M[R]_n)
    (tT : (t.+1 < T)%N) (Hu : step_args o M t r u) (Hf : full_obs m u)
    (HQ : psd (mQ M t)) (HR : pd (mR M t.+1)) (HP : psd P) :
  exists (mu' : 'cV[R]_n) (P' : 'M[R]_n), [/\ update o (A1 mu, A2 P) u = Ok (A1 mu', A2 P'), psd P'
    & bkf_update o (A1 mu, A2 P) u = Ok (A1 mu', A3 [:: P'])].
Proof. exact: (bi_update_ok Ho n0 m0 mu tT Hu Hf HQ HR HP). Qed.
Print Assumptions C32_bierman_shape_refuted.

Theorem C32_bierman_chain_refuted (R : rcfType) n m (o : kf R) T (M : lgm R n m)
    (Ho : kf_model o T M) (n1 : (1 < n)%N) (m0 : (0 < m)%N) t (r r' : orow R m) u u' (mu : 'cV[R]_n) (P : 'M[R]_n)
    (tT : (t.+2 < T)%N) (Hu : step_args o M t r u) (Hf : full_obs m u) (Hu' : step_args o M t.+1 r' u')
    (HQ : psd (mQ M t)) (HR : pd (mR M t.+1)) (HP : psd P) :
  exists2 e, (s <-- bkf_update o (A1 mu, A2 P) u ;; bkf_update o s u') = Err e & e = ValueError \/ e = AssertionError.
Proof. exact: (bi_chain_fails mu Ho n1 m0 tT Hu Hf Hu' HQ HR HP). Qed.
Print Assumptions C32_bierman_chain_refuted.

(** with a scalar state the stacked result is accepted and used like the plain one *)
Theorem C32_bierman_scalar_state_chains_partial (R : rcfType) (o : kf R) mu (P : 'M[R]_1) u :
  bkf_update o (mu, A3 [:: P]) u = bkf_update o (mu, A2 P) u.
Proof. exact: bi_update_one. Qed.
Print Assumptions C32_bierman_scalar_state_chains_partial.

Example C32_bierman_hypotheses_met (R : rcfType) (r : orow R 2) :
  let M := dflt_model R 3 2 in
  [/\ kf_model (dflt_obj R 3 2) 5 M, step_args (dflt_obj R 3 2) M 0 r (row_args r), full_obs 2 (row_args r),
      step_args (dflt_obj R 3 2) M 1 r (row_args r) & psd (mQ M 0) /\ pd (mR M 1)].
Proof.
split; [exact: dflt_is_model|exact: dflt_args_ok|by move=> za b [<- _]; eexists|exact: dflt_args_ok|].
by split; [exact: psd1|exact: pd1].
Qed.

(** ** C33 (BiermanKalmanFilter) *)
Theorem C33_bierman_refuted (R : rcfType) (o : kf R) X N (Hs : seed_ok (k_rs o)) (He : k_em o = None) :
  (bkf_em o X N None).2 = Err TypeError /\
  forall x, attribute (bkf_em o X N None).1 x = Some (initial_value o x).
Proof. exact: (bkf_em_default X N Hs He). Qed.
Print Assumptions C33_bierman_refuted.

(** ** C43 (BiermanKalmanFilter) *)
Theorem C43_bierman_wrong_width_rejected_partial (R : rcfType) n m (o : kf R) T (M : lgm R n m) (n0 : (0 < n)%N) (Ho : psd_kf o T M)
    k (Hkm : k <> m) (zs : seq (orow R k)) (Hk : keeps zs) :
  bkf_filter o (O2 k zs) = Err ValueError.
Proof. exact: (bi_width n0 Ho Hkm Hk). Qed.
Print Assumptions C43_bierman_wrong_width_rejected_partial.

Example C43_bierman_hypotheses_met (R : rcfType) :
  psd_kf (ex_o R) 3 (ex_M R) /\ keeps (nseq 3 (mk_row false (0 : 'cV[R]_3))).
Proof. by split; [exact: ex_o_psd|]. Qed.
