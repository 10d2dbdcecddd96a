(** Property theorems about the square-root filters (pykalman/sqrt). *)
From Coq Require Import String List.
From mathcomp Require Import all_ssreflect all_algebra.
From Verif Require Import Prelude LinAlg Numpy Sklearn Standard Model KfSpec StandardInit KfOnline KfGlue Examples ExamplesEm.
From Verif Require Import Sqrt SqrtFacts SqrtSpec SqrtEm Cholesky ChMain SqrtGlue ExamplesSqrt.
Import GRing.Theory Num.Theory.

Set Implicit Arguments.
Unset Strict Implicit.
Unset Printing Implicit Defensive.
Local Open Scope ring_scope.

(** ** C28 *)
Theorem C28_cholesky_equals_kalman_partial (R : rcfType) (qr : qr_fun R) (Hqr : qr_valid qr) n m (o : kf R) T (M : lgm R n m)
    (Ho : pd_kf o T M) (zs : seq (orow R m)) (Hsz : size zs = T) (Hk : keeps zs) :
  let X := O2 m zs in
  [/\ ckf_filter qr o X = kf_filter o X, ckf_smooth qr o X = kf_smooth o X &
      forall ln ln2pi, ckf_loglikelihood qr ln ln2pi o X = kf_loglikelihood ln ln2pi o X].
Proof. exact: (ch_equal Hqr Ho Hsz Hk). Qed.
Print Assumptions C28_cholesky_equals_kalman_partial.

(** EM: as long as the parameters reached by KalmanFilter.em stay positive
    definite the two classes walk through the same parameters *)
Theorem C28_em_equals_kalman (R : rcfType) (qr : qr_fun R) (Hqr : qr_valid qr) n m (o : kf R) T (M : lgm R n m)
    (Ho : pd_kf o T M) (zs : seq (orow R m)) (Hsz : size zs = T) (Hk : keeps zs) e N
    (H : forall i, (i < N)%N -> exists M' : lgm R n m, pd_kf (kf_em o (O2 m zs) i (Some e)).1 T M') :
  ckf_em qr o (O2 m zs) N (Some e) = kf_em o (O2 m zs) N (Some e).
Proof. exact: (ch_em_equal Hqr Ho Hsz Hk H). Qed.
Print Assumptions C28_em_equals_kalman.

(** which is guaranteed unless the observation covariance is estimated *)
Theorem C28_em_estimates_states (R : rcfType) (qr : qr_fun R) (Hqr : qr_valid qr) n m (o : kf R) T (M : lgm R n m)
    (Ho : pd_kf o T M) (T1 : (1 < T)%N) (zs : seq (orow R m)) (Hsz : size zs = T) (Hk : keeps zs) e N
    (Hoc : ~ selects e Oc) :
  ckf_em qr o (O2 m zs) N (Some e) = kf_em o (O2 m zs) N (Some e) /\ (kf_em o (O2 m zs) N (Some e)).2 = Ok tt.
Proof. exact: (ch_em_fixed N Hqr Ho T1 Hsz Hk Hoc). Qed.
Print Assumptions C28_em_estimates_states.

(** outside the positive definite domain the class raises, where KalmanFilter computes *)
Theorem C28_not_positive_definite (R : rcfType) (qr : qr_fun R) n m (o : kf R) T (M : lgm R n m) (Ho : kf_model o T M)
    (Q : 'M[R]_n) (Rc : 'M[R]_m) (HQ : cov_is (k_tc o) Q) (HR : cov_is (k_oc o) Rc)
    (sQ : Q^T = Q) (sR : Rc^T = Rc) (sP : (mP M)^T = mP M) (N : ~ (pd Q /\ pd Rc /\ pd (mP M)))
    k (zs : seq (orow R k)) :
  ckf_filter qr o (O2 k zs) = Err LinAlgError.
Proof. exact: (ch_not_pd qr zs Ho HQ HR sQ sR sP N). Qed.
Print Assumptions C28_not_positive_definite.

Theorem C28_varying_covariance_rejected (R : rcfType) (qr : qr_fun R) n m (o : kf R) T (M : lgm R n m) (Ho : kf_model o T M)
    a b (s : seq 'M[R]_(a, b)) (Hs : k_tc o = Some (A3 s)) k (zs : seq (orow R k)) :
  ckf_filter qr o (O2 k zs) = Err ValueError.
Proof. exact: (ch_varying_tc qr zs Ho Hs). Qed.
Print Assumptions C28_varying_covariance_rejected.

(** a QR routine exists; a model with time-varying transitions, correlated
    noise and a missing observation; parameters to estimate; a singular noise *)
Example C28_hypotheses_met (R : rcfType) :
  let e := EmNames [:: "transition_covariance"; "observation_matrices"; "transition_offsets"]%string in
  [/\ exists qr : qr_fun R, qr_valid qr, pd_kf (em_o R) 3 (em_M R), size (ex_zs R) = 3%N /\ keeps (ex_zs R),
      ~ selects e Oc &
      [/\ kf_model (ex_o R) 3 (ex_M R), cov_is (k_tc (ex_o R)) (proj R) & ~ pd (proj R)]].
Proof.
move=> e; split=> //.
- by exists (@qr_hh R); exact: qr_hh_valid.
- exact: em_o_pd.
- by move=> /= H; repeat (case: H => // H).
- by split; [exact: ex_model| |exact: proj_not_pd].
Qed.

(** ** C05 (CholeskyKalmanFilter) *)
Theorem C05_cholesky_causal (R : rcfType) (qr : qr_fun R) (o : kf R) k (zs : seq (orow R k)) rows j :
  keeps zs -> keeps (take j zs) ->
  ckf_filter qr o (O2 k zs) = Ok rows -> ckf_filter qr o (O2 k (take j zs)) = Ok (take j rows).
Proof. exact: ckf_filter_take. Qed.
Print Assumptions C05_cholesky_causal.

Theorem C05_cholesky_future_irrelevant (R : rcfType) (qr : qr_fun R) (o : kf R) k (zs zs' : seq (orow R k)) rows rows' j :
  keeps zs -> keeps zs' -> take j zs = take j zs' ->
  ckf_filter qr o (O2 k zs) = Ok rows -> ckf_filter qr o (O2 k zs') = Ok rows' -> take j rows = take j rows'.
Proof. exact: ckf_filter_agree. Qed.
Print Assumptions C05_cholesky_future_irrelevant.

(** ** C06 (CholeskyKalmanFilter) *)
Theorem C06_cholesky_mask_hides (R : rcfType) (qr : qr_fun R) (o : kf R) k (zs zs' : seq (orow R k))
    (Hk : keeps zs) (H : same_visible_rows zs zs') :
  [/\ ckf_filter qr o (O2 k zs) = ckf_filter qr o (O2 k zs'), ckf_smooth qr o (O2 k zs) = ckf_smooth qr o (O2 k zs'),
      forall ln ln2pi, ckf_loglikelihood qr ln ln2pi o (O2 k zs) = ckf_loglikelihood qr ln ln2pi o (O2 k zs') &
      forall i ev, ckf_em qr o (O2 k zs) i ev = ckf_em qr o (O2 k zs') i ev].
Proof. exact: (ckf_mask_hides qr o Hk H). Qed.
Print Assumptions C06_cholesky_mask_hides.

(** ** C32 *)
(** the statement for CholeskyKalmanFilter would read: for all valid inputs
    the result is [Ok (A1 mu', A2 P')]; the code returns a stack of one matrix *)
Theorem C32_cholesky_shape_refuted (R : rcfType) (qr : qr_fun R) (Hqr : qr_valid qr) n m (o : kf R) T (M : lgm R n m)
    (Ho : kf_model o T M) (m0 : (0 < m)%N) t (r : orow R m) u (mu : 'cV[R]_n) (P : 'M[R]_n)
    (tT : (t.+1 < T)%N) (Hu : step_args o M t r u) (HQ : pd (mQ M t)) (HR : pd (mR M t.+1)) (HP : pd P) :
  exists (mu' : 'cV[R]_n) (P' : 'M[R]_n), update o (A1 mu, A2 P) u = Ok (A1 mu', A2 P')
    /\ ckf_update qr o (A1 mu, A2 P) u = Ok (A1 mu', A3 [:: P']).
Proof. exact: (ch_update_ok Ho m0 mu Hqr tT Hu HQ HR HP). Qed.
Print Assumptions C32_cholesky_shape_refuted.

(** and the result cannot be passed to the next call *)
Theorem C32_cholesky_chain_refuted (R : rcfType) (qr : qr_fun R) (Hqr : qr_valid qr) n m (o : kf R) T (M : lgm R n m)
    (Ho : kf_model o T M) (m0 : (0 < m)%N) t (r r' : orow R m) u u' (mu : 'cV[R]_n) (P : 'M[R]_n)
    (tT : (t.+2 < T)%N) (Hu : step_args o M t r u) (Hu' : step_args o M t.+1 r' u')
    (HQ : pd (mQ M t)) (HR : pd (mR M t.+1)) (HQ' : pd (mQ M t.+1)) (HR' : pd (mR M t.+2)) (HP : pd P) :
  (s <-- ckf_update qr o (A1 mu, A2 P) u ;; ckf_update qr o s u') = Err ValueError.
Proof. exact: (ch_chain_fails mu Ho m0 Hqr tT Hu Hu' HQ HR HQ' HR' HP). Qed.
Print Assumptions C32_cholesky_chain_refuted.

Example C32_cholesky_hypotheses_met (R : rcfType) (r : orow R 2) :
  let M := dflt_model R 3 2 in
  [/\ kf_model (dflt_obj R 3 2) 5 M, step_args (dflt_obj R 3 2) M 0 r (row_args r),
      step_args (dflt_obj R 3 2) M 1 r (row_args r), pd (mQ M 0) & pd (mR M 1)].
Proof.
by split; [exact: dflt_is_model|exact: dflt_args_ok|exact: dflt_args_ok|exact: pd1|exact: pd1].
Qed.

(** ** C33 *)
(** [em(X)] on an object constructed without [em_vars] *)
Theorem C33_cholesky_refuted (R : rcfType) (qr : qr_fun R) (o : kf R) X N (Hs : seed_ok (k_rs o)) (He : k_em o = None) :
  (ckf_em qr o X N None).2 = Err TypeError /\
  forall x, attribute (ckf_em qr o X N None).1 x = Some (initial_value o x).
Proof. exact: (ckf_em_default' qr X N Hs He). Qed.
Print Assumptions C33_cholesky_refuted.

Theorem C33_kalman_partial (R : rcfType) (o : kf R) X N (a : kfargs R) (Hi : kf_init a = Ok o) (Ha : a_em a = None) :
  kf_em o X N None = kf_em o X N (Some (EmNames [:: "transition_covariance"; "observation_covariance";
    "initial_state_mean"; "initial_state_covariance"]%string)).
Proof. exact: (kf_em_default X N Hi Ha). Qed.
Print Assumptions C33_kalman_partial.

Example C33_hypotheses_met (R : rcfType) :
  [/\ kf_init (dflt_args R 2 1) = Ok (dflt_obj R 2 1), a_em (dflt_args R 2 1) = None, k_em (dflt_obj R 2 1) = None &
      seed_ok (k_rs (dflt_obj R 2 1))].
Proof. by split=> //; exact: dflt_init. Qed.

(** ** C43 (CholeskyKalmanFilter) *)
Theorem C43_cholesky_wrong_width_rejected_partial (R : rcfType) (qr : qr_fun R) n m (o : kf R) T (M : lgm R n m) (Ho : pd_kf o T M)
    (m1 : m <> 1%N) k (Hkm : k <> m) (zs : seq (orow R k)) (Hsz : size zs = T) (Hk : keeps zs)
    (Hv : has (fun z : orow R k => ~~ missing z) zs) :
  ckf_filter qr o (O2 k zs) = Err ValueError.
Proof. exact: (ch_width qr Ho Hkm (introN eqP m1) Hsz Hk Hv). Qed.
Print Assumptions C43_cholesky_wrong_width_rejected_partial.

(** with one observed dimension the claim fails: whatever the number of
    columns, the filter returns estimates *)
Theorem C43_cholesky_one_dimension_refuted (R : rcfType) (qr : qr_fun R) n (o : kf R) T (M : lgm R n 1) (Ho : pd_kf o T M)
    k (zs : seq (orow R k)) (Hsz : size zs = T) (Hk : keeps zs) :
  exists rows, ckf_filter qr o (O2 k zs) = Ok rows /\ size rows = T.
Proof. exact: (ch_wide_accepted qr Ho Hsz Hk). Qed.
Print Assumptions C43_cholesky_one_dimension_refuted.

Example C43_cholesky_hypotheses_met (R : rcfType) :
  let zs := nseq 3 (mk_row false (0 : 'cV[R]_3)) in
  [/\ pd_kf (em_o R) 3 (em_M R), size zs = 3%N, keeps zs, has (fun z : orow R 3 => ~~ missing z) zs &
      pd_kf (dflt_obj R 2 1) 3 (dflt_model R 2 1)].
Proof. by split=> //; [exact: em_o_pd|rewrite /= missing_row|exact: dflt_pd]. Qed.
