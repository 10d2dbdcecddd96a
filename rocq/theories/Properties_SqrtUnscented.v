(** Property theorems about the square-root unscented filter (pykalman/sqrt/unscented.py),
    for every QR routine. *)
From Coq Require Import String List.
From mathcomp Require Import all_ssreflect all_algebra.
From Verif Require Import Prelude LinAlg Numpy Sklearn Standard Model KfSpec StandardInit EmSpec Rng Sqrt SqrtFacts Unscented UscSpec
  UscProps SqrtUnscented CuFacts SuTri SuFacts SuStep SuMain SuNeg SuNeg2 SuProps SuProps2 UscMask SuStruct UscShape Examples ExamplesEm ExamplesUsc.
Import GRing.Theory Num.Theory.

Set Implicit Arguments.
Unset Strict Implicit.
Unset Printing Implicit Defensive.
Local Open Scope ring_scope.

(** ** C45 *)
Theorem C45_cholupdate (R : rcfType) n v (A : 'M[R]_n) (X : 'M[R]_(v, n)) (weight : R)
    (HA : upper A) (Hd : forall i, 0 < A i i) (Hpd : pd (A^T *m A + weight *: (X^T *m X))) :
  exists2 F, cholupdate (A2 A) (A2 X) weight = Ok (A2 F) & is_chol (A^T *m A + weight *: (X^T *m X)) F.
Proof. exact: (cholupdate_chol HA Hd Hpd). Qed.
Print Assumptions C45_cholupdate.

(** a one-dimensional array is one vector *)
Theorem C45_cholupdate_vector (R : rcfType) n (A : 'M[R]_n) (x : 'cV[R]_n) (weight : R)
    (HA : upper A) (Hd : forall i, 0 < A i i) (Hpd : pd (A^T *m A + weight *: (x *m x^T))) :
  exists2 F, cholupdate (A2 A) (A1 x) weight = Ok (A2 F) & is_chol (A^T *m A + weight *: (x *m x^T)) F.
Proof. exact: (cholupdate_vec HA Hd Hpd). Qed.
Print Assumptions C45_cholupdate_vector.

(** a downdate with two vectors *)
Example C45_hypotheses_met (R : rcfType) :
  [/\ upper (2%:R%:M : 'M[R]_2), forall i, 0 < (2%:R%:M : 'M[R]_2) i i &
      pd ((2%:R%:M : 'M[R]_2)^T *m 2%:R%:M + (-1) *: ((1%:M : 'M[R]_2)^T *m 1%:M))].
Proof.
split; [exact: down_upper|move=> i; rewrite down_diag; exact: ltr0Sn|exact: down_pd (two_sq R)].
Qed.

(** ** C44

    Holds when at most one component is observed, the transition covariance
    is diagonal, and either the state has at most three components or the
    functions are affine; refuted outside each of these three conditions. *)
Theorem C44_equals_plain_partial (R : rcfType) (qr : qr_fun R) (Hqr : qr_valid qr) n m (o : ukf R) T
    (f : nat -> 'cV[R]_n -> 'cV[R]_n) (g : nat -> 'cV[R]_n -> 'cV[R]_m) (Q : 'M[R]_n) (Rn : 'M[R]_m) mu0 P0
    (HM : aukf_model o T f g Q Rn mu0 P0) (HR : pd Rn) (HP : pd P0) (HQ : pd Q) (dQ : is_diag_mx Q)
    (Hf : forall t, (t < T.-1)%N -> tame (f t)) (zs : seq (orow R m)) (Hsz : size zs = T) (Hk : keeps zs)
    (Hg : forall t, (t < T)%N -> stream zs t = None \/ (m <= 1)%N /\ tame (g t)) :
  sukf_filter qr o (O2 m zs) = aukf_filter o (O2 m zs) /\ is_ok (aukf_filter o (O2 m zs)).
Proof. exact: (sukf_same Hqr HM HR HP HQ dQ Hf Hsz Hk Hg). Qed.
Print Assumptions C44_equals_plain_partial.

(** non-linear, two states, one observation, second time step missing *)
Example C44_hypotheses_met (R : rcfType) :
  [/\ aukf_model (sq_o R) 3 (sq_f (R:=R)) (sq_g (R:=R)) 1%:M 1%:M (e0 R) (proj R + 1%:M), pd (proj R + 1%:M),
      is_diag_mx (1%:M : 'M[R]_2), forall t, tame (@sq_f R t) & forall t, tame (@sq_g R t)].
Proof. by split; [exact: sq_model|exact: pp_pd|exact: scalar_mx_is_diag|left|left]. Qed.

(** two observed components: another gain, hence another mean *)
Theorem C44_vector_observations_refuted (R : rcfType) (qr : qr_fun R) (Hqr : qr_valid qr) :
  exists (o : ukf R) f g (Q : 'M[R]_1) (Rn : 'M[R]_2) mu0 P0 zs,
    [/\ aukf_model o 2 f g Q Rn mu0 P0, [/\ pd Rn, pd P0, pd Q & is_diag_mx Q], size zs = 2%N &
        exists (mu mu' : 'cV[R]_1) c c' rows rows',
          [/\ sukf_filter qr o (O2 2 zs) = Ok ((A1 mu, c) :: rows),
              aukf_filter o (O2 2 zs) = Ok ((A1 mu', c') :: rows') & mu <> mu']].
Proof. exact: (two_refuted Hqr). Qed.
Print Assumptions C44_vector_observations_refuted.

(** every transition covariance that is not diagonal *)
Theorem C44_correlated_noise_refuted (R : rcfType) (qr : qr_fun R) (Hqr : qr_valid qr) n m (o : ukf R)
    (f : nat -> 'cV[R]_n -> 'cV[R]_n) (g : nat -> 'cV[R]_n -> 'cV[R]_m) (Q : 'M[R]_n) (Rn : 'M[R]_m) mu0 P0
    (HM : aukf_model o 2 f g Q Rn mu0 P0) (HR : pd Rn) (HP : pd P0) (HQ : pd Q) (dQ : ~~ is_diag_mx Q)
    (Hf : tame (f 0%N)) (z0 z1 : orow R m) (M0 : missing z0) (M1 : missing z1) :
  exists r0 (mu : 'cV[R]_n) (S S' : 'M[R]_n),
    [/\ sukf_filter qr o (O2 m [:: z0; z1]) = Ok [:: r0; (A1 mu, A2 S)],
        aukf_filter o (O2 m [:: z0; z1]) = Ok [:: r0; (A1 mu, A2 S')] & S <> S'].
Proof. exact: (nondiag_refuted Hqr HM HR HP HQ dQ Hf M0 M1). Qed.
Print Assumptions C44_correlated_noise_refuted.

Example C44_correlated_noise_hypotheses_met (R : rcfType) :
  [/\ aukf_model (corr_o R) 2 (fun _ => id) (fun _ _ => 0) (corr_Q R) (1%:M : 'M[R]_1) 0 1%:M, pd (corr_Q R),
      ~~ is_diag_mx (corr_Q R), tame (id : 'cV[R]_2 -> 'cV[R]_2) & missing (mk_row true (0 : 'cV[R]_1))].
Proof. by split; [exact: corr_model|exact: corr_Q_pd|exact: corr_Q_nondiag|left|rewrite missing_row]. Qed.

(** every state dimension above three: the negative central weight is lost *)
Theorem C44_negative_weight_refuted (R : rcfType) (qr : qr_fun R) (Hqr : qr_valid qr) n m (n3 : (3 < n)%N)
    (z0 z1 : orow R m) (M0 : missing z0) (M1 : missing z1) :
  exists (o : ukf R) f g (Q : 'M[R]_n) (Rn : 'M[R]_m) mu0 P0,
    [/\ aukf_model o 2 f g Q Rn mu0 P0, [/\ pd Rn, pd P0, pd Q & is_diag_mx Q] &
        exists r0 (mu : 'cV[R]_n) (S S' : 'M[R]_n),
          [/\ sukf_filter qr o (O2 m [:: z0; z1]) = Ok [:: r0; (A1 mu, A2 S)],
              aukf_filter o (O2 m [:: z0; z1]) = Ok [:: r0; (A1 mu, A2 S')] & S <> S']].
Proof. exact: (neg_weight_refuted Hqr n3 M0 M1). Qed.
Print Assumptions C44_negative_weight_refuted.

(** ** C46

    False: the smoother downdates by matrices that make the corrected factor
    singular, and divides by its zero pivot. *)

(** last observation missing: never finite, whatever the model *)
Theorem C46_missing_last_refuted (R : rcfType) (qr : qr_fun R) (Hqr : qr_valid qr) n m (o : ukf R) T
    (f : nat -> 'cV[R]_n -> 'cV[R]_n) (g : nat -> 'cV[R]_n -> 'cV[R]_m) (Q : 'M[R]_n) (Rn : 'M[R]_m) mu0 P0
    (HM : aukf_model o T f g Q Rn mu0 P0) (zs : seq (orow R m)) (Hsz : size zs = T) (Hk : keeps zs) rows
    (Hn : (1 < n)%N) (HT : (1 < T)%N) (Hlast : stream zs T.-1 = None)
    (Hok : sukf_filter qr o (O2 m zs) = Ok rows) :
  sukf_smooth qr o (O2 m zs) = Err NotANumber.
Proof. exact: (last_missing_fails Hqr HM Hsz Hk Hn HT Hlast Hok). Qed.
Print Assumptions C46_missing_last_refuted.

Example C46_missing_last_hypotheses_met (R : rcfType) (qr : qr_fun R) (Hqr : qr_valid qr) :
  [/\ aukf_model (walk_o R 1) 2 (@walk_f R 1) (@walk_g R 1) 1%:M 1%:M 0 1%:M, keeps (walk_zs R true),
      stream (walk_zs R true) 1 = None & is_ok (sukf_filter qr (walk_o R 1) (O2 1 (walk_zs R true)))].
Proof. by split; [exact: walk_model| |exact: walk_missing|exact: walk_ok]. Qed.

(** at least two more state than observation components: never finite *)
Theorem C46_few_observations_refuted (R : rcfType) (qr : qr_fun R) (Hqr : qr_valid qr) n m (o : ukf R) T
    (f : nat -> 'cV[R]_n -> 'cV[R]_n) (g : nat -> 'cV[R]_n -> 'cV[R]_m) (Q : 'M[R]_n) (Rn : 'M[R]_m) mu0 P0
    (HM : aukf_model o T f g Q Rn mu0 P0) (zs : seq (orow R m)) (Hsz : size zs = T) (Hk : keeps zs) rows
    (Hn : (m.+1 < n)%N) (HT : (1 < T)%N) (Hok : sukf_filter qr o (O2 m zs) = Ok rows) :
  sukf_smooth qr o (O2 m zs) = Err NotANumber.
Proof. exact: (few_obs_fails Hqr HM Hsz Hk Hn HT Hok). Qed.
Print Assumptions C46_few_observations_refuted.

Example C46_few_observations_hypotheses_met (R : rcfType) (qr : qr_fun R) (Hqr : qr_valid qr) :
  [/\ aukf_model (walk_o R 2) 2 (@walk_f R 2) (@walk_g R 2) 1%:M 1%:M 0 1%:M, keeps (walk_zs R false)
    & is_ok (sukf_filter qr (walk_o R 2) (O2 1 (walk_zs R false)))].
Proof. by split; [exact: walk_model| |exact: walk_ok]. Qed.

(** where the filter is right, a finite smoother output is right too *)
Theorem C46_finite_is_right_partial (R : rcfType) (qr : qr_fun R) (Hqr : qr_valid qr) n m (o : ukf R) T
    (f : nat -> 'cV[R]_n -> 'cV[R]_n) (g : nat -> 'cV[R]_n -> 'cV[R]_m) (Q : 'M[R]_n) (Rn : 'M[R]_m) mu0 P0
    (HM : aukf_model o T f g Q Rn mu0 P0) (zs : seq (orow R m)) (Hsz : size zs = T) (Hk : keeps zs)
    (HR : pd Rn) (HP : pd P0) (HQ : pd Q) (dQ : is_diag_mx Q) (Hf : forall t, (t < T.-1)%N -> tame (f t))
    (Hg : forall t, (t < T)%N -> stream zs t = None \/ (m <= 1)%N /\ tame (g t)) (HT : (0 < T)%N) :
  is_ok (aukf_smooth o (O2 m zs)) /\
  (sukf_smooth qr o (O2 m zs) = Err NotANumber \/ sukf_smooth qr o (O2 m zs) = aukf_smooth o (O2 m zs)).
Proof. exact: (finite_right Hqr HM Hsz Hk HR HP HQ dQ Hf Hg HT). Qed.
Print Assumptions C46_finite_is_right_partial.

(** one state component: always finite and right *)
Theorem C46_scalar_state_partial (R : rcfType) (qr : qr_fun R) (Hqr : qr_valid qr) n m (o : ukf R) T
    (f : nat -> 'cV[R]_n -> 'cV[R]_n) (g : nat -> 'cV[R]_n -> 'cV[R]_m) (Q : 'M[R]_n) (Rn : 'M[R]_m) mu0 P0
    (HM : aukf_model o T f g Q Rn mu0 P0) (zs : seq (orow R m)) (Hsz : size zs = T) (Hk : keeps zs)
    (HR : pd Rn) (HP : pd P0) (HQ : pd Q) (dQ : is_diag_mx Q) (Hf : forall t, (t < T.-1)%N -> tame (f t))
    (Hg : forall t, (t < T)%N -> stream zs t = None \/ (m <= 1)%N /\ tame (g t)) (HT : (0 < T)%N) (Hn : (n <= 1)%N) :
  is_ok (aukf_smooth o (O2 m zs)) /\ sukf_smooth qr o (O2 m zs) = aukf_smooth o (O2 m zs).
Proof. exact: (scalar_right Hqr HM Hsz Hk HR HP HQ dQ Hf Hg HT Hn). Qed.
Print Assumptions C46_scalar_state_partial.

Example C46_scalar_hypotheses_met (R : rcfType) :
  [/\ aukf_model (walk_o R 0) 2 (@walk_f R 0) (@walk_g R 0) 1%:M 1%:M 0 1%:M, pd (1%:M : 'M[R]_1),
      is_diag_mx (1%:M : 'M[R]_1), forall t, tame (@walk_f R 0 t) & forall t, tame (@walk_g R 0 t)].
Proof. by split; [exact: walk_model|exact: pd1|exact: scalar_mx_is_diag|move=> t; exact: walk_f_tame|move=> t; exact: walk_g_tame]. Qed.

(** ** C05 (square-root unscented filter) *)
Theorem C05_sqrt_unscented_causal (R : rcfType) (qr : qr_fun R) (o : ukf R) k (zs : seq (orow R k)) rows j
    (Hk : keeps zs) (Hj : keeps (take j zs)) (Hf : sukf_filter qr o (O2 k zs) = Ok rows) :
  sukf_filter qr o (O2 k (take j zs)) = Ok (take j rows) /\ size rows = size zs.
Proof. exact: (sukf_take Hk Hj Hf). Qed.
Print Assumptions C05_sqrt_unscented_causal.

Theorem C05_sqrt_unscented_future_irrelevant (R : rcfType) (qr : qr_fun R) (o : ukf R) k (zs zs' : seq (orow R k)) rows rows' j
    (Hk : keeps zs) (Hk' : keeps zs') (Hj : keeps (take j zs)) (E : take j zs = take j zs')
    (Hf : sukf_filter qr o (O2 k zs) = Ok rows) (Hf' : sukf_filter qr o (O2 k zs') = Ok rows') : take j rows = take j rows'.
Proof. exact: (sukf_future Hk Hk' Hj E Hf Hf'). Qed.
Print Assumptions C05_sqrt_unscented_future_irrelevant.

Example C05_sqrt_unscented_hypotheses_met (R : rcfType) (qr : qr_fun R) (Hqr : qr_valid qr) :
  [/\ keeps (walk_zs R true), keeps (take 1 (walk_zs R true)), take 1 (walk_zs R true) = take 1 (walk_zs R false),
      is_ok (sukf_filter qr (walk_o R 1) (O2 1 (walk_zs R true))) & is_ok (sukf_filter qr (walk_o R 1) (O2 1 (walk_zs R false)))].
Proof. by split; [| | |exact: walk_ok|exact: walk_ok]. Qed.

(** ** C06 (all unscented filters) *)
Theorem C06_unscented_mask_hides (R : rcfType) (qr : qr_fun R) (o : ukf R) k (zs zs' : seq (orow R k))
    (Hk : keeps zs) (H : same_visible_rows zs zs') :
  [/\ ukf_filter o (O2 k zs) = ukf_filter o (O2 k zs') /\ ukf_smooth o (O2 k zs) = ukf_smooth o (O2 k zs'),
      aukf_filter o (O2 k zs) = aukf_filter o (O2 k zs') /\ aukf_smooth o (O2 k zs) = aukf_smooth o (O2 k zs') &
      sukf_filter qr o (O2 k zs) = sukf_filter qr o (O2 k zs') /\ sukf_smooth qr o (O2 k zs) = sukf_smooth qr o (O2 k zs')].
Proof. exact: And3 (ukf_mask Hk H o) (aukf_mask Hk H o) (sukf_mask Hk H qr o). Qed.
Print Assumptions C06_unscented_mask_hides.

Theorem C06_unscented_update_mask_hides (R : rcfType) (qr : qr_fun R) (o : ukf R) fm fc a a' f tc g oc :
  [/\ ukf_filter_update o fm fc (Some (a, true)) f tc g oc = ukf_filter_update o fm fc (Some (a', true)) f tc g oc,
      aukf_filter_update o fm fc (Some (a, true)) f tc g oc = aukf_filter_update o fm fc (Some (a', true)) f tc g oc &
      sukf_filter_update qr o fm fc (Some (a, true)) f tc g oc = sukf_filter_update qr o fm fc (Some (a', true)) f tc g oc].
Proof. exact: update_blind. Qed.
Print Assumptions C06_unscented_update_mask_hides.

Example C06_unscented_hypotheses_met (R : rcfType) :
  let zs := [:: mk_row true (const_mx 2%:R : 'cV[R]_2); mk_row false (const_mx 3%:R)] in
  let zs' := [:: mk_row true (const_mx 5%:R : 'cV[R]_2); mk_row false (const_mx 3%:R)] in
  [/\ keeps zs, same_visible_rows zs zs' & zs <> zs'].
Proof. exact: masked_pair. Qed.

(** ** C32 (square-root unscented filter) *)
(** the plain filter returns a matrix, the square-root one a stack of one matrix *)
Theorem C32_sqrt_unscented_shape_refuted (R : rcfType) (qr : qr_fun R) (Hqr : qr_valid qr) n m (o : ukf R) T
    (f : nat -> 'cV[R]_n -> 'cV[R]_n) (g : nat -> 'cV[R]_n -> 'cV[R]_m) (Q : 'M[R]_n) (Rn : 'M[R]_m) mu0 P0
    (HM : aukf_model o T f g Q Rn mu0 P0) (HR : pd Rn) (HQ : pd Q) (dQ : is_diag_mx Q)
    t (r : orow R m) u (mu : 'cV[R]_n) (P : 'M[R]_n) (tT : (t.+1 < T)%N) (Hu : aukf_args o f g Q Rn t r u) (HP : pd P)
    (Hf : tame (f t)) (Hg : missing r \/ (m <= 1)%N /\ tame (g t.+1)) :
  exists (mu' : 'cV[R]_n) (P' : 'M[R]_n), [/\ uupdate (@aukf_filter_update R) o (A1 mu, A2 P) u = Ok (A1 mu', A2 P'),
    uupdate (@sukf_filter_update R qr) o (A1 mu, A2 P) u = Ok (A1 mu', A3 [:: P']) & pd P'].
Proof. exact: (sukf_updateE Hqr HM HR HQ dQ mu tT Hu HP Hf Hg). Qed.
Print Assumptions C32_sqrt_unscented_shape_refuted.

(** no stack is accepted by the next call *)
Theorem C32_sqrt_unscented_chain_refuted (R : rcfType) (qr : qr_fun R) n m (o : ukf R) T
    (f : nat -> 'cV[R]_n -> 'cV[R]_n) (g : nat -> 'cV[R]_n -> 'cV[R]_m) (Q : 'M[R]_n) (Rn : 'M[R]_m) mu0 P0
    (HM : aukf_model o T f g Q Rn mu0 P0) t (r : orow R m) u mu Cs (tT : (t.+1 < T)%N) (Hu : aukf_args o f g Q Rn t r u) :
  uupdate (@sukf_filter_update R qr) o (mu, @A3 R n n Cs) u = Err ValueError.
Proof. exact: (sukf_chain qr HM mu Cs tT Hu). Qed.
Print Assumptions C32_sqrt_unscented_chain_refuted.

Example C32_sqrt_unscented_hypotheses_met (R : rcfType) (r : orow R 1) :
  [/\ aukf_model (walk_o R 1) 2 (@walk_f R 1) (@walk_g R 1) 1%:M 1%:M 0 1%:M,
      aukf_args (walk_o R 1) (@walk_f R 1) (@walk_g R 1) 1%:M 1%:M 0 r (walk_args 1 r), pd (1%:M : 'M[R]_2),
      forall t, tame (@walk_f R 1 t) & forall t, tame (@walk_g R 1 t)].
Proof. by split; [exact: walk_model|exact: walk_args_ok|exact: pd1|move=> t; exact: walk_f_tame|move=> t; exact: walk_g_tame]. Qed.

(** ** C43 (square-root unscented filter) *)
Theorem C43_sqrt_unscented_wrong_width_rejected_partial (R : rcfType) (qr : qr_fun R) (Hqr : qr_valid qr) n m (o : ukf R) T
    (f : nat -> 'cV[R]_n -> 'cV[R]_n) (g : nat -> 'cV[R]_n -> 'cV[R]_m) (Q : 'M[R]_n) (Rn : 'M[R]_m) mu0 P0
    (HM : aukf_model o T f g Q Rn mu0 P0) (HR : pd Rn) (HP : pd P0) (HQ : pd Q) k (zs : seq (orow R k))
    (Hkm : k <> m) (Hk1 : k <> 1%N) (Hsz : size zs = T) (Hk : keeps zs) (Hv : has (fun z : orow R k => ~~ missing z) zs) :
  sukf_filter qr o (O2 k zs) = Err ValueError.
Proof. exact: (sukf_width Hqr HM HR HP HQ Hkm Hk1 Hsz Hk Hv). Qed.
Print Assumptions C43_sqrt_unscented_wrong_width_rejected_partial.

(** one column is read as if repeated [m] times *)
Theorem C43_sqrt_unscented_one_column_broadcast (R : rcfType) (qr : qr_fun R) (Hqr : qr_valid qr) n m (o : ukf R) T
    (f : nat -> 'cV[R]_n -> 'cV[R]_n) (g : nat -> 'cV[R]_n -> 'cV[R]_m) (Q : 'M[R]_n) (Rn : 'M[R]_m) mu0 P0
    (HM : aukf_model o T f g Q Rn mu0 P0) (HR : pd Rn) (HP : pd P0) (HQ : pd Q) (zs : seq (orow R 1))
    (Hm : (0 < m)%N) (Hsz : size zs = T) (HT : T <> 1%N) :
  sukf_filter qr o (O2 1 zs) = sukf_filter qr o (O2 m (map (widen m) zs)).
Proof. exact: (sukf_widen Hqr HM HR HP HQ Hm Hsz HT). Qed.
Print Assumptions C43_sqrt_unscented_one_column_broadcast.

Example C43_sqrt_unscented_hypotheses_met (R : rcfType) :
  let zs := nseq 2 (mk_row false (0 : 'cV[R]_3)) in
  [/\ aukf_model (walk_o R 1) 2 (@walk_f R 1) (@walk_g R 1) 1%:M 1%:M 0 1%:M, size zs = 2%N, keeps zs &
      has (fun z : orow R 3 => ~~ missing z) zs].
Proof. by split=> //; [exact: walk_model|rewrite /= missing_row]. Qed.
