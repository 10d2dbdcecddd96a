(** Property theorems about the unscented filters (pykalman/unscented.py). *)
From Coq Require Import String List.
From mathcomp Require Import all_ssreflect all_algebra.
From Verif Require Import Prelude LinAlg Numpy Sklearn Standard Model KfSpec StandardInit EmSpec Rng Unscented UscSpec UscRefine
  UscMain UscLinear UscOnline UscShape UscProps UscPsd UscNeg Examples ExamplesEm ExamplesUsc.
Import GRing.Theory Num.Theory.

Set Implicit Arguments.
Unset Strict Implicit.
Unset Printing Implicit Defensive.
Local Open Scope ring_scope.

(** ** C37 *)
Theorem C37_sigma_points_exact (R : rcfType) n (mu : 'cV[R]_n) (S : 'M[R]_n) a b k (HS : pd S)
    (Hc : let al := odflt 1 a in 0 < al * al * (n%:R + odflt (3%:R - n%:R) k)) :
  exists (P : 'M[R]_((n + n).+1, n)) (wm wc : 'cV[R]_((n + n).+1)),
    [/\ moments2points (A1 mu, A2 S) a b k = Ok (SigmaPoints (A2 P) (A1 wm) (A1 wc)),
        \sum_i wm i 0 = 1 &
        points2moments (SigmaPoints (A2 P) (A1 wm) (A1 wc)) None = Ok (A1 mu, A2 S)].
Proof. exact: (m2p_exact mu b HS Hc). Qed.
Print Assumptions C37_sigma_points_exact.

Theorem C37_not_positive_definite (R : rcfType) n (mu : 'cV[R]_n) (S : 'M[R]_n) a b k (HS : S^T = S) (Hn : ~ pd S) :
  moments2points (A1 mu, A2 S) a b k = Err LinAlgError.
Proof. exact: (m2p_not_pd mu a b k HS Hn). Qed.
Print Assumptions C37_not_positive_definite.

(** default scaling and an explicit one; a singular covariance *)
Example C37_hypotheses_met (R : rcfType) :
  [/\ pd (proj R + 1%:M), (0 : R) < 1 * 1 * (2%:R + (3%:R - 2%:R)), (0 : R) < 2%:R^-1 * 2%:R^-1 * (2%:R + 0) & ~ pd (proj R)].
Proof.
split.
- exact: pp_pd.
- by rewrite !mul1r addrC subrK ltr0n.
- by rewrite addr0 !mulr_gt0 ?invr_gt0 ?ltr0n.
- by apply: (@not_pd_diag _ _ _ (lift ord0 ord0)); rewrite !mxE big_ord1 !mxE /= mul0r.
Qed.

(** ** C38 *)
Theorem C38_exact_on_affine (R : rcfType) n p (mu : 'cV[R]_n) (S : 'M[R]_n) a b k (F : pyfun R) (A : 'M[R]_(p, n))
    (c : 'cV[R]_p) (N : option 'M[R]_p) pts (HS : pd S)
    (Hc : 0 < odflt 1 a * odflt 1 a * (n%:R + odflt (3%:R - n%:R) k))
    (HF : fun1 F (fun x => A *m x + c)) (Hp : moments2points (A1 mu, A2 S) a b k = Ok pts) :
  exists pts', unscented_transform pts (Some F) None (omap (fun M : 'M_p => A2 M) N) =
    Ok (pts', (A1 (A *m mu + c), A2 (A *m S *m A^T + odflt 0 N))).
Proof. exact: (ut_affine N HS Hc HF Hp). Qed.
Print Assumptions C38_exact_on_affine.

Example C38_hypotheses_met (R : rcfType) n p (A : 'M[R]_(p, n)) (c : 'cV[R]_p) : exists F : pyfun R, fun1 F (fun x => A *m x + c).
Proof. by exists (pyf1 (fun x => A *m x + c)); exact: pyf1E. Qed.

(** ** C39 *)
Theorem C39_additive_equals_kalman (R : rcfType) n m T (M : lgm R n m) (o : ukf R) (o' : kf R) (Q : 'M[R]_n) (Rn : 'M[R]_m)
    (EQ : forall t, (t < T.-1)%N -> mQ M t = Q) (ER : forall t, (t < T)%N -> mR M t = Rn) (Ho' : kf_model o' T M)
    (zs : seq (orow R m)) (Hsz : size zs = T) (Hk : keeps zs)
    (Ho : aukf_model o T (fun t x => mA M t *m x + mb M t) (fun t x => mC M t *m x + md M t) Q Rn (mmu M) (mP M))
    (Hpd : pd_model (fun t => ~~ isSome (stream zs t)) T M) :
  [/\ aukf_filter o (O2 m zs) = kf_filter o' (O2 m zs),
      (0 < T)%N -> aukf_smooth o (O2 m zs) = kf_smooth o' (O2 m zs) &
      is_ok (aukf_filter o (O2 m zs)) /\ ((0 < T)%N -> is_ok (aukf_smooth o (O2 m zs)))].
Proof. exact: (aukf_is_kf EQ ER Ho' Hsz Hk Ho Hpd). Qed.
Print Assumptions C39_additive_equals_kalman.

Example C39_hypotheses_met (R : rcfType) :
  [/\ kf_model (em_o R) 3 (em_M R), keeps (ex_zs R), pd_model (fun t => ~~ isSome (stream (ex_zs R) t)) 3 (em_M R) &
      aukf_model (add_o R) 3 (fun t x => mA (em_M R) t *m x + mb (em_M R) t) (fun t x => mC (em_M R) t *m x + md (em_M R) t)
        (proj R + 1%:M) 1%:M (mmu (em_M R)) (mP (em_M R))].
Proof. by split; [exact: em_o_model| |exact: em_M_pd|exact: add_o_model]. Qed.

(** ** C40 *)
Theorem C40_augmented_equals_kalman (R : rcfType) n m T (M : lgm R n m) (o : ukf R) (o' : kf R) (Q : 'M[R]_n) (Rn : 'M[R]_m)
    (EQ : forall t, (t < T.-1)%N -> mQ M t = Q) (ER : forall t, (t < T)%N -> mR M t = Rn) (Ho' : kf_model o' T M)
    (zs : seq (orow R m)) (Hsz : size zs = T) (Hk : keeps zs)
    (Ho : ukf_model o T (fun t x w => mA M t *m x + mb M t + w) (fun t x v => mC M t *m x + md M t + v) Q Rn (mmu M) (mP M))
    (HP : pd (mP M)) (HQ : pd Q) (HR : pd Rn) :
  [/\ ukf_filter o (O2 m zs) = kf_filter o' (O2 m zs),
      (0 < T)%N -> ukf_smooth o (O2 m zs) = kf_smooth o' (O2 m zs) &
      is_ok (ukf_filter o (O2 m zs)) /\ ((0 < T)%N -> is_ok (ukf_smooth o (O2 m zs)))].
Proof. exact: (ukf_is_kf EQ ER Ho' Hsz Hk Ho HP HQ HR). Qed.
Print Assumptions C40_augmented_equals_kalman.

Example C40_hypotheses_met (R : rcfType) :
  [/\ kf_model (em_o R) 3 (em_M R), keeps (ex_zs R), pd (proj R + 1%:M) &
      ukf_model (aug_o R) 3 (fun t x w => mA (em_M R) t *m x + mb (em_M R) t + w)
        (fun t x v => mC (em_M R) t *m x + md (em_M R) t + v) (proj R + 1%:M) 1%:M (mmu (em_M R)) (mP (em_M R))].
Proof. by split; [exact: em_o_model| |exact: pp_pd|exact: aug_o_model]. Qed.

(** ** C41 *)
Theorem C41_additive_online_equals_batch (R : rcfType) n m (o : ukf R) (Q : 'M[R]_n) (Rn : 'M[R]_m) mu0 P0 (zs : seq (orow R m))
    f g T rows s st us (HM : aukf_model o T f g Q Rn mu0 P0) (Hsz : size zs = T) (Hk : keeps zs)
    (Hf : aukf_filter o (O2 m zs) = Ok rows) (Hst : List.nth_error rows s = Some st) (Hus : size us = (T - s.+1)%N)
    (Hargs : forall j u r, List.nth_error us j = Some u -> List.nth_error zs (s.+1 + j) = Some r ->
       aukf_args o f g Q Rn (s + j) r u) :
  uupdates (@aukf_filter_update R) o st us = Ok (drop s.+1 rows).
Proof. exact: (aukf_online HM Hsz Hk Hf Hst Hus Hargs). Qed.
Print Assumptions C41_additive_online_equals_batch.

Theorem C41_augmented_online_equals_batch (R : rcfType) n m (o : ukf R) (Q : 'M[R]_n) (Rn : 'M[R]_m) mu0 P0 (zs : seq (orow R m))
    f g T rows s st us (HM : ukf_model o T f g Q Rn mu0 P0) (Hsz : size zs = T) (Hk : keeps zs)
    (Hf : ukf_filter o (O2 m zs) = Ok rows) (Hst : List.nth_error rows s = Some st) (Hus : size us = (T - s.+1)%N)
    (Hargs : forall j u r, List.nth_error us j = Some u -> List.nth_error zs (s.+1 + j) = Some r ->
       ukf_args o f g Q Rn (s + j) r u) :
  uupdates (@ukf_filter_update R) o st us = Ok (drop s.+1 rows).
Proof. exact: (ukf_online HM Hsz Hk Hf Hst Hus Hargs). Qed.
Print Assumptions C41_augmented_online_equals_batch.

(** one more observation: batch filtering succeeds, or fails, exactly as one more update does *)
Theorem C41_additive_one_more (R : rcfType) n m (o : ukf R) (Q : 'M[R]_n) (Rn : 'M[R]_m) mu0 P0 (zs : seq (orow R m))
    f g rows st r u (HM : aukf_model o (size zs).+1 f g Q Rn mu0 P0) (Hk : keeps zs) (Hk' : keeps (zs ++ [:: r]))
    (Hf : aukf_filter o (O2 m zs) = Ok rows) (Hst : List.nth_error rows (size zs).-1 = Some st)
    (Hu : aukf_args o f g Q Rn (size zs).-1 r u) :
  aukf_filter o (O2 m (zs ++ [:: r])) = (s <-- uupdate (@aukf_filter_update R) o st u ;; Ok (rows ++ [:: s])).
Proof. exact: (aukf_step HM Hk Hk' Hf Hst Hu). Qed.
Print Assumptions C41_additive_one_more.

Theorem C41_augmented_one_more (R : rcfType) n m (o : ukf R) (Q : 'M[R]_n) (Rn : 'M[R]_m) mu0 P0 (zs : seq (orow R m))
    f g rows st r u (HM : ukf_model o (size zs).+1 f g Q Rn mu0 P0) (Hk : keeps zs) (Hk' : keeps (zs ++ [:: r]))
    (Hf : ukf_filter o (O2 m zs) = Ok rows) (Hst : List.nth_error rows (size zs).-1 = Some st)
    (Hu : ukf_args o f g Q Rn (size zs).-1 r u) :
  ukf_filter o (O2 m (zs ++ [:: r])) = (s <-- uupdate (@ukf_filter_update R) o st u ;; Ok (rows ++ [:: s])).
Proof. exact: (ukf_step HM Hk Hk' Hf Hst Hu). Qed.
Print Assumptions C41_augmented_one_more.

(** squares and products, second observation missing *)
Example C41_hypotheses_met (R : rcfType) :
  [/\ aukf_model (sq_o R) 3 (sq_f (R:=R)) (sq_g (R:=R)) 1%:M 1%:M (e0 R) (proj R + 1%:M), size (sq_zs R) = 3%N, keeps (sq_zs R),
      exists rows st, aukf_filter (sq_o R) (O2 1 (sq_zs R)) = Ok rows /\ List.nth_error rows 0 = Some st &
      size (sq_us R) = 2%N /\
      forall j u r, List.nth_error (sq_us R) j = Some u -> List.nth_error (sq_zs R) (1 + j) = Some r ->
        aukf_args (sq_o R) (sq_f (R:=R)) (sq_g (R:=R)) 1%:M 1%:M (0 + j) r u].
Proof.
split=> //; first exact: sq_model.
- have [x [s [H _ _]]] := aukf_pd (sq_model R) isT (pd1 _ _) (pd1 _ _) (pp_pd R) (erefl : size (sq_zs R) = 3%N) erefl.
  by do 2 eexists; split; first exact: H.
- by split=> // j u r; exact: sq_us_args.
Qed.
Example C41_augmented_hypotheses_met (R : rcfType) :
  ukf_model (sq2_o R) 3 (sq2_f (R:=R)) (sq2_g (R:=R)) 1%:M 1%:M (e0 R) (proj R + 1%:M) /\
  forall j u r, List.nth_error (sq2_us R) j = Some u -> List.nth_error (sq_zs R) (1 + j) = Some r ->
    ukf_args (sq2_o R) (sq2_f (R:=R)) (sq2_g (R:=R)) 1%:M 1%:M (0 + j) r u.
Proof. by split; [exact: sq2_model|move=> j u r; exact: sq2_us_args]. Qed.

(** ** C42

    Refuted for one-dimensional arrays of functions: only the first is ever
    called.  Functions passed as a two-dimensional array with one column are
    honoured. *)
Theorem C42_one_dimensional_arrays_refuted (R : rcfType) :
  (exists hs : seq (pyfun R), (forall t, (t < 2)%N -> fun1 (nth (fun _ => Err TypeError) hs t) (shift (@late R t))) /\
     aukf_filter (walk (F1 hs)) (O2 1 (blind R)) <> aukf_filter (walk (F2 [seq [:: h] | h <- hs])) (O2 1 (blind R))) /\
  (exists hs : seq (pyfun R), (forall t, (t < 2)%N -> fun2 (nth (fun _ => Err TypeError) hs t) (shift2 (@late R t))) /\
     ukf_filter (walk (F1 hs)) (O2 1 (blind R)) <> ukf_filter (walk (F2 [seq [:: h] | h <- hs])) (O2 1 (blind R))).
Proof. exact: late_refuted. Qed.
Print Assumptions C42_one_dimensional_arrays_refuted.

Theorem C42_only_first_transition_function (R : rcfType) (o : ukf R) h hs X (Hs : seed_ok (o_rs o)) :
  let o' fs := with_f o (Some fs) in
  [/\ aukf_filter (o' (F1 (h :: hs))) X = aukf_filter (o' (F0 h)) X,
      aukf_smooth (o' (F1 (h :: hs))) X = aukf_smooth (o' (F0 h)) X,
      ukf_filter (o' (F1 (h :: hs))) X = ukf_filter (o' (F0 h)) X &
      ukf_smooth (o' (F1 (h :: hs))) X = ukf_smooth (o' (F0 h)) X].
Proof. exact: (only_first h hs X Hs). Qed.
Print Assumptions C42_only_first_transition_function.

Theorem C42_only_first_observation_function (R : rcfType) (o : ukf R) h hs X (Hs : seed_ok (o_rs o)) :
  let o' fs := with_g o (Some fs) in
  aukf_filter (o' (F1 (h :: hs))) X = aukf_filter (o' (F0 h)) X /\
  ukf_filter (o' (F1 (h :: hs))) X = ukf_filter (o' (F0 h)) X.
Proof. exact: (only_first_g h hs X Hs). Qed.
Print Assumptions C42_only_first_observation_function.

(** step [t] uses [f t] and [g t], row [t] of the two arrays: each filtered state comes from the
    previous one by the update given exactly these functions *)
Theorem C42_two_dimensional_arrays_partial (R : rcfType) n m (o : ukf R) T f g (Q : 'M[R]_n) (Rn : 'M[R]_m) mu0 P0 zs
    (HM : aukf_model o T f g Q Rn mu0 P0) (Hsz : size zs = T) (Hk : keeps zs) :
  aukf_filter o (O2 m zs) = mapr (fun t => lift_o (add_filt Q Rn mu0 P0 f g (stream zs) t)) (iota 0 T).
Proof. exact: (aukf_filterE HM Hsz Hk). Qed.
Print Assumptions C42_two_dimensional_arrays_partial.

Theorem C42_two_dimensional_arrays_augmented_partial (R : rcfType) n m (o : ukf R) T f g (Q : 'M[R]_n) (Rn : 'M[R]_m) mu0 P0 zs
    (HM : ukf_model o T f g Q Rn mu0 P0) (Hsz : size zs = T) (Hk : keeps zs) :
  ukf_filter o (O2 m zs) = mapr (fun t => lift_o (aug_filt Q Rn mu0 P0 f g (stream zs) t)) (iota 0 T).
Proof. exact: (ukf_filterE HM Hsz Hk). Qed.
Print Assumptions C42_two_dimensional_arrays_augmented_partial.

Example C42_hypotheses_met (R : rcfType) n m T (f : nat -> 'cV[R]_n -> 'cV[R]_n) (g : nat -> 'cV[R]_n -> 'cV[R]_m) Q Rn mu0 P0 :
  exists o fs gs, [/\ o_f o = Some (F2 fs), o_g o = Some (F2 gs) & aukf_model o T f g Q Rn mu0 P0].
Proof. by do 3 eexists; split; last by apply: (aukf_of_model T f g Q Rn mu0 P0 (rs := None)). Qed.

(** ** C49 *)
Theorem C49_transform_psd_up_to_three_partial (R : rcfType) n p (mu : 'cV[R]_n) (S : 'M[R]_n) (F : pyfun R)
    (f : 'cV[R]_n -> 'cV[R]_p) (N : option 'M[R]_p) pts (n3 : (n <= 3)%N) (HS : pd S) (HF : fun1 F f)
    (HN : if N is Some N' then psd N' else True) (Hp : moments2points (A1 mu, A2 S) None None None = Ok pts) :
  exists pts' (m' : 'cV[R]_p) (S' : 'M[R]_p),
    unscented_transform pts (Some F) None (omap (fun M : 'M_p => A2 M) N) = Ok (pts', (A1 m', A2 S')) /\ psd S'.
Proof. exact: (ut_psd n3 HS HF HN Hp). Qed.
Print Assumptions C49_transform_psd_up_to_three_partial.

(** so with at most three states the additive filter and smoother never fail,
    whatever the functions and the data *)
Theorem C49_additive_never_fails_up_to_three_partial (R : rcfType) n m (o : ukf R) T f g (Q : 'M[R]_n) (Rn : 'M[R]_m) mu0 P0 zs
    (HM : aukf_model o T f g Q Rn mu0 P0) (n3 : (n <= 3)%N) (HQ : pd Q) (HR : pd Rn) (HP : pd P0)
    (Hsz : size zs = T) (Hk : keeps zs) :
  exists x s : nat -> 'cV[R]_n * 'M[R]_n,
    [/\ aukf_filter o (O2 m zs) = Ok [seq (A1 (x t).1, A2 (x t).2) | t <- iota 0 T],
        (0 < T)%N -> aukf_smooth o (O2 m zs) = Ok [seq (A1 (s t).1, A2 (s t).2) | t <- iota 0 T] &
        forall t, pd (x t).2 /\ pd (s t).2].
Proof. exact: (aukf_pd HM n3 HQ HR HP Hsz Hk). Qed.
Print Assumptions C49_additive_never_fails_up_to_three_partial.

(** Refuted above: for every state dimension over three, every mean and
    covariance, some function gets a negative variance *)
Theorem C49_negative_variance_refuted (R : rcfType) n (mu : 'cV[R]_n) (S : 'M[R]_n) (n3 : (3 < n)%N) (HS : pd S) :
  exists (F : pyfun R) (f : 'cV[R]_n -> 'cV[R]_1) pts pts' (m' v : R),
    [/\ fun1 F f, moments2points (A1 mu, A2 S) None None None = Ok pts,
        unscented_transform pts (Some F) None None = Ok (pts', (A1 (m'%:M : 'cV_1), A2 (v%:M : 'M_1))) & v < 0].
Proof. exact: (ut_negative mu n3 HS). Qed.
Print Assumptions C49_negative_variance_refuted.

(** and the filters fail, with identity covariances everywhere *)
Theorem C49_additive_fails_refuted (R : rcfType) n m (n3 : (3 < n)%N) : exists (f : 'cV[R]_n -> 'cV[R]_n),
  forall (o : ukf R) (g : nat -> 'cV[R]_n -> 'cV[R]_m) zs,
  aukf_model o 2 (fun _ => f) g 1%:M 1%:M 0 1%:M -> size zs = 2%N -> all (@missing R m) zs ->
  aukf_filter o (O2 m zs) = Err LinAlgError.
Proof. exact: (aukf_negative R m n3). Qed.
Print Assumptions C49_additive_fails_refuted.

Theorem C49_augmented_fails_refuted (R : rcfType) n m (n1 : (1 < n)%N) : exists (f : 'cV[R]_n -> 'cV[R]_n -> 'cV[R]_n),
  forall (o : ukf R) (g : nat -> 'cV[R]_n -> 'cV[R]_m -> 'cV[R]_m) zs,
  ukf_model o 3 (fun _ => f) g 1%:M 1%:M 0 1%:M -> size zs = 3%N -> all (@missing R m) zs ->
  ukf_filter o (O2 m zs) = Err LinAlgError.
Proof. exact: (ukf_negative R m n1). Qed.
Print Assumptions C49_augmented_fails_refuted.

Example C49_hypotheses_met (R : rcfType) (n m : nat) (f : 'cV[R]_n -> 'cV[R]_n) (g : nat -> 'cV[R]_n -> 'cV[R]_m.+1) :
  aukf_model (sq_o R) 3 (sq_f (R:=R)) (sq_g (R:=R)) 1%:M 1%:M (e0 R) (proj R + 1%:M) /\
  exists o zs, [/\ aukf_model o 2 (fun _ => f) g 1%:M 1%:M 0 1%:M, size zs = 2%N & all (@missing R m.+1) zs].
Proof.
split; first exact: sq_model.
exists (@ukf_of R n m.+1 _ _ (@pyf1 R n n) (@pyf1 R n m.+1) 2 (fun _ => f) g 1%:M 1%:M 0 1%:M None), (nseq 2 (mk_row true 0)).
by split=> //=; [exact: aukf_of_model|rewrite missing_row].
Qed.

(** ** C05 for the unscented filters *)
Theorem C05_additive_unscented_causal (R : rcfType) (o : ukf R) k (zs : seq (orow R k)) rows j (Hk : keeps zs) (Hj : keeps (take j zs))
    (Hf : aukf_filter o (O2 k zs) = Ok rows) : aukf_filter o (O2 k (take j zs)) = Ok (take j rows) /\ size rows = size zs.
Proof. by split; [exact: (ufilter_take Hk Hj Hf)|exact: (ufilter_size Hk Hf)]. Qed.
Print Assumptions C05_additive_unscented_causal.

Theorem C05_unscented_causal (R : rcfType) (o : ukf R) k (zs : seq (orow R k)) rows j (Hk : keeps zs) (Hj : keeps (take j zs))
    (Hf : ukf_filter o (O2 k zs) = Ok rows) : ukf_filter o (O2 k (take j zs)) = Ok (take j rows) /\ size rows = size zs.
Proof. by split; [exact: (ufilter_take Hk Hj Hf)|exact: (ufilter_size Hk Hf)]. Qed.
Print Assumptions C05_unscented_causal.

(** ** C43 for the unscented filters *)
Theorem C43_unscented_wrong_width_rejected_partial (R : rcfType) n m (o : ukf R) T f g (Q : 'M[R]_n) (Rn : 'M[R]_m) mu0 P0 k
    (zs : seq (orow R k)) (HM : aukf_model o T f g Q Rn mu0 P0) (Hkm : k <> m) (Hk1 : k <> 1%N)
    (Hsz : size zs = T) (Hk : keeps zs) (Hv : has (fun z : orow R k => ~~ missing z) zs) :
  aukf_filter o (O2 k zs) = Err LinAlgError \/ aukf_filter o (O2 k zs) = Err ValueError.
Proof. exact: (aukf_width HM Hkm Hk1 Hsz Hk Hv). Qed.
Print Assumptions C43_unscented_wrong_width_rejected_partial.

Theorem C43_augmented_wrong_width_rejected_partial (R : rcfType) n m (o : ukf R) T f g (Q : 'M[R]_n) (Rn : 'M[R]_m) mu0 P0 k
    (zs : seq (orow R k)) (HM : ukf_model o T f g Q Rn mu0 P0) (Hkm : k <> m) (Hk1 : k <> 1%N)
    (Hsz : size zs = T) (Hk : keeps zs) (Hv : has (fun z : orow R k => ~~ missing z) zs) :
  ukf_filter o (O2 k zs) = Err LinAlgError \/ ukf_filter o (O2 k zs) = Err ValueError.
Proof. exact: (ukf_width HM Hkm Hk1 Hsz Hk Hv). Qed.
Print Assumptions C43_augmented_wrong_width_rejected_partial.

(** One column is accepted for every observation dimension: it is read as if
    repeated [m] times. *)
Theorem C43_one_column_broadcast (R : rcfType) n m (o : ukf R) T f g (Q : 'M[R]_n) (Rn : 'M[R]_m) mu0 P0
    (zs : seq (orow R 1)) (HM : aukf_model o T f g Q Rn mu0 P0) (Hm : (0 < m)%N) (Hsz : size zs = T) (HT : T <> 1%N) :
  aukf_filter o (O2 1 zs) = aukf_filter o (O2 m (map (widen m) zs)).
Proof. exact: (aukf_widen HM Hm Hsz HT). Qed.
Print Assumptions C43_one_column_broadcast.

Theorem C43_one_column_broadcast_augmented (R : rcfType) n m (o : ukf R) T f g (Q : 'M[R]_n) (Rn : 'M[R]_m) mu0 P0
    (zs : seq (orow R 1)) (HM : ukf_model o T f g Q Rn mu0 P0) (Hm : (0 < m)%N) (Hsz : size zs = T) (HT : T <> 1%N) :
  ukf_filter o (O2 1 zs) = ukf_filter o (O2 m (map (widen m) zs)).
Proof. exact: (ukf_widen HM Hm Hsz HT). Qed.
Print Assumptions C43_one_column_broadcast_augmented.

Theorem C43_one_column_refuted (R : rcfType) : exists (o : ukf R) (zs : seq (orow R 1)),
  [/\ o_m o = 2%N, has (fun z : orow R 1 => ~~ missing z) zs & is_ok (aukf_filter o (O2 1 zs))].
Proof. exact: one_column_accepted. Qed.
Print Assumptions C43_one_column_refuted.

Example C43_unscented_hypotheses_met (R : rcfType) :
  let zs := nseq 3 (mk_row false (0 : 'cV[R]_3)) in
  [/\ aukf_model (sq_o R) 3 (sq_f (R:=R)) (sq_g (R:=R)) 1%:M 1%:M (e0 R) (proj R + 1%:M), size zs = 3%N, keeps zs &
      has (fun z : orow R 3 => ~~ missing z) zs].
Proof. by split=> //; [exact: sq_model|rewrite /= missing_row]. Qed.
