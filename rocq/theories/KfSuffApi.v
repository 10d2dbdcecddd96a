(** Averages of repeated readings and fused sensors as cases of KfSuff.v. *)
From Coq Require Import String List.
From mathcomp Require Import all_ssreflect all_algebra.
From mathcomp Require Import ring.
From Verif Require Import Prelude Zmod LinAlg Numpy NumpyFacts Sklearn SklearnFacts Standard Model KfSpec KfMoreSpec StandardInit StandardFacts
  KfStruct KfStruct2 SpecL2 L2Facts Lmmse Exists KfOptimal KfModelFacts KfOnline KfEm KfEquiv GaussSpec KfLoglik Joint KfJoint KfGlue KfNoise KfMore KfBlock EmGlue
  KfMoreGlue2 KfSensors KfLs SuffSpec KfSuff.
Import GRing.Theory Num.Theory Order.Theory.

Set Implicit Arguments.
Unset Strict Implicit.
Unset Printing Implicit Defensive.
Local Open Scope ring_scope.

Section Average.
Variables (R : rcfType) (n k : nat) (M : lgm R n 1) (T : nat).
Variables (zs : seq (orow R k)) (zs' : seq (orow R 1)).
Hypothesis k0 : (0 < k)%N.
Hypothesis Hz : averaged zs zs'.
Hypothesis HM : psd_model M T.
Hypothesis HR : forall t, (t < T)%N -> pd (mR M t).
Lemma var_gt0 t : (t < T)%N -> 0 < mR M t 0 0.
Proof.
move=> tT; have [_ /(_ 1%:M)] := HR tT; rewrite /qf /bf trmx1 mul1mx mulmx1 /LinAlg.sc; apply.
by apply/eqP=> /(congr1 (fun A : 'M[R]_1 => A 0 0))/eqP; rewrite !mxE oner_eq0.
Qed.
Lemma rep_pd t : (t < T)%N -> pd (mR (repeated k M) t).
Proof.
move=> tT; rewrite /= -scalemx1; apply: pdZ; last exact: pd1.
by rewrite mulr_gt0 ?ltr0n ?var_gt0.
Qed.
Lemma rep_psd : psd_model (repeated k M) T.
Proof. by case: HM => H1 H2 _; split=> // t tT; exact: pd_psd (rep_pd tT). Qed.
Lemma ave_size : size zs' = size zs.
Proof. by elim: Hz => //= r r' l l' _ _ ->. Qed.
Lemma ave_stream t : stream zs' t = omap (fun z : 'cV[R]_k => (k%:R^-1 * \sum_i z i 0)%:M) (stream zs t).
Proof.
rewrite /stream; elim: Hz t => [|r r' l l' [H1 H2] _ IH] [|t] //=.
by rewrite H1; case: (missing r) H2 => // -> .
Qed.
Lemma ones : (const_mx 1 : 'M[R]_(k, 1))^T *m (const_mx 1 : 'M[R]_(k, 1)) = k%:R%:M.
Proof.
apply/matrixP=> i j; rewrite !mxE !ord1 eqxx mulr1n (eq_bigr (fun _ => 1)) ?sumr_const ?card_ord // => l _.
by rewrite !mxE mulr1.
Qed.
Lemma ave_reading t : (t < T)%N -> reading M zs' t = reading (repeated k M) zs t.
Proof.
move=> tT; rewrite /reading ave_stream; case: (stream zs t) => [z|] //=.
have v0 : mR M t 0 0 != 0 by apply: lt0r_neq0; exact: var_gt0.
have kn0 : k%:R != 0 :> R by rewrite pnatr_eq0 -lt0n.
have EM : mR M t = (mR M t 0 0)%:M by exact: mx11_scalar.
rewrite {1 2}EM !invmx_scalar !mul_mx_scalar; move: (mR M t 0 0) v0 => v v0.
rewrite [(const_mx 1 *m _)^T]trmx_mul -!scalemxAl; move: (mC M t) => c; congr pair.
  rewrite -mulmxA (mulmxA _ _ c) ones mul_scalar_mx -scalemxAr scalerA; congr (_ *: _).
  by field; rewrite v0 kn0.
rewrite -mulmxA [_ *m (z - _)]mulmxBr (mulmxA _ _ (md M t)) ones mul_scalar_mx.
have -> : (const_mx 1 : 'M[R]_(k, 1))^T *m z = (\sum_i z i 0)%:M.
  apply/matrixP=> i j; rewrite !mxE !ord1 eqxx mulr1n; apply: eq_bigr => l _.
  by rewrite !mxE mul1r.
move: (\sum_i z i 0) (md M t) => s d; rewrite -scale_scalar_mx !scalemxAr; congr (_ *m _).
rewrite !scalerBr !scalerA; congr (_ *: _ - _).
  by field; rewrite v0 kn0.
by congr (_ *: _); field; rewrite v0 kn0.
Qed.
Variables (o o' : kf R).
Hypotheses (Ho : kf_model o T (repeated k M)) (Ho' : kf_model o' T M) (Hsz : size zs = T) (Hk : keeps zs).
Lemma average_api : kf_filter o' (O2 1 zs') = kf_filter o (O2 k zs) /\
  ((0 < T)%N -> kf_smooth o' (O2 1 zs') = kf_smooth o (O2 k zs)).
Proof.
have EM : M = with_sensor (repeated k M) (mC M) (md M) (mR M) by rewrite /with_sensor /=; case: (M).
apply: (@same_api _ _ _ _ (repeated k M) T (mC M) (md M) (mR M)) => //.
- exact: rep_psd.
- by move=> t tT _; exact: rep_pd.
- by move=> t tT _; exact: HR.
- by rewrite -EM; exact: ave_reading.
- by rewrite -EM.
- by rewrite ave_size.
- by rewrite /keeps orbT.
Qed.
End Average.

Section FuseApi.
Variables (R : rcfType) (n m : nat) (M : lgm R n m) (N2 : nat -> 'M[R]_m) (T : nat).
Variables (zs : seq (orow R (m + m))) (zs' : seq (orow R m)).
Hypothesis Hz : fused M N2 zs zs'.
Hypothesis HM : psd_model M T.
Hypothesis HR : forall t, (t < T)%N -> pd (mR M t).
Hypothesis HN : forall t, (t < T)%N -> pd (N2 t).
Hypothesis Hsz : size zs = T.
Lemma fc_pd t : (t < T)%N -> pd (fused_cov M N2 t).
Proof. by move=> tT; apply: pd_inv; apply: pdD; [exact: pd_psd (pd_inv (HR tT))|exact: pd_inv (HN tT)]. Qed.
Lemma two_pd t : (t < T)%N -> pd (mR (two_sensors M N2) t).
Proof. by move=> tT; apply: pd_block; [exact: HR|exact: HN]. Qed.
Lemma two_psd : psd_model (two_sensors M N2) T.
Proof. by case: HM => H1 H2 _; split=> // t tT; exact: pd_psd (two_pd tT). Qed.
Lemma fuse_stream t : (t < T)%N -> stream zs' t =
  omap (fun z => fused_cov M N2 t *m (invmx (mR M t) *m usubmx z + invmx (N2 t) *m dsubmx z)) (stream zs t).
Proof.
case: Hz => Es H tT; rewrite /stream.
case E: (List.nth_error zs t) => [r|]; last first.
  by move/List.nth_error_None: E => /ssrnat.leP; rewrite -[List.length _]/(size zs) Hsz leqNgt tT.
case E': (List.nth_error zs' t) => [r'|]; last first.
  by move/List.nth_error_None: E' => /ssrnat.leP; rewrite -[List.length _]/(size zs') Es Hsz leqNgt tT.
have [-> H2] := H _ _ _ E E'.
by case: (missing r) H2 => // -> .
Qed.
Lemma fuse_reading t : (t < T)%N -> reading (fused_model M N2) zs' t = reading (two_sensors M N2) zs t.
Proof.
move=> tT; rewrite /reading (fuse_stream tT); case: (stream zs t) => [z|] //=.
have U := pd_unit (fc_pd tT); have U1 := pd_unit (HR tT); have U2 := pd_unit (HN tT).
rewrite inv_block //.
have EV : invmx (fused_cov M N2 t) = invmx (mR M t) + invmx (N2 t) by rewrite /fused_cov invmxK.
rewrite tr_col_mx mul_row_block !mulmx0 addr0 add0r; congr pair.
  by rewrite mul_row_col EV mulmxDr mulmxDl.
rewrite mulmxBr -[in LHS](mulmxA _ (invmx _)) mulKmx //; move: (invmx (mR M t)) (invmx (N2 t)) EV => A B ->.
have -> : z - col_mx (md M t) (md M t) = col_mx (usubmx z - md M t) (dsubmx z - md M t).
  by rewrite -{1}[z]vsubmxK opp_col_mx add_col_mx.
rewrite mul_row_col; move: (usubmx z) (dsubmx z) => a b.
have alg (c : 'M[R]_(n, m)) (A1 B1 : 'M[R]_m) (u v d : 'cV[R]_m) :
  c *m (A1 *m u + B1 *m v) - c *m (A1 + B1) *m d = c *m A1 *m (u - d) + c *m B1 *m (v - d).
  by rewrite !mulmxBr !mulmxDr !mulmxDl !mulmxA; mx.
exact: alg.
Qed.
Variables (o o' : kf R).
Hypotheses (Ho : kf_model o T (two_sensors M N2)) (Ho' : kf_model o' T (fused_model M N2)) (Hk : keeps zs).
Lemma fuse_api : kf_filter o' (O2 m zs') = kf_filter o (O2 (m + m) zs) /\
  ((0 < T)%N -> kf_smooth o' (O2 m zs') = kf_smooth o (O2 (m + m) zs)).
Proof.
apply: (@same_api _ _ _ _ (two_sensors M N2) T (mC M) (md M) (fused_cov M N2)) => //.
- exact: two_psd.
- by move=> t tT _; exact: two_pd.
- by move=> t tT _; exact: fc_pd.
- exact: fuse_reading.
- by case: Hz => ->.
- case: Hz => Es _; rewrite /keeps Es; case/orP: Hk => [->//|H]; apply/orP; right.
  by apply: leq_trans H; rewrite leq_addr.
Qed.
End FuseApi.
