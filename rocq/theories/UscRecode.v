(** Rotated observations: KalmanFilter with any covariances, and the unscented filters. *)
From Coq Require Import String List.
From mathcomp Require Import all_ssreflect all_algebra.
From mathcomp Require Import ring.
From Verif Require Import Prelude Zmod LinAlg Numpy NumpyFacts Sklearn Standard Model KfSpec StandardInit StandardFacts
  EmSpec KfModelFacts KfOptimal KfEquiv KfGlue Rng Unscented UscSpec UscFacts UscRefine UscLoop UscInit UscMain UscPsd UscProps UnitsSpec UscUnits UscUnitsApi RotSpec.
Import GRing.Theory Num.Theory Order.Theory.

Set Implicit Arguments.
Unset Strict Implicit.
Unset Printing Implicit Defensive.
Local Open Scope ring_scope.

(** what is needed of the pseudo-inverse *)
Definition recodes (R : rcfType) m (N S : 'M[R]_m) : Prop := N^T *m pinv (N *m S *m N^T) *m N = pinv S.

Section Pinv.
Variables (R : rcfType) (m : nat) (N : 'M[R]_m).
Lemma similarity_pinv (S : 'M[R]_m) : similarity N -> recodes N S.
Proof.
move=> [a a0 E1].
have U : N \in unitmx.
  have : (a^-1 *: N^T) *m N = 1%:M by rewrite -scalemxAl E1 scale_scalar_mx mulVf.
  by case/mulmx1_unit.
have E2 : N *m N^T = a%:M.
  have : N *m N^T *m N = a%:M *m N by rewrite -mulmxA E1 scalar_mxC.
  by move/(congr1 (mulmx^~ (invmx N))); rewrite !mulmxK.
have EX : pinv (N *m S *m N^T) = a^-2 *: (N *m pinv S *m N^T).
  have aa : a^-2 * a * a = 1 by rewrite -mulrA -expr2 mulVf // expf_neq0.
  have ab : a^-2 * a = a^-1 by apply: (mulIf a0); rewrite aa mulVf.
  have EMX : N *m S *m N^T *m (a^-2 *: (N *m pinv S *m N^T)) = a^-1 *: (N *m (S *m pinv S) *m N^T).
    rewrite -scalemxAr; have -> : N *m S *m N^T *m (N *m pinv S *m N^T) = N *m S *m (N^T *m N) *m pinv S *m N^T by rewrite !mulmxA.
    by rewrite E1 mul_mx_scalar -!scalemxAl scalerA ab !mulmxA.
  have EXM : a^-2 *: (N *m pinv S *m N^T) *m (N *m S *m N^T) = a^-1 *: (N *m (pinv S *m S) *m N^T).
    rewrite -scalemxAl; have -> : N *m pinv S *m N^T *m (N *m S *m N^T) = N *m pinv S *m (N^T *m N) *m S *m N^T by rewrite !mulmxA.
    by rewrite E1 mul_mx_scalar -!scalemxAl scalerA ab !mulmxA.
  symmetry; apply: pinv_uniq.
  - rewrite EMX -scalemxAl; have -> : N *m (S *m pinv S) *m N^T *m (N *m S *m N^T) = N *m S *m pinv S *m (N^T *m N) *m S *m N^T by rewrite !mulmxA.
    rewrite E1 mul_mx_scalar -!scalemxAl scalerA mulVf // scale1r.
    by rewrite -(mulmxA N S) -(mulmxA N _ S) LinAlg.pinv1.
  - rewrite EXM -scalemxAl -scalemxAr; have -> : N *m (pinv S *m S) *m N^T *m (N *m pinv S *m N^T) = N *m pinv S *m S *m (N^T *m N) *m pinv S *m N^T by rewrite !mulmxA.
    rewrite E1 mul_mx_scalar -!scalemxAl !scalerA; congr (_ *: _); last by rewrite -(mulmxA N _ S) -(mulmxA N _ (pinv S)) LinAlg.pinv2.
    by rewrite mulrAC mulVf // mul1r.
  - by rewrite EMX [LHS]linearZ /= [(_ *m _)^T]trmx_mul trmxK [(N *m _)^T]trmx_mul LinAlg.pinv3 mulmxA.
  - by rewrite EXM [LHS]linearZ /= [(_ *m _)^T]trmx_mul trmxK [(N *m _)^T]trmx_mul LinAlg.pinv4 mulmxA.
rewrite /recodes EX -scalemxAr -scalemxAl.
have -> : N^T *m (N *m pinv S *m N^T) *m N = N^T *m N *m pinv S *m (N^T *m N) by rewrite !mulmxA.
rewrite !E1 mul_mx_scalar mul_scalar_mx !scalerA.
by rewrite -?mulrA -?expr2 mulVf ?expf_neq0 // scale1r.
Qed.
Lemma unit_pinv (S : 'M[R]_m) : N \in unitmx -> S \in unitmx -> recodes N S.
Proof.
move=> U US; have UT : N^T \in unitmx by rewrite unitmx_tr.
rewrite /recodes (pinv_unit US) pinv_unit ?unitmx_mul ?U ?US //.
by rewrite !invmxM ?unitmx_mul ?U ?US // !mulmxA mulmxV // mul1mx -mulmxA mulVmx // mulmx1.
Qed.
End Pinv.

Section Kf.
Variables (R : rcfType) (n m : nat) (M : lgm R n m) (T : nat) (N : 'M[R]_m) (g : 'cV[R]_m).
Hypothesis SN : similarity N.
Notation M' := (recode_model M N g).
Variable zs zs' : seq (orow R m).
Hypothesis Hz : recoded N g zs zs'.

Lemma rot_gain t P : gain M' t P *m N = gain M t P.
Proof.
have E : innov_cov M' t P = N *m innov_cov M t P *m N^T.
  by rewrite /innov_cov /= trmx_mul mulmxDr mulmxDl -!mulmxA.
by rewrite /gain E /= [(N *m mC M t)^T]trmx_mul -(similarity_pinv (innov_cov M t P) SN) -!mulmxA.
Qed.
Lemma rot_correct t s : correct M' (stream zs') t s = correct M (stream zs) t s.
Proof.
rewrite /correct (recode_stream Hz); case Ez: (stream zs t) => [z|] //=.
have HK := rot_gain t s.2; congr pair.
  rewrite -HK -(mulmxA _ N (z - _)); congr (_ + _ *m _).
  by rewrite -mulmxA; move: (mC M t *m s.1) => c; rewrite mulmxBr !mulmxDr; mx.
by rewrite -HK -!mulmxA.
Qed.
Lemma rot_pred t : pred M' (stream zs') t = pred M (stream zs) t.
Proof.
elim: t => [|t IH]; first exact: erefl.
have E (K : lgm R n m) w : pred K w t.+1 = predict K t (correct K w t (pred K w t)) by [].
by rewrite !E IH rot_correct.
Qed.
Lemma rot_filt t : filt M' (stream zs') t = filt M (stream zs) t.
Proof. by rewrite /filt rot_pred rot_correct. Qed.
Lemma rot_smo j t : smo M' (stream zs') j t = smo M (stream zs) j t.
Proof.
elim: j t => [|j IH] t; first exact: rot_filt.
have E (K : lgm R n m) y : smo K y j.+1 t = ((filt K y t).1 + sgain K y t *m ((smo K y j t.+1).1 - (pred K y t.+1).1),
   (filt K y t).2 + sgain K y t *m (((smo K y j t.+1).2 - (pred K y t.+1).2) *m (sgain K y t)^T)) by [].
have EL : sgain M' (stream zs') t = sgain M (stream zs) t by rewrite /sgain rot_filt rot_pred.
apply: (etrans (E M' _)); apply: esym; apply: (etrans (E M _)); apply: esym; clear E.
by rewrite EL IH rot_filt rot_pred.
Qed.

Variables (o o' : kf R).
Hypotheses (Ho : kf_model o T M) (Ho' : kf_model o' T (recode_model M N g)) (Hsz : size zs = T) (Hk : keeps zs).
Lemma rot_api : kf_filter o' (O2 m zs') = kf_filter o (O2 m zs) /\
  ((0 < T)%N -> kf_smooth o' (O2 m zs') = kf_smooth o (O2 m zs)).
Proof.
have Hsz' : size zs' = T by rewrite (recode_size Hz).
have Hk' : (T != 1%N) || (m <= 1)%N by rewrite -Hsz.
split=> [|T0].
  rewrite (kf_filter_ok Ho Hsz Hk') (kf_filter_ok Ho' Hsz' Hk').
  apply: f_equal; apply: iota_map_ext => t _.
  by apply: pairE; rewrite rot_filt.
rewrite (kf_smooth_ok Ho Hsz Hk' T0) (kf_smooth_ok Ho' Hsz' Hk' T0).
apply: f_equal; apply: iota_map_ext => t _.
by apply: pairE; rewrite rot_smo.
Qed.
End Kf.

Section Corr.
Variables (R : rcfType) (n m k : nat) (N : 'M[R]_m) (d : 'cV[R]_m) (w : 'cV[R]_k).
Hypothesis w1 : \sum_i w i 0 = 1.
Lemma ucorr_recode (P : 'M[R]_(k, n)) (Z : 'M[R]_(k, m)) Rn mp z : recodes N (wcov Z w w + Rn) ->
  ucorr w P (aff_rows Z N d) (N *m Rn *m N^T) mp (omap (fun z => N *m z + d) z) = ucorr w P Z Rn mp z.
Proof.
move=> HV; case: z => [z|] //; rewrite [omap _ _]/= /ucorr aff_mean // aff_cen wcrossMr wcov_aff // -mulmxDl -mulmxDr.
rewrite -HV.
move: (wcross _ _ _) (pinv (N *m _ *m _)) => C V; move: (wmean Z w) => zm; congr pair.
  have -> : N *m z + d - (N *m zm + d) = N *m (z - zm) by rewrite mulmxBr opprD addrACA subrr addr0.
  by rewrite !mulmxA.
by rewrite trmx_mul trmxK !mulmxA.
Qed.
Lemma fmap_recode p (g g' : 'cV[R]_p -> 'cV[R]_m) (P : 'M[R]_(k, p)) : (forall x, g' x = N *m g x + d) ->
  fmap g' P = aff_rows (fmap g P) N d.
Proof.
by move=> H; rewrite -{1}[P]aff_id; apply: fmap_units => x; rewrite mul1mx addr0 H.
Qed.
Lemma fmap2_recode p q (g g' : 'cV[R]_p -> 'cV[R]_q -> 'cV[R]_m) (P : 'M[R]_(k, p)) (V : 'M[R]_(k, q)) :
  (forall x v, g' x v = N *m g x v + d) -> fmap2 g' P V = aff_rows (fmap2 g P V) N d.
Proof.
move=> H; apply/matrixP=> i j; rewrite mxE H aff_rowsE !mxE; congr (_ + _).
by apply: eq_bigr => l _; rewrite !mxE.
Qed.
End Corr.

Lemma ufold_eq S Z (first first' : Z -> option S) (next next' : nat -> S -> Z -> option S) (y y' : nat -> Z) T :
  (first' (y' 0%N) = first (y 0%N)) -> (forall t s, (t.+1 < T)%N -> next' t s (y' t.+1) = next t s (y t.+1)) ->
  forall t, (t < T)%N -> ufold first' next' y' t = ufold first next y t.
Proof.
move=> H0 Hn; elim=> [|t IH] tT //=; rewrite IH ?(ltnW tT) //.
by case: (ufold _ _ _ t) => //= s; exact: Hn.
Qed.

Section Add.
Variables (R : rcfType) (n m : nat) (o o' : ukf R) (T : nat).
Variables (f : nat -> 'cV[R]_n -> 'cV[R]_n) (g g' : nat -> 'cV[R]_n -> 'cV[R]_m).
Variables (Q : 'M[R]_n) (Rn : 'M[R]_m) (mu0 : 'cV[R]_n) (P0 : 'M[R]_n) (N : 'M[R]_m) (d : 'cV[R]_m).
Hypotheses (HM : aukf_model o T f g Q Rn mu0 P0) (HM' : aukf_model o' T f g' Q (N *m Rn *m N^T) mu0 P0).
Hypothesis HN : forall Z : 'M[R]_(_, m), recodes N (wcov Z (wdef R n) (wdef R n) + Rn).
Hypothesis Hg : forall t x, (t < T)%N -> g' t x = N *m g t x + d.
Variables (zs zs' : seq (orow R m)).
Hypotheses (Hz : recoded N d zs zs') (Hsz : size zs = T) (Hk : keeps zs).
Let F := add_filt Q Rn mu0 P0 f g (stream zs).
Let F' := add_filt Q (N *m Rn *m N^T) mu0 P0 f g' (stream zs').
Lemma add_recode t : (t < T)%N -> F' t = F t.
Proof.
apply: ufold_eq => [|{}t s tT].
  rewrite (recode_stream Hz) /add_first; case: (spts mu0 P0) => //= P; congr Some.
  case: (posnP T) => [T0|T0].
    suff -> : stream zs 0 = None by [].
    by rewrite /stream; case: (zs) Hsz => //=; rewrite T0.
  by rewrite (fmap_recode P (fun x => Hg x T0)) ucorr_recode ?wdef_sum.
rewrite (recode_stream Hz) /add_next; case: (add_pred Q f t s) => //= mp.
rewrite /add_corr; case: (spts mp.1 mp.2) => //= P; congr Some.
by rewrite (fmap_recode P (fun x => Hg x tT)) ucorr_recode ?wdef_sum.
Qed.
Let Hsz' : size zs' = T. Proof. by rewrite (recode_size Hz). Qed.
Let Hk' : keeps zs'. Proof. by rewrite /keeps (recode_size Hz). Qed.
Lemma mapr_ext A B (p p' : A -> res B) l : (forall t, List.In t l -> p' t = p t) -> mapr p' l = mapr p l.
Proof.
elim: l => // a l IH H; rewrite !mapr_cons H; last by left.
by rewrite IH // => t Ht; apply: H; right.
Qed.
Lemma aukf_filter_recode : aukf_filter o' (O2 m zs') = aukf_filter o (O2 m zs).
Proof.
rewrite (aukf_filterE HM Hsz Hk) (aukf_filterE HM' Hsz' Hk'); apply: mapr_ext => t /In_mem.
by rewrite mem_iota add0n => tT; rewrite -/F -/F' add_recode.
Qed.
Lemma aukf_smooth_recode : (0 < T)%N -> aukf_smooth o' (O2 m zs') = aukf_smooth o (O2 m zs).
Proof.
move=> T0; case: (mapr_some F (iota 0 T)) => [HF|EF]; last first.
  have E1 := aukf_filterE HM Hsz Hk; rewrite -/F EF in E1.
  by rewrite /aukf_smooth ?(um_init _ HM) ?(um_init _ HM') !bO aukf_filter_recode E1.
pose x t := odflt (0, 0) (F t).
have Hx t : (t < T)%N -> F t = Some (x t).
  by move=> tT; have := HF t; rewrite mem_iota /x => /(_ tT); case: (F t).
have Hx' t : (t < T)%N -> F' t = Some (x t) by move=> tT; rewrite add_recode // Hx.
by rewrite (aukf_smoothE HM Hsz Hk T0 Hx) (aukf_smoothE HM' Hsz' Hk' T0 Hx').
Qed.
End Add.

Section Aug.
Variables (R : rcfType) (n m : nat) (o o' : ukf R) (T : nat).
Variables (f : nat -> 'cV[R]_n -> 'cV[R]_n -> 'cV[R]_n) (g g' : nat -> 'cV[R]_n -> 'cV[R]_m -> 'cV[R]_m).
Variables (Q : 'M[R]_n) (Rn : 'M[R]_m) (mu0 : 'cV[R]_n) (P0 : 'M[R]_n) (N : 'M[R]_m) (d : 'cV[R]_m).
Hypotheses (HM : ukf_model o T f g Q Rn mu0 P0) (HM' : ukf_model o' T f g' Q Rn mu0 P0).
Hypothesis SN : similarity N.
Hypothesis Hg : forall t x v, (t < T)%N -> g' t x v = N *m g t x v + d.
Variables (zs zs' : seq (orow R m)).
Hypotheses (Hz : recoded N d zs zs') (Hsz : size zs = T) (Hk : keeps zs).
Let F := aug_filt Q Rn mu0 P0 f g (stream zs).
Let F' := aug_filt Q Rn mu0 P0 f g' (stream zs').
Lemma aug_corr_recode t k (w : 'cV[R]_k) X V z : (t < T)%N -> \sum_i w i 0 = 1 ->
  aug_corr g' t w X V (omap (fun z => N *m z + d) z) = aug_corr g t w X V z.
Proof.
move=> tT w1; rewrite /aug_corr (fmap2_recode X V (fun x v => Hg x v tT)).
have E0 : (0 : 'M[R]_m) = N *m 0 *m N^T by rewrite mulmx0 mul0mx.
rewrite {1}E0 ucorr_recode //; exact: similarity_pinv.
Qed.
Lemma aug_recode t : (t < T)%N -> F' t = F t.
Proof.
apply: ufold_eq => [|{}t s tT].
  rewrite (recode_stream Hz) /aug_first; case: (aug_pts Q Rn (mu0, P0)) => //= P; congr Some.
  case: (posnP T) => [T0|T0]; last by rewrite aug_corr_recode ?wdef_sum.
  suff -> : stream zs 0 = None by [].
  by rewrite /stream; case: (zs) Hsz => //=; rewrite T0.
rewrite (recode_stream Hz) /aug_next; case: (aug_pts Q Rn s) => //= P; congr Some.
by rewrite aug_corr_recode ?wdef_sum.
Qed.
Let Hsz' : size zs' = T. Proof. by rewrite (recode_size Hz). Qed.
Let Hk' : keeps zs'. Proof. by rewrite /keeps (recode_size Hz). Qed.
Lemma ukf_filter_recode : ukf_filter o' (O2 m zs') = ukf_filter o (O2 m zs).
Proof.
rewrite (ukf_filterE HM Hsz Hk) (ukf_filterE HM' Hsz' Hk'); apply: mapr_ext => t /In_mem.
by rewrite mem_iota add0n => tT; rewrite -/F -/F' aug_recode.
Qed.
Lemma ukf_smooth_recode : (0 < T)%N -> ukf_smooth o' (O2 m zs') = ukf_smooth o (O2 m zs).
Proof.
move=> T0; case: (mapr_some F (iota 0 T)) => [HF|EF]; last first.
  have E1 := ukf_filterE HM Hsz Hk; rewrite -/F EF in E1.
  by rewrite /ukf_smooth !parse_keep // ?(um_init _ HM) ?(um_init _ HM') !bO ukf_filter_recode E1.
pose x t := odflt (0, 0) (F t).
have Hx t : (t < T)%N -> F t = Some (x t).
  by move=> tT; have := HF t; rewrite mem_iota /x => /(_ tT); case: (F t).
have Hx' t : (t < T)%N -> F' t = Some (x t) by move=> tT; rewrite aug_recode // Hx.
by rewrite (ukf_smoothE HM Hsz Hk T0 Hx) (ukf_smoothE HM' Hsz' Hk' T0 Hx').
Qed.
End Aug.

(** any invertible recoding when the innovation covariance cannot be singular *)
Lemma small_recodes (R : rcfType) n m (N Rn : 'M[R]_m) : (n <= 3)%N -> pd Rn -> N \in unitmx ->
  forall Z : 'M[R]_(_, m), recodes N (wcov Z (wdef R n) (wdef R n) + Rn).
Proof.
move=> n3 HR UN Z; apply: unit_pinv => //; apply: pd_unit; apply: pdD => //.
by apply: wcov_psd => i; exact: wdef_ge0.
Qed.

Section Api.
Variables (R : rcfType) (n m : nat) (o o' : ukf R) (T : nat).
Variables (Q : 'M[R]_n) (Rn : 'M[R]_m) (mu0 : 'cV[R]_n) (P0 : 'M[R]_n) (N : 'M[R]_m) (d : 'cV[R]_m).
Variables (zs zs' : seq (orow R m)).
Lemma additive_rot f g g' (HM : aukf_model o T f g Q Rn mu0 P0) (HM' : aukf_model o' T f g' Q (N *m Rn *m N^T) mu0 P0) (SN : similarity N)
    (Hg : forall t x, (t < T)%N -> g' t x = N *m g t x + d) (Hz : recoded N d zs zs') (Hsz : size zs = T) (Hk : keeps zs) :
  aukf_filter o' (O2 m zs') = aukf_filter o (O2 m zs) /\
  ((0 < T)%N -> aukf_smooth o' (O2 m zs') = aukf_smooth o (O2 m zs)).
Proof.
have HN (Z : 'M[R]_(_, m)) := similarity_pinv (wcov Z (wdef R n) (wdef R n) + Rn) SN.
by split=> [|T0]; [exact: (aukf_filter_recode HM HM' HN Hg)|exact: (aukf_smooth_recode HM HM' HN Hg)].
Qed.
Lemma additive_invertible f g g' (HM : aukf_model o T f g Q Rn mu0 P0) (HM' : aukf_model o' T f g' Q (N *m Rn *m N^T) mu0 P0)
    (n3 : (n <= 3)%N) (HR : pd Rn) (UN : N \in unitmx) (Hg : forall t x, (t < T)%N -> g' t x = N *m g t x + d)
    (Hz : recoded N d zs zs') (Hsz : size zs = T) (Hk : keeps zs) :
  aukf_filter o' (O2 m zs') = aukf_filter o (O2 m zs) /\
  ((0 < T)%N -> aukf_smooth o' (O2 m zs') = aukf_smooth o (O2 m zs)).
Proof.
have HN := small_recodes n3 HR UN.
by split=> [|T0]; [exact: (aukf_filter_recode HM HM' HN Hg)|exact: (aukf_smooth_recode HM HM' HN Hg)].
Qed.
Lemma augmented_rot f g g' (HM : ukf_model o T f g Q Rn mu0 P0) (HM' : ukf_model o' T f g' Q Rn mu0 P0) (SN : similarity N)
    (Hg : forall t x v, (t < T)%N -> g' t x v = N *m g t x v + d) (Hz : recoded N d zs zs') (Hsz : size zs = T) (Hk : keeps zs) :
  ukf_filter o' (O2 m zs') = ukf_filter o (O2 m zs) /\
  ((0 < T)%N -> ukf_smooth o' (O2 m zs') = ukf_smooth o (O2 m zs)).
Proof. by split=> [|T0]; [exact: (ukf_filter_recode HM HM' SN Hg)|exact: (ukf_smooth_recode HM HM' SN Hg)]. Qed.
End Api.
