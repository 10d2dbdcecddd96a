(** Prediction-error decomposition: the joint Gaussian log density of the
    available observations is the sum of the log densities of the innovations. *)
From mathcomp Require Import all_ssreflect all_algebra.
From mathcomp Require Import ring.
From Verif Require Import Prelude Zmod LinAlg Numpy Model SpecL2 L2Facts Lmmse GaussSpec KfEquiv KfModelFacts KfLoglik.
Import GRing.Theory Num.Theory Order.Theory.

Set Implicit Arguments.
Unset Strict Implicit.
Unset Printing Implicit Defensive.
Local Open Scope ring_scope.

Section Split.
Variables (R : rcfType) (ln : R -> R) (ln2pi : R).
Hypothesis Hln : multiplicative_log ln.

Definition jblock k m (V : 'M[R]_k) (H : 'M[R]_(m, k)) (S : 'M[R]_m) : 'M[R]_(k + m) :=
  block_mx V (V *m H^T) (H *m V) (H *m V *m H^T + S).
Definition jtri k m (H : 'M[R]_(m, k)) : 'M[R]_(k + m) := block_mx 1%:M 0 H 1%:M.

Lemma jblockE k m (V : 'M[R]_k) (H : 'M[R]_(m, k)) (S : 'M[R]_m) :
  jblock V H S = jtri H *m block_mx V 0 0 S *m (jtri H)^T.
Proof.
rewrite /jtri /jblock tr_block_mx !mulmx_block !trmx1 trmx0.
by rewrite !(mul1mx, mulmx1, mul0mx, mulmx0, addr0, add0r).
Qed.
Lemma det_jtri k m (H : 'M[R]_(m, k)) : \det (jtri H) = 1.
Proof. by rewrite /jtri det_lblock !det1 mulr1. Qed.
Lemma det_jblock k m (V : 'M[R]_k) (H : 'M[R]_(m, k)) (S : 'M[R]_m) :
  \det (jblock V H S) = \det V * \det S.
Proof. by rewrite jblockE !det_mulmx det_tr det_jtri mul1r mulr1 det_ublock. Qed.
Lemma jtri_unit k m (H : 'M[R]_(m, k)) : jtri H \in unitmx.
Proof. by rewrite unitmxE det_jtri unitr1. Qed.
Lemma jtri_inv k m (H : 'M[R]_(m, k)) : invmx (jtri H) = jtri (- H).
Proof.
have E : jtri (- H) *m jtri H = 1%:M.
  rewrite /jtri mulmx_block !(mul1mx, mulmx1, mul0mx, mulmx0, addr0, add0r) addNr.
  by rewrite -scalar_mx_block.
by rewrite -[LHS]mul1mx -E mulmxK // jtri_unit.
Qed.

Lemma diag_inv k m (V : 'M[R]_k) (S : 'M[R]_m) : V \in unitmx -> S \in unitmx ->
  block_mx V 0 0 S \in unitmx /\ invmx (block_mx V 0 0 S) = block_mx (invmx V) 0 0 (invmx S).
Proof.
move=> UV US.
have U : block_mx V 0 0 S \in unitmx by rewrite unitmxE det_ublock unitrM -!unitmxE UV US.
split=> //.
have E : block_mx (invmx V) 0 0 (invmx S) *m block_mx V 0 0 S = 1%:M.
  rewrite mulmx_block !(mul0mx, mulmx0, addr0, add0r) !mulVmx //.
  by rewrite -scalar_mx_block.
by rewrite -[LHS]mul1mx -E mulmxK.
Qed.

Lemma pd_jblock k m (V : 'M[R]_k) (H : 'M[R]_(m, k)) (S : 'M[R]_m) :
  V^T = V -> S^T = S -> pd (jblock V H S) <-> pd V /\ pd S.
Proof.
move=> VS SS; split.
  case=> _ HJ; split; split=> // v Nv.
    have N1 : col_mx v 0 != 0 :> 'cV[R]_(k + m).
      by apply: contraNN Nv => /eqP E; rewrite -(col_mxKu v (0 : 'cV_m)) E linear0.
    have := HJ _ N1; rewrite /jblock qf_block.
    by rewrite /qf /bf !(trmx0, mul0mx, mulmx0) sc0 !addr0.
  have N1 : col_mx (- (H^T *m v)) v != 0 :> 'cV[R]_(k + m).
    by apply: contraNN Nv => /eqP E; rewrite -(col_mxKd (- (H^T *m v)) v) E linear0.
  have := HJ _ N1; rewrite jblockE qf_congr.
  have -> : (jtri H)^T *m col_mx (- (H^T *m v)) v = col_mx 0 v.
    by rewrite /jtri tr_block_mx trmx0 !trmx1 mul_block_col !(mul1mx, mul0mx) addNr add0r.
  by rewrite qf_block /qf /bf !(trmx0, mul0mx, mulmx0) sc0 !add0r.
case=> HV HS; rewrite jblockE; apply: pd_congr_unit; last exact: jtri_unit.
split; first by rewrite tr_block_mx VS SS !trmx0.
move=> v Nv; rewrite -(vsubmxK v) qf_block /bf !(mul0mx, mulmx0) sc0 !addr0.
have [E|N] := eqVneq (usubmx v) 0.
  rewrite E qf0 add0r; apply: (proj2 HS); apply: contraNN Nv => /eqP E'.
  by rewrite -(vsubmxK v) E E' col_mx0.
by rewrite ltr_paddr ?(proj2 HV) //; case: (pd_psd HS).
Qed.

Lemma det_pd k (V : 'M[R]_k) : pd V -> 0 < \det V.
Proof.
move=> HV; have [L HL] := chol_pd HV; have [SV _] := HV; have [EL LT Ld] := chol_spec SV HL.
rewrite EL det_mulmx det_tr -expr2 exprn_even_gt0 //= det_trig; last first.
  by apply/is_trig_mxP => i j ij; exact: LT.
by apply/prodf_neq0 => i _; rewrite gt_eqF.
Qed.

Lemma gauss_split k m (u mu : 'cV[R]_k) (z nu : 'cV[R]_m) (V : 'M[R]_k) (H : 'M[R]_(m, k)) (S : 'M[R]_m) :
  pd V -> pd S ->
  gauss_logpdf ln ln2pi (col_mx u z) (col_mx mu nu) (jblock V H S) =
  gauss_logpdf ln ln2pi u mu V + gauss_logpdf ln ln2pi z (nu + H *m (u - mu)) S.
Proof.
move=> HV HS; rewrite /gauss_logpdf det_jblock Hln ?det_pd // natrD mulrDl.
have [UD ED] := diag_inv (pd_unit HV) (pd_unit HS).
have UJ := jtri_unit H.
have -> : qf (invmx (jblock V H S)) (col_mx u z - col_mx mu nu) =
  qf (invmx V) (u - mu) + qf (invmx S) (z - (nu + H *m (u - mu))).
  rewrite jblockE invmxM ?unitmx_mul ?UJ ?unitmx_tr // invmxM // ED -trmx_inv jtri_inv mulmxA.
  rewrite -{2}[jtri (- H)]trmxK qf_congr trmxK opp_col_mx add_col_mx.
  rewrite /jtri mul_block_col !mul1mx mul0mx addr0 qf_block /bf !(mul0mx, mulmx0) sc0 !addr0.
  congr (_ + qf _ _); rewrite mulNmx; move: (H *m (u - mu)) => w.
  by rewrite opprD addrC addrA.
by ring.
Qed.
End Split.

Section StackMoments.
Variables (R : rcfType) (Sp : l2space R).

Lemma rvec_col k m (U : RV Sp k) (Z : RV Sp m) : rvec (fun om => col_mx (U om) (Z om)).
Proof.
move=> i; rewrite -(splitK i); case: (split i) => j /=.
  by apply: L2_ext (rvP U j) => w; rewrite col_mxEu.
by apply: L2_ext (rvP Z j) => w; rewrite col_mxEd.
Qed.
Lemma mean_col k m (U : RV Sp k) (Z : RV Sp m) :
  mean (fun om => col_mx (U om) (Z om)) = col_mx (mean U) (mean Z).
Proof.
apply/matrixP=> i j; rewrite mxE -(splitK i); case: (split i) => l /=.
  by rewrite col_mxEu mxE; apply: Ex_ext => w; rewrite col_mxEu.
by rewrite col_mxEd mxE; apply: Ex_ext => w; rewrite col_mxEd.
Qed.
Lemma mom_col k m k' m' (U : Om Sp -> 'cV[R]_k) (Z : Om Sp -> 'cV[R]_m)
    (U' : Om Sp -> 'cV[R]_k') (Z' : Om Sp -> 'cV[R]_m') :
  mom (fun om => col_mx (U om) (Z om)) (fun om => col_mx (U' om) (Z' om)) =
  block_mx (mom U U') (mom U Z') (mom Z U') (mom Z Z').
Proof.
apply/matrixP=> i j; rewrite [LHS]mxE -(splitK i) -(splitK j).
case: (split i) => a; case: (split j) => b;
  rewrite /= ?block_mxEul ?block_mxEur ?block_mxEdl ?block_mxEdr [RHS]mxE;
  apply: Ex_ext => w; by rewrite ?col_mxEu ?col_mxEd.
Qed.
Lemma cov_col k m k' m' (U : RV Sp k) (Z : RV Sp m) (U' : RV Sp k') (Z' : RV Sp m') :
  cov (fun om => col_mx (U om) (Z om)) (fun om => col_mx (U' om) (Z' om)) =
  block_mx (cov U U') (cov U Z') (cov Z U') (cov Z Z').
Proof.
rewrite /cov !mean_col -mom_col; apply: mom_ext => w; by rewrite opp_col_mx add_col_mx.
Qed.
Lemma mom_colr p k m (E : Om Sp -> 'cV[R]_p) (U : Om Sp -> 'cV[R]_k) (Z : Om Sp -> 'cV[R]_m) :
  mom E (fun om => col_mx (U om) (Z om)) = row_mx (mom E U) (mom E Z).
Proof.
apply/matrixP=> i j; rewrite [LHS]mxE -(splitK j).
case: (split j) => b; rewrite /= ?row_mxEl ?row_mxEr [RHS]mxE;
  apply: Ex_ext => w; by rewrite ?col_mxEu ?col_mxEd.
Qed.
Lemma cov_colr p k m (E : RV Sp p) (U : RV Sp k) (Z : RV Sp m) :
  cov E (fun om => col_mx (U om) (Z om)) = row_mx (cov E U) (cov E Z).
Proof.
rewrite /cov mean_col -mom_colr; apply: mom_ext => w //; by rewrite opp_col_mx add_col_mx.
Qed.
Lemma rvec_snoc b k m (U : RV Sp k) (Z : RV Sp m) : rvec (fun om => snoc b (U om) (Z om)).
Proof. by case: b; [exact: rvP|exact: rvec_col]. Qed.
Lemma cov_snoc0 p b k m (E : RV Sp p) (U : RV Sp k) (Z : RV Sp m) :
  cov E U = 0 -> (b = false -> cov E Z = 0) -> cov E (fun om => snoc b (U om) (Z om)) = 0.
Proof.
move=> HU; case: b => [_ //|/(_ erefl) HZ] /=.
by rewrite cov_colr HU HZ row_mx0.
Qed.
End StackMoments.

Section Joint.
Variables (R : rcfType) (Sp : l2space R) (n m : nat) (M : lgm R n m) (T : nat).
Variables (x : nat -> Om Sp -> 'cV[R]_n) (z : nat -> Om Sp -> 'cV[R]_m).
Variables (w : nat -> Om Sp -> 'cV[R]_n) (v : nat -> Om Sp -> 'cV[R]_m).
Hypothesis Hob : obeys M T x z w v.
Variable mis : nat -> bool.
Local Notation Z := (Z Hob).
Local Notation Xp := (Xp Hob mis).
Local Notation In := (In Hob mis).
Local Notation Pp := (Pp M mis).

Lemma rvec_stack t : rvec (fun om => stack_obs mis (fun s => Z s om) t).
Proof.
elim: t => [|t IH]; first by move=> [].
have H := @rvec_snoc _ _ (mis t) _ _ (MkRV IH) (Z t).
exact H.
Qed.
Definition SU t : RV Sp (odim m mis t) := MkRV (@rvec_stack t).

Lemma orth_stack p (e : RV Sp p) t :
  (forall s, (s < t)%N -> ~~ mis s -> cov e (Z s) = 0) -> cov e (SU t) = 0.
Proof.
elim: t => [|t IH] H; first by apply/matrixP=> i [].
apply: (@cov_snoc0 _ _ _ (mis t) _ _ e (SU t) (Z t)).
  by apply: IH => s st; apply: H; exact: ltnW.
by move=> Hm; apply: H; rewrite ?Hm.
Qed.

Lemma lin_stack p (L : nat -> 'M[R]_(p, m)) t : exists H : 'M[R]_(p, odim m mis t),
  forall d : nat -> 'cV[R]_m, \sum_(s < t | ~~ mis s) L s *m d s = H *m stack_obs mis d t.
Proof.
elim: t => [|t [H IH]]; first by exists 0 => d; rewrite big_ord0 mul0mx.
rewrite /=; case Hm: (mis t) => /=.
  exists H => d; rewrite big_mkcond big_ord_recr /= Hm addr0 -big_mkcond; exact: IH.
exists (row_mx H (L t)) => d; rewrite mul_row_col -IH.
by rewrite big_mkcond big_ord_recr /= Hm -big_mkcond.
Qed.

Lemma pred_stack t : exists (c : 'cV[R]_n) (H : 'M[R]_(n, odim m mis t)),
  forall d : nat -> 'cV[R]_m, (pred M (ym mis d) t).1 = c + H *m stack_obs mis d t.
Proof.
have [c [L E]] := (aff_pred_filt M mis t).1; have [H EH] := lin_stack L t.
by exists c, H => d; apply: (etrans (E d)); rewrite /affine_est EH.
Qed.

Lemma mIn t : (t < T)%N -> mean (In t) = 0.
Proof.
move=> tT; have [Hm _ _] := opt_pred Hob mis tT.
by rewrite /In (meanD (rvm _ _) (V Hob t)) (meanM (mC M t)) Hm mV mulmx0 addr0.
Qed.
Lemma cIn t : (t < T)%N -> cov (In t) (In t) = innov_cov M t (Pp t).
Proof.
move=> tT; have [_ _ Hc] := opt_pred Hob mis tT.
rewrite {1}/In covDl covMl /In !covDr !covMr Hc.
rewrite -(cov_tr (Ep Hob mis t)) cEpV trmx0 mul0mx add0r addr0 cR // mulmxA //.
Qed.
Lemma cInZ t s : (t < T)%N -> (s < t)%N -> ~~ mis s -> cov (In t) (Z s) = 0.
Proof.
move=> tT st Hs; have [_ Hz _] := opt_pred Hob mis tT.
rewrite /In covDl covMl [cov (Ep _ _ _) _]Hz // mulmx0 add0r -(cov_tr (Z s)) cZV ?trmx0 //.
by move=> e; rewrite e ltnn in st.
Qed.
Lemma ZE t om : Z t om = mC M t *m Xp t om + md M t + In t om.
Proof.
have -> : In t om = mC M t *m (X Hob t om - Xp t om) + V Hob t om by rewrite -rvsE.
have -> : Z t om = mC M t *m X Hob t om + md M t + V Hob t om by [].
by move: (X _ _ _) (Xp _ _) (V _ _ _) => a b c; mx.
Qed.

Variables (ln : R -> R) (ln2pi : R).
Hypothesis Hln : multiplicative_log ln.

(** log density of one innovation *)
Definition step_term (d : nat -> 'cV[R]_m) t : R :=
  if mis t then 0 else
  gauss_logpdf ln ln2pi (d t) (mC M t *m (pred M (ym mis d) t).1 + md M t) (innov_cov M t (Pp t)).

Lemma step_cov t : (t < T)%N -> mis t = false ->
  exists (c : 'cV[R]_m) (H : 'M[R]_(m, odim m mis t)),
  [/\ forall d : nat -> 'cV[R]_m, mC M t *m (pred M (ym mis d) t).1 + md M t = c + H *m stack_obs mis d t,
      mean (fun om => col_mx (SU t om) (Z t om)) = col_mx (mean (SU t)) (c + H *m mean (SU t)) &
      cov (fun om => col_mx (SU t om) (Z t om)) (fun om => col_mx (SU t om) (Z t om)) =
      jblock (cov (SU t) (SU t)) H (innov_cov M t (Pp t))].
Proof.
move=> tT Hm; have [c [H EH]] := pred_stack t.
exists (mC M t *m c + md M t), (mC M t *m H).
have E1 (d : nat -> 'cV[R]_m) : mC M t *m (pred M (ym mis d) t).1 + md M t =
    mC M t *m c + md M t + (mC M t *m H) *m stack_obs mis d t.
  by rewrite EH mulmxDr mulmxA addrAC.
have EZ : Z t =1 rva (rva (rvc Sp (mC M t *m c + md M t)) (rvm (mC M t *m H) (SU t))) (In t).
  move=> om; rewrite ZE.
  have -> : Xp t om = (pred M (ym mis (fun s => Z s om)) t).1.
    by have := predE Hob mis om t; rewrite /yy /ym => ->.
  by rewrite E1.
have O : cov (In t) (SU t) = 0 by apply: orth_stack => s st; exact: cInZ.
have O' : cov (SU t) (In t) = 0 by rewrite -cov_tr O trmx0.
split=> //.
  rewrite mean_col (mean_ext EZ) (meanD (rva _ _) (In t)) mIn // addr0.
  by rewrite (meanD (rvc Sp _) (rvm _ _)) mean_c meanM.
rewrite cov_col /jblock; congr block_mx.
- rewrite (cov_ext (frefl _) EZ) (covDr (SU t) (rva _ _)) O' addr0.
  by rewrite (covDr (SU t) (rvc Sp _)) covcr add0r covMr.
- rewrite (cov_ext EZ (frefl _)) (covDl (rva _ _) (In t)) O addr0.
  by rewrite (covDl (rvc Sp _)) covcl add0r covMl.
rewrite (cov_ext EZ EZ) (covDl (rva _ _) (In t)) !(covDr _ (rva _ _) (In t)) cIn //.
rewrite !(covDr _ (rvc Sp _)) !(covDl (rvc Sp _)) !(covcl, covcr) !add0r !(covMl, covMr) O O'.
by rewrite !(mul0mx, mulmx0) addr0 add0r mulmxA.
Qed.

Lemma joint_pd t : (t <= T)%N ->
  pd (cov (SU t) (SU t)) <-> (forall s, (s < t)%N -> ~~ mis s -> pd (innov_cov M s (Pp s))).
Proof.
elim: t => [|t IH] tT.
  split=> // _; split; first by rewrite cov_tr.
  by move=> u Nu; case/eqP: Nu; apply/matrixP => -[].
have E : pd (cov (SU t.+1) (SU t.+1)) <->
    pd (cov (SU t) (SU t)) /\ (~~ mis t -> pd (innov_cov M t (Pp t))).
  have : SU t.+1 =1 fun om => snoc (mis t) (SU t om) (Z t om) by [].
  move: (SU t.+1); rewrite /=; case Hm: (mis t) => U EU.
    by rewrite (cov_ext EU EU); split=> [H|[]].
  have [c [H [_ _ EC]]] := step_cov tT Hm.
  rewrite (cov_ext EU EU) EC.
  have [SS _] : psd (innov_cov M t (Pp t)) by rewrite -cIn //; exact: cov_psd.
  have J := pd_jblock H (cov_tr (SU t) (SU t)) SS.
  by split=> [/J[]|[a b]]; [split|apply/J; split=> //; exact: b].
split.
  move=> /E[/(IH (ltnW tT)) H1 H2] s; rewrite ltnS leq_eqVlt => /orP[/eqP ->|st] //; exact: H1.
move=> H; apply/E; split; last exact: H.
by apply/(IH (ltnW tT)) => s st; apply: H; exact: ltnW.
Qed.

Lemma joint_density (d : nat -> 'cV[R]_m) t : (t <= T)%N -> pd (cov (SU t) (SU t)) ->
  gauss_logpdf ln ln2pi (stack_obs mis d t) (mean (SU t)) (cov (SU t) (SU t)) =
  \sum_(s < t) step_term d s.
Proof.
elim: t => [|t IH] tT.
  move=> _; rewrite big_ord0 /gauss_logpdf det_mx00 (ln1 Hln) mul0r !addr0 /=.
  rewrite (_ : _ - _ = 0) ?qf0 ?mulr0 //; by apply/matrixP => -[].
move=> HP; rewrite big_ord_recr /=.
have Hpd := (joint_pd tT).1 HP.
have Ht : pd (cov (SU t) (SU t)).
  by apply/(joint_pd (ltnW tT)) => s st; apply: Hpd; exact: ltnW.
rewrite -(IH (ltnW tT) Ht) /step_term.
have G b (U : RV Sp (if b then odim m mis t else (odim m mis t + m)%N)) : mis t = b ->
    U =1 (fun om => snoc b (SU t om) (Z t om)) -> (~~ b -> pd (innov_cov M t (Pp t))) ->
    gauss_logpdf ln ln2pi (snoc b (stack_obs mis d t) (d t)) (mean U) (cov U U) =
    gauss_logpdf ln ln2pi (stack_obs mis d t) (mean (SU t)) (cov (SU t) (SU t)) +
    (if b then 0 else
     gauss_logpdf ln ln2pi (d t) (mC M t *m (pred M (ym mis d) t).1 + md M t) (innov_cov M t (Pp t))).
  case: b U => U Hm EU Hp.
    by rewrite (mean_ext EU) (cov_ext EU EU) addr0.
  have [c [H [Ec Em EC]]] := step_cov tT Hm.
  rewrite (mean_ext EU) (cov_ext EU EU) EC Em Ec gauss_split //; last exact: Hp.
  by rewrite mulmxBr addrA addrAC addrK.
exact: (G (mis t) (SU t.+1) erefl (frefl _) (Hpd t (leqnn _))).
Qed.
End Joint.
