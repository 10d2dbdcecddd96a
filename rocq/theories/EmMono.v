(** EM does not decrease the likelihood. *)
From Coq Require Import String List.
From mathcomp Require Import all_ssreflect all_algebra.
From mathcomp Require Import ring.
From Verif Require Import Prelude Zmod LinAlg Numpy NumpyFacts Sklearn SklearnFacts Standard Model KfSpec StandardInit StandardFacts
  SpecL2 L2Facts Lmmse Exists KfOptimal KfModelFacts KfOnline KfEm KfEquiv GaussSpec KfLoglik Joint KfJoint KfGlue EmForm EmSpec EmMax EmStep EmGlue EmChain.
Import GRing.Theory Num.Theory Order.Theory.

Set Implicit Arguments.
Unset Strict Implicit.
Unset Printing Implicit Defensive.
Local Open Scope ring_scope.

Section Gain.
Variables (R : rcfType) (ln : R -> R) (ln2pi : R).
Hypotheses (lnM : multiplicative_log ln) (lnC : concave_log ln).
Local Notation E := (exp_logpdf ln ln2pi).

(** best affine prediction error *)
Lemma dev_ge (Sp : l2space R) k l (eps : RV Sp k) (Z : RV Sp l) (B : 'M[R]_(k, l)) (c : 'cV[R]_k) (Y : Om Sp -> 'cV[R]_k) :
  mean eps = 0 -> cov eps Z = 0 -> (forall om, Y om = eps om + (B *m Z om + c)) ->
  lep (cov eps eps) (mom Y Y).
Proof.
move=> H1 H2 HY; pose V := rva eps (rva (rvm B Z) (rvc Sp c)).
have -> : mom Y Y = mom V V by exact: mom_ext.
have H3 : cov Z eps = 0 by rewrite -cov_tr H2 trmx0.
rewrite mom_cov (covDl eps) !(covDr _ eps) (covDr eps (rvm B Z)) (covDl (rvm B Z) _ eps) covMr H2 mul0mx.
rewrite covcr covcl covMl H3 mulmx0 !addr0 add0r /lep addrAC.
rewrite [_ + _ - _]addrAC addrN add0r.
by apply: psdD; [exact: cov_psd|exact: psd_gram].
Qed.
Lemma gibbs k (V V' S S' : 'M[R]_k) : pd V -> pd V' -> S = V -> lep V S' -> E V' S' <= E V S.
Proof.
move=> HV HV' -> HS; apply: le_trans (exp_logpdf_le ln ln2pi HV' HS) _.
exact: exp_logpdf_best.
Qed.

Variables (n m T : nat) (M M' : lgm R n m) (mis : nat -> bool) (y : nat -> 'cV[R]_m).
Variables (mp mf mp' mf' : nat -> 'cV[R]_n) (Pp Pf Pp' Pf' : nat -> 'M[R]_n).
Hypotheses (K : kalman M mis y mp mf Pp Pf) (K' : kalman M' mis y mp' mf' Pp' Pf').
Hypotheses (H : pd_model mis T M) (H' : pd_model mis T M').
Hypothesis T0 : (0 < T)%N.
Variables (Sp : l2space R) (X : nat -> RV Sp n).
Hypothesis Xlast : mean (X T.-1) = mf T.-1 /\ cov (X T.-1) (X T.-1) = Pf T.-1.
Hypothesis Xback : forall t, (t.+1 < T)%N -> exists eps : RV Sp n,
  [/\ forall om, back_dev M mp mf Pf X t om = eps om, mean eps = 0, cov eps (X t.+1) = 0 &
      cov eps eps = back_cov M Pf t].
Definition Qtot (N : lgm R n m) : R :=
  Q_init ln ln2pi (fun t => X t) (mmu N) (mP N) + Q_trans ln ln2pi (fun t => X t) T (mA N) (mb N) (mQ N)
  + Q_obs ln ln2pi (fun t => X t) y mis T (mC N) (md N) (mR N).

Lemma QtotE N mq mg Pq Pg : kalman N mis y mq mg Pq Pg -> pd_model mis T N ->
  Qtot N = \sum_(t < T) lik ln ln2pi N mis y mq Pq t + last ln ln2pi mg Pg X T.-1
   + \sum_(t < T.-1) back ln ln2pi N mq mg Pg X t.
Proof.
move=> HK HN; have T1 : (T.-1 < T)%N by rewrite prednK.
by have := chain ln2pi lnM HK HN X T1; rewrite prednK.
Qed.

Lemma gain_ge : Qtot M' - Qtot M <=
  \sum_(t < T) lik ln ln2pi M' mis y mp' Pp' t - \sum_(t < T) lik ln ln2pi M mis y mp Pp t.
Proof.
rewrite (QtotE K H) (QtotE K' H').
have T1 : (T.-1 < T)%N by rewrite prednK.
have Hl : last ln ln2pi mf' Pf' X T.-1 <= last ln ln2pi mf Pf X T.-1.
  case: Xlast => H1 H2; pose eps := rva (X T.-1) (rvc Sp (- mf T.-1)).
  have me : mean eps = 0 by rewrite meanD mean_c H1 addrN.
  have ce : cov eps eps = Pf T.-1 by rewrite covDl !covDr !covcl !covcr H2 !addr0.
  rewrite /last; apply: gibbs.
  - exact: (pd_filt K H). - exact: (pd_filt K' H').
  - by rewrite -[LHS]/(mom eps eps) mom_cov ce me mul0mx addr0.
  - rewrite -ce; apply: (dev_ge (Z := one1 Sp) (B := 0) (c := mf T.-1 - mf' T.-1)) => //; first exact: covcr.
    by move=> om; rewrite /= mul0mx add0r addrA subrK.
have Hb : \sum_(t < T.-1) back ln ln2pi M' mp' mf' Pf' X t <= \sum_(t < T.-1) back ln ln2pi M mp mf Pf X t.
  apply: ler_sum => t _; have [t1 t2] := lt1 t; have tT : (t < T.-1)%N by [].
  have [eps [e1 e2 e3 e4]] := Xback t2.
  rewrite /back; apply: gibbs.
  - by apply: pd_bP; [exact: (pd_filt K H)|exact: (pd_Q H)].
  - by apply: pd_bP; [exact: (pd_filt K' H')|exact: (pd_Q H')].
  - by rewrite /sqmom (mom_ext (X' := eps) (Y' := eps)) // mom_cov e2 mul0mx addr0.
  - rewrite -e4.
    pose B := back_gain M Pf t - back_gain M' Pf' t.
    apply: (dev_ge (Z := X t.+1) (B := B) (c := mf t - back_gain M Pf t *m mp t.+1 - mf' t + back_gain M' Pf' t *m mp' t.+1)) => // om.
    rewrite -e1 /back_dev /B !mulmxBl !mulmxBr; zmod.
move: Hl Hb; set a := \sum_(t < T) _; set b := last _ _ _ _ _ _; set c := \sum_(t < T.-1) _.
set a' := \sum_(t < T) _; set b' := last _ _ _ _ _ _; set c' := \sum_(t < T.-1) _ => Hl Hb.
have -> : a + b + c - (a' + b' + c') = (a - a') + ((b - b') + (c - c')) by ring.
by rewrite ger_addl -[0]addr0 ler_add // subr_le0.
Qed.
End Gain.

Section Inst.
Variables (R : rcfType) (n m : nat) (M : lgm R n m) (T : nat) (mis : nat -> bool) (y : nat -> 'cV[R]_m).
Definition mp_ t := (pred M (ym mis y) t).1.
Definition Pp_ t := (pred M (ym mis y) t).2.
Definition mf_ t := (filt M (ym mis y) t).1.
Definition Pf_ t := (filt M (ym mis y) t).2.
Lemma kalman_rec : kalman M mis y mp_ mf_ Pp_ Pf_.
Proof.
have C t : correct M (ym mis y) t = fun s => if mis t then s else
   (s.1 + gain M t s.2 *m (y t - (mC M t *m s.1 + md M t)), s.2 - gain M t s.2 *m (mC M t *m s.2)).
  by rewrite /correct /ym; case: (mis t).
have F t : filt M (ym mis y) t = correct M (ym mis y) t (pred M (ym mis y) t) by exact: erefl.
split=> [||t|t|t Om|t Om|t Om]; try exact: erefl.
- by rewrite /mf_ F C (negbTE Om).
- by rewrite /Pf_ F C (negbTE Om).
- by rewrite /mf_ /Pf_ F C Om.
Qed.
Lemma PpE t : Pp_ t = Pp M mis t. Proof. exact: (cov_indep M mis t y (fun _ => 0)).1. Qed.
Lemma PfE' t : Pf_ t = Pf M mis t. Proof. exact: (cov_indep M mis t y (fun _ => 0)).2. Qed.
Lemma gainE t : back_gain M Pf_ t = LL M mis t.
Proof. exact: (sgain_indep M mis t y (fun _ => 0)). Qed.
Lemma likE ln ln2pi t : lik ln ln2pi M mis y mp_ Pp_ t = step_term M mis ln ln2pi y t.
Proof. by rewrite /lik /step_term /innov_cov /bS PpE. Qed.

Variables (Sp : l2space R) (x : nat -> Om Sp -> 'cV[R]_n) (z : nat -> Om Sp -> 'cV[R]_m).
Variables (w : nat -> Om Sp -> 'cV[R]_n) (v : nat -> Om Sp -> 'cV[R]_m).
Hypothesis Hob : obeys M T x z w v.
Hypothesis T0 : (0 < T)%N.
Local Notation X := (Xpost mis y Hob).
Lemma post_last : mean (X T.-1) = mf_ T.-1 /\ cov (X T.-1) (X T.-1) = Pf_ T.-1.
Proof.
have T1 : (T.-1 < T)%N by rewrite prednK.
rewrite (Xpost_mean mis y Hob T1) (Xpost_cov mis y Hob T1) /xs_ /Ps_ subnn; split; first exact: erefl.
by rewrite PfE'.
Qed.
Lemma post_back t : (t.+1 < T)%N -> exists eps : RV Sp n,
  [/\ forall om, back_dev M mp_ mf_ Pf_ X t om = eps om, mean eps = 0, cov eps (X t.+1) = 0 &
      cov eps eps = back_cov M Pf_ t].
Proof.
move=> tT; have tT0 : (t < T)%N by exact: ltnW.
have Ej : (T.-1 - t)%N = (T.-1 - t.+1).+1 by rewrite subnSK // -ltnS prednK.
exists (eps Hob mis t); split.
- move=> om; rewrite /back_dev gainE.
  pose Ev := rvf (Es Hob mis (T.-1 - t.+1) t.+1) om.
  have H1 : X t om = xs_ T M mis y t + (eps Hob mis t om + LL M mis t *m Ev).
    exact: (f_equal (fun q => xs_ T M mis y t + q) (etrans (f_equal (fun j => rvf (Es Hob mis j t) om) Ej) (EsE Hob mis _ t om))).
  have H2 : X t.+1 om = xs_ T M mis y t.+1 + Ev by exact: erefl.
  have H3 : xs_ T M mis y t = mf_ t + LL M mis t *m (xs_ T M mis y t.+1 - mp_ t.+1).
    by rewrite -gainE /xs_ Ej; exact: erefl.
  rewrite H1 H2 H3; clear H1 H2 H3; move: Ev (LL M mis t) (rvf (eps Hob mis t) om) (xs_ T M mis y t.+1) (mp_ t.+1) (mf_ t).
  by move=> E L e xx p f; rewrite !mulmxDr !mulmxN; zmod.
- rewrite /eps meanB meanM (op_m (opt_filt Hob mis tT0)) (op_m (opt_pred Hob mis tT)).
  by rewrite mulmx0 subrr.
- rewrite /Xpost (covDr _ (rvc Sp _)) covcr add0r; exact: ceEs.
- rewrite cee // /back_cov /bP -/(back_gain M Pf_ t) gainE PfE'; congr (_ - _).
  have := f_equal trmx (LLE Hob mis tT); rewrite [LHS]trmx_mul [RHS]trmx_mul [(_^T)^T]trmxK.
  rewrite (psd_sym (psd_Pp Hob mis tT)) (psd_sym (psd_Pf Hob mis tT0)) => <-.
  by rewrite mulmxA.
Qed.
End Inst.

Section Improve.
Variables (R : rcfType) (ln : R -> R) (ln2pi : R) (Sp : l2space R) (n m T : nat) (X : nat -> Om Sp -> 'cV[R]_n).
Variables (y : nat -> 'cV[R]_m) (mis : nat -> bool) (sel : pname -> Prop) (M M' : lgm R n m).
Hypothesis dec : forall q, sel q \/ ~ sel q.
Hypothesis HS : mstep ln ln2pi X y mis T sel M M'.
Hypothesis Hst : em_steady T sel M.
Hypotheses (H : pd_model mis T M) (H' : pd_model mis T M').
Local Notation Qi := (Q_init ln ln2pi X).
Local Notation Qt := (Q_trans ln ln2pi X T).
Local Notation Qo := (Q_obs ln ln2pi X y mis T).

Lemma Qi_le : Qi (mmu M) (mP M) <= Qi (mmu M') (mP M').
Proof.
apply: (@le_trans _ _ (Qi (mmu M') (mP M))).
  case: (dec Ism) => s; first exact: (ms_im HS s (pd_P H)).
  by rewrite (ms_im0 HS s).
case: (dec Isc) => s; first exact: (ms_ic HS s (pd_P H') (pd_P H)).
by rewrite (ms_ic0 HS s).
Qed.

Lemma Qt_ext A A' b b' Q Q' : kept A A' T.-1 -> kept b b' T.-1 -> kept Q Q' T.-1 -> Qt A' b' Q' = Qt A b Q.
Proof. by move=> HA Hb HQ; apply: eq_bigr => t _; rewrite HA ?Hb ?HQ. Qed.
Lemma Qo_ext C C' d d' V V' : kept C C' T -> kept d d' T -> kept V V' T -> Qo C' d' V' = Qo C d V.
Proof. by move=> HC Hd HV; apply: eq_bigr => t _; rewrite HC ?Hd ?HV. Qed.
Lemma kept_refl V (f : nat -> V) T' : kept f f T'. Proof. by []. Qed.
Lemma steady_kept V (f : nat -> V) T' : steady f T' -> kept f (fun _ => f 0%N) T'.
Proof. by move=> Hf t tT; rewrite Hf. Qed.
Lemma steady_kept' V (f : nat -> V) T' : steady f T' -> kept (fun _ => f 0%N) f T'.
Proof. by move=> Hf t tT; rewrite Hf. Qed.

Lemma Qt_le : Qt (mA M) (mb M) (mQ M) <= Qt (mA M') (mb M') (mQ M').
Proof.
case: (posnP T.-1) => T1; first by rewrite /Q_trans T1 !big_ord0.
have pQ := pd_Q H T1; have pQ' := pd_Q H' T1.
apply: (@le_trans _ _ (Qt (mA M') (mb M) (mQ M))).
  case: (dec Tm) => s; last by rewrite (Qt_ext (ms_tm0 HS s) (@kept_refl _ _ _) (@kept_refl _ _ _)).
  have Q0 := es_Q Hst (or_introl s); have [_ B] := ms_tm HS s pQ.
  have := B (mA M 0%N) I.
  rewrite (Qt_ext (steady_kept (es_A Hst s)) (@kept_refl _ _ _) (steady_kept Q0)).
  by rewrite (Qt_ext (@kept_refl _ _ _) (@kept_refl _ _ _) (steady_kept Q0)).
apply: (@le_trans _ _ (Qt (mA M') (mb M) (mQ M'))).
  case: (dec Tc) => s; last by rewrite (Qt_ext (@kept_refl _ _ _) (@kept_refl _ _ _) (ms_tc0 HS s)).
  have Q0 := es_Q Hst (or_intror (or_intror s)); have [_ B] := ms_tc HS s.
  have := (B pQ').2 _ pQ.
  by rewrite (Qt_ext (@kept_refl _ _ _) (@kept_refl _ _ _) (steady_kept Q0)).
case: (dec To) => s; last by rewrite (Qt_ext (@kept_refl _ _ _) (ms_to0 HS s) (@kept_refl _ _ _)).
have Q0 : steady (mQ M') T.-1.
  case: (dec Tc) => sc t tT; first exact: (ms_tc HS sc).1.
  by rewrite !(ms_tc0 HS sc) //; exact: (es_Q Hst (or_intror (or_introl s))).
have [_ B] := ms_to HS s pQ'; have := B (mb M 0%N) I.
rewrite (Qt_ext (@kept_refl _ _ _) (steady_kept (es_b Hst s)) (steady_kept Q0)).
by rewrite (Qt_ext (@kept_refl _ _ _) (@kept_refl _ _ _) (steady_kept Q0)).
Qed.

Lemma Qo_le : Qo (mC M) (md M) (mR M) <= Qo (mC M') (md M') (mR M').
Proof.
case: (pickP (fun t : 'I_T => ~~ mis t)) => [t0 o0|none]; last first.
  by rewrite /Q_obs !big_pred0.
have T0 : (0 < T)%N by case: T t0 {o0} => // -[].
have pR := pd_R H (ltn_ord t0) o0; have pR' := pd_R H' (ltn_ord t0) o0.
apply: (@le_trans _ _ (Qo (mC M') (md M) (mR M))).
  case: (dec Om') => s; last by rewrite (Qo_ext (ms_om0 HS s) (@kept_refl _ _ _) (@kept_refl _ _ _)).
  have R0 := es_R Hst (or_introl s); rewrite (R0 _ (ltn_ord t0)) in pR; have [_ B] := ms_om HS s pR.
  have := B (mC M 0%N) I.
  rewrite (Qo_ext (steady_kept (es_C Hst s)) (@kept_refl _ _ _) (steady_kept R0)).
  by rewrite (Qo_ext (@kept_refl _ _ _) (@kept_refl _ _ _) (steady_kept R0)).
apply: (@le_trans _ _ (Qo (mC M') (md M) (mR M'))).
  case: (dec Oc) => s; last by rewrite (Qo_ext (@kept_refl _ _ _) (@kept_refl _ _ _) (ms_oc0 HS s)).
  have R0 := es_R Hst (or_intror (or_intror s)); rewrite (R0 _ (ltn_ord t0)) in pR; have [c B] := ms_oc HS s.
  rewrite c in pR'; have := (B pR').2 _ pR.
  by rewrite (Qo_ext (@kept_refl _ _ _) (@kept_refl _ _ _) (steady_kept R0)).
case: (dec Oo) => s; last by rewrite (Qo_ext (@kept_refl _ _ _) (ms_oo0 HS s) (@kept_refl _ _ _)).
have R0 : steady (mR M') T.
  case: (dec Oc) => sc t tT; first exact: (ms_oc HS sc).1.
  by rewrite !(ms_oc0 HS sc) //; exact: (es_R Hst (or_intror (or_introl s))).
rewrite (R0 _ (ltn_ord t0)) in pR'; have [_ B] := ms_oo HS s pR'; have := B (md M 0%N) I.
rewrite (Qo_ext (@kept_refl _ _ _) (steady_kept (es_d Hst s)) (steady_kept R0)).
by rewrite (Qo_ext (@kept_refl _ _ _) (@kept_refl _ _ _) (steady_kept R0)).
Qed.


(** the conditions persist *)
Lemma steady_next : em_steady T sel M'.
Proof.
have K V (f g : nat -> V) T' : kept f g T' -> steady f T' -> steady g T'.
  by move=> Hk Hf t tT; rewrite !Hk ?Hf //; exact: leq_ltn_trans tT.
split=> s.
- by move=> t _; exact: (ms_tm HS s (pd1 R n)).1.
- by move=> t _; exact: (ms_to HS s (pd1 R n)).1.
- case: (dec Tc) => sc; first by move=> t _; exact: (ms_tc HS sc).1.
  exact: K (ms_tc0 HS sc) (es_Q Hst s).
- by move=> t _; exact: (ms_om HS s (pd1 R m)).1.
- by move=> t _; exact: (ms_oo HS s (pd1 R m)).1.
- case: (dec Oc) => sc; first by move=> t _; exact: (ms_oc HS sc).1.
  exact: K (ms_oc0 HS sc) (es_R Hst s).
Qed.
End Improve.
Lemma Qtot_le (R : rcfType) (ln : R -> R) (ln2pi : R) (Sp : l2space R) n m T (X : nat -> RV Sp n) (y : nat -> 'cV[R]_m)
   mis sel (M M' : lgm R n m) : (forall q, sel q \/ ~ sel q) -> mstep ln ln2pi (fun t => X t) y mis T sel M M' ->
  em_steady T sel M -> pd_model mis T M -> pd_model mis T M' ->
  Qtot ln ln2pi T mis y X M <= Qtot ln ln2pi T mis y X M'.
Proof.
move=> dec HS Hst H H'; rewrite /Qtot.
by apply: ler_add; [apply: ler_add; [exact: Qi_le HS _ _|exact: (Qt_le dec HS)]|exact: (Qo_le dec HS)].
Qed.

(** ** the estimated state covariances stay positive definite *)
Section Persist.
Variables (R : rcfType) (n m : nat) (M : lgm R n m) (T : nat) (mis : nat -> bool) (y : nat -> 'cV[R]_m).
Variables (Sp : l2space R) (x : nat -> Om Sp -> 'cV[R]_n) (z : nat -> Om Sp -> 'cV[R]_m).
Variables (w : nat -> Om Sp -> 'cV[R]_n) (v : nat -> Om Sp -> 'cV[R]_m).
Hypothesis Hob : obeys M T x z w v.
Hypothesis T0 : (0 < T)%N.
Hypothesis H : pd_model mis T M.
Local Notation X := (Xpost mis y Hob).
Lemma pd_back t : (t.+1 < T)%N -> pd (back_cov M (Pf_ M mis y) t).
Proof.
move=> tT; apply: pd_bP; last by apply: (pd_Q H); case: T tT.
by apply: (pd_filt (kalman_rec M mis y) H); exact: ltnW.
Qed.
(** X t in terms of X t.+1 *)
Lemma X_split t : (t.+1 < T)%N -> exists (L : 'M[R]_n) (c : 'cV[R]_n) (eps : RV Sp n),
  [/\ forall om, X t om = rva (rva eps (rvm L (X t.+1))) (rvc Sp c) om, cov eps (X t.+1) = 0 & pd (cov eps eps)].
Proof.
move=> tT; have [eps [E1 E2 E3 E4]] := post_back mis y Hob T0 tT.
exists (back_gain M (Pf_ M mis y) t), (mf_ M mis y t - back_gain M (Pf_ M mis y) t *m mp_ M mis y t.+1), eps.
split=> //; last by rewrite E4; exact: pd_back.
move=> om; have {E1} := E1 om; rewrite /back_dev.
set L := back_gain _ _ _; set f := mf_ _ _ _ _; set p := mp_ _ _ _ _ => E1.
have -> : rva (rva eps (rvm L (X t.+1))) (rvc Sp (f - L *m p)) om = eps om + L *m X t.+1 om + (f - L *m p) by [].
rewrite -E1; clear; move: (rvf (X t) om) (rvf (X t.+1) om) L f p => a b L f p.
by rewrite mulmxBr; zmod.
Qed.
Lemma pd_post t : (t < T)%N -> pd (cov (X t) (X t)).
Proof.
move=> tT; have -> : t = (T.-1 - (T.-1 - t))%N by rewrite subKn // -ltnS prednK.
elim: (T.-1 - t)%N (leq_subr t T.-1) => [|k IH] kT.
  by rewrite subn0 (post_last mis y Hob T0).2; apply: (pd_filt (kalman_rec M mis y) H); rewrite prednK.
have E : (T.-1 - k.+1).+1 = (T.-1 - k)%N by rewrite subnSK.
have tT' : ((T.-1 - k.+1).+1 < T)%N by rewrite E -[Y in (_ < Y)%N](prednK T0) ltnS leq_subr.
have [L [c [eps [E1 E2 E3]]]] := X_split tT'.
rewrite (cov_ext E1 E1) (covDl _ (rvc Sp c)) covcl (covDr _ _ (rvc Sp c)) covcr !addr0.
rewrite (covDl eps) !(covDr _ eps) !covMl !covMr -[cov (X _) eps]cov_tr E2 trmx0 mul0mx mulmx0 addr0 add0r.
by apply: pdDr => //; rewrite mulmxA; apply: psd_congr; apply: pd_psd; rewrite E; apply: IH; exact: ltnW.
Qed.
Lemma pd_trd (A : 'M[R]_n) (b : 'cV[R]_n) t : (t.+1 < T)%N -> pd (sqmom (fun om => X t.+1 om - A *m X t om - b)).
Proof.
move=> tT; have [L [c [eps [E1 E2 E3]]]] := X_split tT.
pose U := rva (rva (rvm (1%:M - A *m L) (X t.+1)) (rvm (- A) eps)) (rvc Sp (- b - A *m c)).
have EU om : X t.+1 om - A *m X t om - b = U om.
  rewrite E1.
  have -> : U om = (1%:M - A *m L) *m X t.+1 om + (- A) *m eps om + (- b - A *m c) by [].
  have -> : rva (rva eps (rvm L (X t.+1))) (rvc Sp c) om = eps om + L *m X t.+1 om + c by [].
  clear; move: (rvf (X t.+1) om) (rvf eps om) => a e.
  rewrite !mulmxDr mulmxBl mul1mx mulNmx !mulmxA.
  move: (A *m e) (A *m L *m a) (A *m c) => p q r; zmod.
rewrite /sqmom (mom_ext EU EU).
rewrite (mom_cov U); apply: pdDr; last exact: psd_gram.
rewrite (covDl _ (rvc Sp _)) covcl (covDr _ _ (rvc Sp _)) covcr !addr0.
rewrite (covDl (rvm _ _)) !(covDr _ (rvm _ _)) !covMl !covMr -[cov (X _) eps]cov_tr E2 trmx0 ?(mul0mx, mulmx0) addr0 add0r.
have P1 := pd_post tT; have P2 := pd_psd E3.
split; first by rewrite linearD /= !trmx_mul !trmxK (pd_sym P1) (pd_sym E3) !mulmxA.
move=> u u0; rewrite qfD !mulmxA !qf_congr.
have Q1 := (pd_psd P1).2 ((1%:M - A *m L)^T *m u); have Q2 := P2.2 ((- A)^T *m u).
case: (eqVneq ((- A)^T *m u) 0) => [e0|ne]; last first.
  by apply: ltr_paddl => //; exact: E3.2.
apply: ltr_paddr => //.
have -> : (1%:M - A *m L)^T *m u = u.
  rewrite linearB /= trmx1 trmx_mul mulmxBl mul1mx -mulmxA.
  have -> : A^T *m u = 0 by apply/eqP; rewrite -oppr_eq0 -mulNmx -linearN /= e0.
  by rewrite mulmx0 subr0.
exact: P1.2.
Qed.
Lemma em_pd e :
  let M' := em_model T (xs_ T M mis y) (Ps_ T M mis) (Lag_ T M mis) mis y M e in
  (sel e Oc -> forall t, (t < T)%N -> ~~ mis t -> pd (mR M' t)) -> pd_model mis T M'.
Proof.
move=> M' HR; split.
- rewrite /M' /em_model /=; case: (sel e Isc); last exact: pd_P H.
  rewrite -(ini_dev T0 (Xpost_mean mis y Hob) (Xpost_cov mis y Hob)).
  set mu := (if _ then _ else _).
  have -> : sqmom (fun om => X 0%N om - mu) = mom (rva (X 0%N) (rvc Sp (- mu))) (rva (X 0%N) (rvc Sp (- mu))) by [].
  rewrite mom_cov; apply: pdDr; last exact: psd_gram.
  rewrite (covDl _ (rvc Sp _)) covcl (covDr _ _ (rvc Sp _)) covcr !addr0; exact: pd_post.
- move=> t tT; rewrite /M' /em_model /=; case Es: (sel e Tc); last exact: (pd_Q H).
  rewrite (tc_mean (Xpost_mean mis y Hob) (Xpost_cov mis y Hob) (Xpost_lag T0 mis y Hob)) cnt1.
  have T3 : (0 < T.-1)%N by exact: leq_ltn_trans tT.
  apply: pdZ; first by rewrite invr_gt0 ltr0n.
  rewrite (bigD1 (Ordinal T3)) //=; apply: pdDr; first by apply: pd_trd; exact: (lt1 (Ordinal T3)).2.
  apply: psd_sum => s _; apply: pd_psd; apply: pd_trd; exact: (lt1 s).2.
- move=> t tT Om; case Es: (sel e Oc); first by apply: HR.
  by rewrite /M' /em_model /= Es; exact: (pd_R H).
Qed.
End Persist.

(** ** C22 *)
Section Mono.
Variables (R : rcfType) (ln : R -> R) (ln2pi : R).
Hypotheses (lnM : multiplicative_log ln) (lnC : concave_log ln).
Variables (n m T : nat) (mis : nat -> bool) (y : nat -> 'cV[R]_m) (zs : seq (orow R m)).
Hypothesis T0 : (0 < T)%N.
Hypothesis Hrows : rows_of T mis y zs.
Hypothesis Hk : (T != 1%N) || (m <= 1)%N.

Lemma step_full (o : kf R) (M : lgm R n m) ev : kf_model o T M ->
  exists p', [/\ kf_em o (O2 m zs) 1 ev = (set_params o p', Ok tt),
    kf_model (set_params o p') T (M_new o T M mis y ev) &
    const2 (k_oc o) -> const2 (Some (p_oc p'))].
Proof.
move=> Ho; have [p' [E1 E2 E3]] := em_form (xs_ T M mis y) (Ps_ T M mis) (Lag_ T M mis) Hrows (requested o ev) (kf_model_params Ho) T0.
exists p'; split.
- rewrite kf_emE /em_with parse_keep; last by rewrite /keeps (size_rows Hrows).
  by rewrite (initialize_parametersE (km_rs Ho)) /= (em_iter_rows Ho T0 Hrows) E1.
- by apply: set_model => //; [exact: km_n Ho|exact: km_m Ho|exact: km_rs Ho].
- move=> Hc; rewrite -[p_oc p']/(field p' Oc) E3; case: (sel _ Oc) => //=.
  by case: (k_oc o) Hc => [[]|].
Qed.

Lemma loglik_pd (o : kf R) (M : lgm R n m) : kf_model o T M -> const2 (k_oc o) -> psd_model M T -> pd_model mis T M ->
  kf_loglikelihood ln ln2pi o (O2 m zs) = Ok (\sum_(t < T) step_term M mis ln ln2pi y t).
Proof.
move=> Ho Hc HM Hpd; apply: (loglik_sum (T := T)) => // t tT Om.
apply: pdD; last exact: (pd_R Hpd).
by rewrite mulmxA; apply: psd_congr; exact: (Pp_psd HM mis tT).
Qed.

Lemma mono_step (o : kf R) (M : lgm R n m) ev : kf_model o T M -> psd_model M T -> pd_model mis T M ->
  em_steady T (selects (requested o ev)) M -> 
  let M' := M_new o T M mis y ev in
  (selects (requested o ev) Oc -> forall t, (t < T)%N -> ~~ mis t -> pd (mR M' t)) ->
  [/\ psd_model M' T, pd_model mis T M', em_steady T (selects (requested o ev)) M' &
      \sum_(t < T) step_term M mis ln ln2pi y t <= \sum_(t < T) step_term M' mis ln ln2pi y t].
Proof.
move=> Ho HM Hpd Hst M' HR.
have [Sp [x [z [w [v Hob]]]]] := model_exists HM.
have HS : mstep ln ln2pi (fun t => Xpost mis y Hob t) y mis T (selects (requested o ev)) M M'.
  apply: (mstep_ext (sel_selects (requested o ev))).
  apply: em_mstep => //; [exact: Xpost_mean|exact: Xpost_cov|exact: Xpost_lag].
have dec q : selects (requested o ev) q \/ ~ selects (requested o ev) q.
  by case E: (sel (requested o ev) q); [left|right => /sel_selects]; rewrite ?E //; apply/sel_selects; rewrite E.
have Hpd' : pd_model mis T M'.
  exact: (em_pd Hob T0 Hpd (fun s => HR ((sel_selects _ _).1 s))).
have HM' : psd_model M' T.
  by apply: (em_psd (X := fun t => Xpost mis y Hob t)) => //; [exact: Xpost_mean|exact: Xpost_cov|exact: Xpost_lag].
split=> //; first exact: (steady_next dec HS).
rewrite -subr_ge0; apply: le_trans (_ : Qtot ln ln2pi T mis y (Xpost mis y Hob) M' - Qtot ln ln2pi T mis y (Xpost mis y Hob) M <= _).
  by rewrite subr_ge0; exact: Qtot_le HS _ _ _.
have G := gain_ge ln2pi lnM lnC (kalman_rec M mis y) (kalman_rec M' mis y) Hpd Hpd' T0 (post_last mis y Hob T0) (post_back mis y Hob T0).
apply: le_trans G _.
by rewrite (eq_bigr _ (fun (t : 'I_T) _ => likE M' mis y ln ln2pi t)) (eq_bigr _ (fun (t : 'I_T) _ => likE M mis y ln ln2pi t)).
Qed.

Lemma em_mono (o : kf R) (M : lgm R n m) ev N : kf_model o T M -> const2 (k_oc o) ->
  psd_model M T -> pd_model mis T M -> em_steady T (selects (requested o ev)) M ->
  (selects (requested o ev) Oc -> forall k o' (M' : lgm R n m), (0 < k <= N)%N ->
     kf_em o (O2 m zs) k ev = (o', Ok tt) -> kf_model o' T M' ->
     forall t, (t < T)%N -> ~~ mis t -> pd (mR M' t)) ->
  exists o' l l', [/\ kf_em o (O2 m zs) N ev = (o', Ok tt),
    kf_loglikelihood ln ln2pi o (O2 m zs) = Ok l, kf_loglikelihood ln ln2pi o' (O2 m zs) = Ok l' & l <= l'].
Proof.
move=> Ho Hc HM Hpd Hst HR.
suff [o' [M' [[E Ho' Hc'] [HM' Hpd' Hst' Hr Hle]]]] : exists o' (M' : lgm R n m),
    [/\ kf_em o (O2 m zs) N ev = (o', Ok tt), kf_model o' T M' & const2 (k_oc o')] /\
    [/\ psd_model M' T, pd_model mis T M', em_steady T (selects (requested o ev)) M', requested o' ev = requested o ev &
     \sum_(t < T) step_term M mis ln ln2pi y t <= \sum_(t < T) step_term M' mis ln ln2pi y t].
  exists o', (\sum_(t < T) step_term M mis ln ln2pi y t), (\sum_(t < T) step_term M' mis ln ln2pi y t).
  by split=> //; exact: loglik_pd.
elim: N HR => [|k IH] HR.
  exists (set_params o (init_value o)), M; split; split=> //.
  - by rewrite kf_emE /em_with parse_keep ?(initialize_parametersE (km_rs Ho)) // /keeps (size_rows Hrows).
  - apply: set_model; [exact: km_n Ho|exact: km_m Ho|exact: km_rs Ho|exact: kf_model_params].
  - by move: Hc; rewrite /= ; case: (k_oc o) => [[]|].
have HR' : selects (requested o ev) Oc -> forall k' o' (M' : lgm R n m), (0 < k' <= k)%N ->
     kf_em o (O2 m zs) k' ev = (o', Ok tt) -> kf_model o' T M' ->
     forall t, (t < T)%N -> ~~ mis t -> pd (mR M' t).
  by move=> s k' o1 M1 /andP[h1 h2]; apply: HR => //; rewrite h1 (leq_trans h2).
have [o1 [M1 [[E Ho1 Hc1] [HM1 Hpd1 Hst1 Hr Hle]]]] := IH HR'.
have [p' [E1 E2 E3]] := step_full ev Ho1.
have E4 : kf_em o (O2 m zs) k.+1 ev = (set_params o1 p', Ok tt).
  by rewrite -addn1 -(kf_em_compose _ (km_rs Ho) E).
rewrite -Hr in Hst1.
have HR1 : selects (requested o1 ev) Oc -> forall t, (t < T)%N -> ~~ mis t -> pd (mR (M_new o1 T M1 mis y ev) t).
  by rewrite Hr => s; apply: (HR s k.+1 (set_params o1 p')) => //; rewrite /= leqnn.
have [A1 A2 A3 A4] := mono_step Ho1 HM1 Hpd1 Hst1 HR1.
exists (set_params o1 p'), (M_new o1 T M1 mis y ev); split; split=> //.
- exact: E3.
- by rewrite -Hr.
- exact: le_trans Hle A4.
Qed.
End Mono.
