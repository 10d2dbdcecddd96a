(** The textbook recursions give best affine estimates. *)
From mathcomp Require Import all_ssreflect all_algebra.
From Verif Require Import Zmod LinAlg Numpy Model SpecL2 L2Facts.
Import GRing.Theory Num.Theory.

Set Implicit Arguments.
Unset Strict Implicit.
Unset Printing Implicit Defensive.
Local Open Scope ring_scope.

Section Gains.
Variables (R : rcfType).
Lemma gain_innov n m (M : lgm R n m) t (P : 'M[R]_n) : psd P -> psd (mR M t) ->
  gain M t P *m innov_cov M t P = P *m (mC M t)^T.
Proof.
move=> HP HR; rewrite /gain [P *m _]mulmxA.
set C := mC M t; set S := innov_cov M t P.
have HCP : psd (C *m P *m C^T) by exact: psd_congr.
rewrite (pinv_ker (S := S)) // => v Hv.
apply: (psd_ker_congr HP).
by case: (psd_kerD (v := v) HCP HR); rewrite // -mulmxA.
Qed.

Lemma sgain_pred n (A P Q : 'M[R]_n) : psd P -> psd Q ->
  (P *m (A^T *m pinv (A *m (P *m A^T) + Q))) *m (A *m (P *m A^T) + Q) = P *m A^T.
Proof.
move=> HP HQ; rewrite [P *m _]mulmxA.
have HCP : psd (A *m P *m A^T) by exact: psd_congr.
rewrite pinv_ker // => v Hv.
apply: (psd_ker_congr HP).
by case: (psd_kerD (v := v) HCP HQ); rewrite // -mulmxA.
Qed.
End Gains.

Section Opt.
Variables (R : rcfType) (Sp : l2space R) (n m : nat) (M : lgm R n m) (T : nat).
Notation Omega := (Om Sp).
Variables (x : nat -> Omega -> 'cV[R]_n) (z : nat -> Omega -> 'cV[R]_m).
Variables (w : nat -> Omega -> 'cV[R]_n) (v : nat -> Omega -> 'cV[R]_m).
Hypothesis Hob : obeys M T x z w v.
Variable mis : nat -> bool.

(** totalised noises *)
Lemma cut_sub k (b : bool) (f : Omega -> 'cV[R]_k) (H : b -> rvec f) :
  rvec (fun om => if b then f om else 0).
Proof.
case: b H => H; first exact: H.
by move=> i; apply: L2_ext (L2_const Sp 0) => om; rewrite mxE.
Qed.
Definition cut k (b : bool) (f : Omega -> 'cV[R]_k) H : RV Sp k := MkRV (@cut_sub k b f H).
Lemma cut_T k (b : bool) f H : b -> @cut k b f H =1 f.
Proof. by move=> Hb om /=; rewrite Hb. Qed.
Lemma cut_F k (b : bool) f H : ~~ b -> @cut k b f H =1 rvc Sp 0.
Proof. by move=> /negbTE Hb om /=; rewrite Hb. Qed.

Definition W t := cut (@ob_w _ _ _ _ _ _ _ _ _ _ Hob t).
Definition V t := cut (@ob_v _ _ _ _ _ _ _ _ _ _ Hob t).
Definition X0 := MkRV (ob_x0 Hob).
Fixpoint X t : RV Sp n :=
  if t is t'.+1 then rva (rva (rvm (mA M t') (X t')) (rvc Sp (mb M t'))) (W t') else X0.
Definition Z t : RV Sp m := rva (rva (rvm (mC M t) (X t)) (rvc Sp (md M t))) (V t).

Lemma X_x t : (t < T)%N -> X t =1 x t.
Proof.
elim: t => [|t IH] tT om //=.
have tT' : (t < T.-1)%N by rewrite -ltnS prednK //; apply: leq_ltn_trans tT.
by rewrite tT' (ob_x Hob) // IH // ltnW.
Qed.
Lemma Z_z t : (t < T)%N -> Z t =1 z t.
Proof. by move=> tT om; rewrite /= tT (ob_z Hob) // X_x. Qed.

Lemma mW t : mean (W t) = 0.
Proof.
case tT: (t < T.-1)%N.
  by rewrite (mean_ext (cut_T _ tT)) (ob_mw Hob).
by rewrite (mean_ext (cut_F _ (negbT tT))) mean_c.
Qed.
Lemma mV t : mean (V t) = 0.
Proof.
case tT: (t < T)%N.
  by rewrite (mean_ext (cut_T _ tT)) (ob_mv Hob).
by rewrite (mean_ext (cut_F _ (negbT tT))) mean_c.
Qed.
Lemma cWW s t : s <> t -> cov (W s) (W t) = 0.
Proof.
move=> st; case sT: (s < T.-1)%N; last first.
  by rewrite (cov_ext (cut_F _ (negbT sT)) (frefl _)) covcl.
case tT: (t < T.-1)%N; last first.
  by rewrite (cov_ext (frefl _) (cut_F _ (negbT tT))) covcr.
by rewrite (cov_ext (cut_T _ sT) (cut_T _ tT)) (ob_ww Hob).
Qed.
Lemma cVV s t : s <> t -> cov (V s) (V t) = 0.
Proof.
move=> st; case sT: (s < T)%N; last first.
  by rewrite (cov_ext (cut_F _ (negbT sT)) (frefl _)) covcl.
case tT: (t < T)%N; last first.
  by rewrite (cov_ext (frefl _) (cut_F _ (negbT tT))) covcr.
by rewrite (cov_ext (cut_T _ sT) (cut_T _ tT)) (ob_vv Hob).
Qed.
Lemma cWV s t : cov (W s) (V t) = 0.
Proof.
case sT: (s < T.-1)%N; last first.
  by rewrite (cov_ext (cut_F _ (negbT sT)) (frefl _)) covcl.
case tT: (t < T)%N; last first.
  by rewrite (cov_ext (frefl _) (cut_F _ (negbT tT))) covcr.
by rewrite (cov_ext (cut_T _ sT) (cut_T _ tT)) (ob_wv Hob).
Qed.
Lemma cX0W t : cov X0 (W t) = 0.
Proof.
case tT: (t < T.-1)%N; last first.
  by rewrite (cov_ext (frefl _) (cut_F _ (negbT tT))) covcr.
by rewrite (cov_ext (frefl _) (cut_T _ tT)) (ob_xw Hob).
Qed.
Lemma cX0V t : cov X0 (V t) = 0.
Proof.
case tT: (t < T)%N; last first.
  by rewrite (cov_ext (frefl _) (cut_F _ (negbT tT))) covcr.
by rewrite (cov_ext (frefl _) (cut_T _ tT)) (ob_xv Hob).
Qed.
Lemma cQ t : (t < T.-1)%N -> cov (W t) (W t) = mQ M t.
Proof. by move=> tT; rewrite (cov_ext (cut_T _ tT) (cut_T _ tT)) (ob_cw Hob). Qed.
Lemma cR t : (t < T)%N -> cov (V t) (V t) = mR M t.
Proof. by move=> tT; rewrite (cov_ext (cut_T _ tT) (cut_T _ tT)) (ob_cv Hob). Qed.

Lemma obeys_psd : psd_model M T.
Proof.
split=> [|t tT|t tT].
- rewrite -(ob_cx0 Hob); exact: (cov_psd X0).
- rewrite -cQ //; exact: cov_psd.
- rewrite -cR //; exact: cov_psd.
Qed.

Lemma cXW s t : (s <= t)%N -> cov (X s) (W t) = 0.
Proof.
elim: s => [|s IH] st; first exact: cX0W.
rewrite [X _]/= !covDl covMl covcl IH ?mulmx0 ?add0r; last exact: ltnW.
by apply: cWW => e; rewrite e ltnn in st.
Qed.
Lemma cXV s t : cov (X s) (V t) = 0.
Proof.
elim: s => [|s IH]; first exact: cX0V.
by rewrite [X _]/= !covDl covMl covcl IH ?mulmx0 ?add0r cWV.
Qed.
Lemma cZW s t : (s <= t)%N -> cov (Z s) (W t) = 0.
Proof.
move=> st; rewrite !covDl covMl covcl cXW // mulmx0 !add0r.
by rewrite -cov_tr cWV trmx0.
Qed.
Lemma cZV s t : s <> t -> cov (Z s) (V t) = 0.
Proof. by move=> st; rewrite !covDl covMl covcl cXV // mulmx0 !add0r cVV. Qed.

(** affine functions of Z's *)
Notation affz := (aff (fun t => rvf (Z t)) mis).
Lemma Zrv k s : (s < k)%N -> ~~ mis s -> rvec (Z s).
Proof. by move=> _ _; exact: rvP. Qed.
Lemma orth_aff k p q (e : RV Sp p) (Y : RV Sp q) :
  (forall s, (s < k)%N -> ~~ mis s -> cov e (Z s) = 0) -> affz k Y -> cov e Y = 0.
Proof. by move=> H; apply: aff_orth H; exact: Zrv. Qed.
Lemma affW k p (Y : RV Sp p) t : (k <= t.+1)%N -> affz k Y -> cov Y (W t) = 0.
Proof.
move=> kt HY; rewrite -cov_tr (orth_aff (k := k)) ?trmx0 // => s sk _.
by rewrite -cov_tr cZW ?trmx0 // -ltnS; apply: leq_trans kt.
Qed.
Lemma affV k p (Y : RV Sp p) t : (k <= t)%N -> affz k Y -> cov Y (V t) = 0.
Proof.
move=> kt HY; rewrite -cov_tr (orth_aff (k := k)) ?trmx0 // => s sk _.
rewrite -cov_tr cZV ?trmx0 // => e; move: (leq_trans sk kt); by rewrite e ltnn.
Qed.

(** covariances do not depend on the data *)
Definition y0 t : option 'cV[R]_m := if mis t then None else Some 0.
Definition Pp t := (pred M y0 t).2.
Definition Pf t := (filt M y0 t).2.
Definition KK t : 'M[R]_(n, m) := if mis t then 0 else gain M t (Pp t).
Definition LL t : 'M[R]_n := sgain M y0 t.
Definition Ps j t := (smo M y0 j t).2.

Fixpoint Xp t : RV Sp n :=
  if t is t'.+1 then
    rva (rvm (mA M t') (rva (Xp t') (rvm (KK t') (rvs (Z t') (rva (rvm (mC M t') (Xp t')) (rvc Sp (md M t')))))))
        (rvc Sp (mb M t'))
  else rvc Sp (mmu M).
Definition Xf t : RV Sp n :=
  rva (Xp t) (rvm (KK t) (rvs (Z t) (rva (rvm (mC M t) (Xp t)) (rvc Sp (md M t))))).
Lemma XpS t : Xp t.+1 = rva (rvm (mA M t) (Xf t)) (rvc Sp (mb M t)). Proof. by []. Qed.

Definition yy om t : option 'cV[R]_m := if mis t then None else Some (Z t om).

Lemma correctE om t :
  correct M (yy om) t (Xp t om, Pp t) = (Xf t om, Pf t).
Proof.
rewrite /correct /Pf /filt /correct /yy /y0 /Xf /KK /=; case: (mis t) => /=.
  by rewrite mul0mx addr0.
by rewrite mulNmx mul1mx.
Qed.
Lemma predE om t : pred M (yy om) t = (Xp t om, Pp t).
Proof.
by elim: t => [|t IH] //=; rewrite IH correctE.
Qed.
Lemma filtE om t : filt M (yy om) t = (Xf t om, Pf t).
Proof. by rewrite /filt predE correctE. Qed.
Lemma sgainE om t : sgain M (yy om) t = LL t.
Proof. by rewrite /LL /sgain filtE predE. Qed.

Fixpoint Xs j t : RV Sp n :=
  if j is j'.+1 then rva (Xf t) (rvm (LL t) (rvs (Xs j' t.+1) (Xp t.+1))) else Xf t.
Lemma smoE om j t : smo M (yy om) j t = (Xs j t om, Ps j t).
Proof.
elim: j t => [|j IH] t; first by rewrite /= filtE.
have E : smo M (yy om) j.+1 t = let s := smo M (yy om) j t.+1 in
    ((filt M (yy om) t).1 + sgain M (yy om) t *m (s.1 - (pred M (yy om) t.+1).1),
     (filt M (yy om) t).2 + sgain M (yy om) t *m ((s.2 - (pred M (yy om) t.+1).2) *m (sgain M (yy om) t)^T)) by [].
rewrite E IH filtE predE sgainE {E}; congr (_, _).
have -> : Xs j.+1 t om = Xf t om + LL t *m rvs (Xs j t.+1) (Xp t.+1) om by [].
by rewrite rvsE.
Qed.

(** errors *)
Definition Ep t := rvs (X t) (Xp t).
Definition Ef t := rvs (X t) (Xf t).
Definition In t := rva (rvm (mC M t) (Ep t)) (V t).

Lemma EfE t : Ef t =1 rvs (Ep t) (rvm (KK t) (In t)).
Proof.
move=> om; rewrite [LHS]rvsE [RHS]rvsE [Ep t om]rvsE.
have -> : Xf t om = Xp t om + KK t *m (Z t om - (mC M t *m Xp t om + md M t)).
  by rewrite -(rvsE (Z t) (rva (rvm (mC M t) (Xp t)) (rvc Sp (md M t)))).
have -> : rvm (KK t) (In t) om = KK t *m (mC M t *m (X t om - Xp t om) + V t om) by rewrite -rvsE.
have -> : Z t om = mC M t *m X t om + md M t + V t om by [].
move: (X t om) (Xp t om) (V t om) => a b c; mx.
Qed.
Lemma EpS t : Ep t.+1 =1 rva (rvm (mA M t) (Ef t)) (W t).
Proof.
move=> om; rewrite [LHS]rvsE XpS.
have -> : rva (rvm (mA M t) (Ef t)) (W t) om = mA M t *m (X t om - Xf t om) + W t om by rewrite -rvsE.
have -> : X t.+1 om = mA M t *m X t om + mb M t + W t om by [].
have -> : rva (rvm (mA M t) (Xf t)) (rvc Sp (mb M t)) om = mA M t *m Xf t om + mb M t by [].
move: (X t om) (Xf t om) (W t om) => a b c; mx.
Qed.

Lemma affXp_f t : affz t (Xp t) -> ~~ mis t \/ mis t -> affz t.+1 (Xf t).
Proof.
move=> H; case Hm: (mis t) => _.
  apply: aff_ext (affS H) => om; by rewrite /Xf /KK Hm /= mul0mx addr0.
apply: affD; first exact: affS.
apply: affM; apply: affD; first by apply: aff_z; rewrite ?Hm.
apply: affM; apply: affD; last exact: affc.
by apply: affM; exact: affS.
Qed.
Lemma affXf t : affz t (Xp t) -> affz t.+1 (Xf t).
Proof. by move=> H; apply: affXp_f => //; case: (mis t); [right|left]. Qed.
Lemma affXp t : affz t (Xp t).
Proof.
elim: t => [|t IH]; first exact: affc.
apply: affD; last exact: affc.
by apply: affM; exact: affXf.
Qed.
Lemma affXfT t : affz t.+1 (Xf t).
Proof. exact: affXf (affXp t). Qed.

Lemma cEpV t : cov (Ep t) (V t) = 0.
Proof. by rewrite covBl cXV (affV (leqnn t) (affXp t)) subr0. Qed.
Lemma cEfW t s : (t <= s)%N -> cov (Ef t) (W s) = 0.
Proof. by move=> ts; rewrite covBl cXW // (affW (k := t.+1) _ (affXfT t)) ?subr0. Qed.
Lemma cEpW t s : (t <= s)%N -> cov (Ep t) (W s) = 0.
Proof. by move=> ts; rewrite covBl cXW // (affW (k := t) _ (affXp t)) ?subr0 // ltnW. Qed.
Lemma cEpVV t s : (t <= s)%N -> cov (Ep t) (V s) = 0.
Proof. by move=> ts; rewrite covBl cXV // (affV ts (affXp t)) ?subr0. Qed.
Lemma cEfVV t s : (t < s)%N -> cov (Ef t) (V s) = 0.
Proof. by move=> ts; rewrite covBl cXV // (affV ts (affXfT t)) ?subr0. Qed.

Record opt t k (Y : RV Sp n) (P : 'M[R]_n) : Prop := Opt {
  op_m : mean (rvs (X t) Y) = 0;
  op_o : forall s, (s < k)%N -> ~~ mis s -> cov (rvs (X t) Y) (Z s) = 0;
  op_c : cov (rvs (X t) Y) (rvs (X t) Y) = P
}.

Lemma opt_psd t k Y P : opt t k Y P -> psd P.
Proof. by case=> _ _ <-; exact: cov_psd. Qed.

Lemma PfE t : Pf t = Pp t - KK t *m (mC M t *m Pp t).
Proof.
rewrite /Pf /filt /correct /y0 /KK; case: (mis t) => //=.
by rewrite mul0mx subr0.
Qed.

Lemma opt_correct t : (t < T)%N -> opt t t (Xp t) (Pp t) -> opt t t.+1 (Xf t) (Pf t).
Proof.
move=> tT Ho; have HP := opt_psd Ho; case: Ho => Hm Hz Hc.
have [_ _ HR] := obeys_psd; have {}HR := HR t tT.
rewrite -/(Ep t) in Hm Hz Hc *.
have cEpI : cov (Ep t) (In t) = Pp t *m (mC M t)^T by rewrite covDr covMr Hc cEpV addr0.
have cII : cov (In t) (In t) = innov_cov M t (Pp t).
  rewrite {1}/In covDl covMl cEpI covDr covMr.
  rewrite -(cov_tr (Ep t)) cEpV trmx0 mul0mx add0r cR //.
have KS : KK t *m innov_cov M t (Pp t) *m (KK t)^T = Pp t *m (mC M t)^T *m (KK t)^T.
  rewrite /KK; case: (mis t); first by rewrite trmx0 !mulmx0.
  by rewrite gain_innov.
split; rewrite -/(Ef t).
- by rewrite (mean_ext (EfE t)) (meanB (Ep t)) (meanM (KK t)) (meanD (rvm _ _) (V t)) (meanM (mC M t)) Hm mV mulmx0 addr0 mulmx0 subr0.
- move=> s; rewrite ltnS leq_eqVlt => /orP[/eqP ->|st] Hms.
    rewrite (cov_ext (EfE t) (frefl _)) covBl covMl.
    have cEX : cov (Ep t) (X t) = Pp t.
      rewrite (@cov_ext _ _ _ _ (Ep t) (Ep t) _ (rva (Ep t) (Xp t))) //.
        by rewrite covDr Hc (orth_aff Hz (affXp t)) addr0.
      by move=> om; rewrite /Ep /= mulNmx mul1mx subrK.
    have -> : cov (Ep t) (Z t) = Pp t *m (mC M t)^T.
      by rewrite !covDr covMr cEX covcr cEpV !addr0.
    have -> : cov (In t) (Z t) = innov_cov M t (Pp t).
      rewrite covDl covMl !covDr covMr cEX covcr cEpV !addr0.
      rewrite !covMr -(cov_tr (X t)) cXV trmx0 mul0mx covcr !add0r cR //.
    by rewrite /KK (negbTE Hms) gain_innov // subrr.
  rewrite (cov_ext (EfE t) (frefl _)) (covBl (Ep t)) (covMl (KK t)) (covDl (rvm _ _) (V t)) (covMl (mC M t)) Hz //.
  rewrite -(cov_tr (Z s)) cZV ?trmx0 ?mulmx0 ?addr0 ?mulmx0 ?subr0 //.
  by move=> e; rewrite e ltnn in st.
- rewrite (cov_ext (EfE t) (EfE t)) (covBl (Ep t)) (covBr (Ep t)) (covBr (rvm _ _)).
  rewrite (covMr (KK t) (Ep t)) (covMr (KK t) (rvm _ _)) !(covMl (KK t)) cEpI cII Hc.
  rewrite KS -(cov_tr (Ep t) (In t)) cEpI PfE trmx_mul trmxK (psd_sym HP).
  by rewrite opprB addrA subrK.
Qed.

Lemma opt_predict t : (t < T.-1)%N -> opt t t.+1 (Xf t) (Pf t) -> opt t.+1 t.+1 (Xp t.+1) (Pp t.+1).
Proof.
move=> tT [Hm Hz Hc].
rewrite -/(Ef t) in Hm Hz Hc *.
split; rewrite -/(Ep t.+1).
- by rewrite (mean_ext (EpS t)) (meanD (rvm _ _) (W t)) meanM Hm mulmx0 mW addr0.
- move=> s st Hms.
  rewrite (cov_ext (EpS t) (frefl _)) (covDl (rvm _ _) (W t)) (covMl (mA M t)) Hz // mulmx0 add0r.
  by rewrite -cov_tr cZW ?trmx0.
- rewrite (cov_ext (EpS t) (EpS t)) (covDl (rvm _ _) (W t)) (covDr (rvm _ _)) (covDr (W t)).
  rewrite !(covMl (mA M t)) !(covMr (mA M t)) Hc cQ // cEfW // -(cov_tr (Ef t) (W t)) cEfW //.
  by rewrite trmx0 mul0mx mulmx0 add0r addr0.
Qed.

Lemma opt_pred t : (t < T)%N -> opt t t (Xp t) (Pp t).
Proof.
elim: t => [|t IH] tT.
  split=> //.
  - by rewrite meanB mean_c -(ob_mx0 Hob) subrr.
  - by rewrite covBl !covBr !(covcr, covcl) !subr0 [LHS](ob_cx0 Hob).
apply: opt_predict.
  by rewrite -ltnS prednK //; apply: leq_ltn_trans tT.
by apply: opt_correct; [exact: ltnW|apply: IH; exact: ltnW].
Qed.
Lemma opt_filt t : (t < T)%N -> opt t t.+1 (Xf t) (Pf t).
Proof. by move=> tT; apply: opt_correct => //; exact: opt_pred. Qed.

(** ** smoother *)
Lemma psd_Pf t : (t < T)%N -> psd (Pf t).
Proof. by move=> tT; exact: opt_psd (opt_filt tT). Qed.
Lemma psd_Pp t : (t < T)%N -> psd (Pp t).
Proof. by move=> tT; exact: opt_psd (opt_pred tT). Qed.

Lemma LLE t : (t.+1 < T)%N -> LL t *m Pp t.+1 = Pf t *m (mA M t)^T.
Proof.
move=> tT; have tT' : (t < T.-1)%N by rewrite -ltnS prednK //; apply: leq_ltn_trans tT.
have [_ HQ _] := obeys_psd.
by apply: sgain_pred; [apply: psd_Pf; exact: ltnW|exact: HQ].
Qed.

Definition eps t := rvs (Ef t) (rvm (LL t) (Ep t.+1)).
Definition Es j t := rvs (X t) (Xs j t).
Lemma EsE j t : Es j.+1 t =1 rva (eps t) (rvm (LL t) (Es j t.+1)).
Proof.
move=> om.
have -> : rva (eps t) (rvm (LL t) (Es j t.+1)) om = eps t om + LL t *m Es j t.+1 om by [].
have -> : eps t om = Ef t om - LL t *m Ep t.+1 om by rewrite [LHS]rvsE.
rewrite /Es /Ef /Ep !rvsE.
have -> : Xs j.+1 t om = Xf t om + LL t *m rvs (Xs j t.+1) (Xp t.+1) om by [].
rewrite rvsE; move: (X t om) (Xf t om) (X _ om) (Xp _ om) (Xs _ _ om) => a b c d e; mx.
Qed.

Lemma cEfEp t : (t.+1 < T)%N -> cov (Ef t) (Ep t.+1) = Pf t *m (mA M t)^T.
Proof.
move=> tT; have [_ _ Hc] := opt_filt (ltnW tT).
by rewrite (cov_ext (frefl _) (EpS t)) covDr covMr Hc cEfW // addr0.
Qed.
Lemma ceEp t : (t.+1 < T)%N -> cov (eps t) (Ep t.+1) = 0.
Proof.
move=> tT; have [_ _ Hc] := opt_pred tT.
by rewrite covBl covMl Hc cEfEp // LLE // subrr.
Qed.
Lemma ceZ_low t s : (t.+1 < T)%N -> (s <= t)%N -> ~~ mis s -> cov (eps t) (Z s) = 0.
Proof.
move=> tT st Hms; rewrite covBl covMl.
by rewrite (op_o (opt_filt (ltnW tT))) // (op_o (opt_pred tT)) // mulmx0 subr0.
Qed.
Lemma ceW t s : (t < s)%N -> cov (eps t) (W s) = 0.
Proof. by move=> ts; rewrite covBl covMl cEpW // mulmx0 cEfW ?subr0 // ltnW. Qed.
Lemma ceV t s : (t < s)%N -> cov (eps t) (V s) = 0.
Proof. by move=> ts; rewrite covBl covMl cEpVV // mulmx0 cEfVV ?subr0 // ltnW. Qed.
Lemma ceX t k : (t.+1 < T)%N -> cov (eps t) (X (t.+1 + k)) = 0.
Proof.
move=> tT; elim: k => [|k IH].
  rewrite addn0 (@cov_ext _ _ _ _ (eps t) (eps t) _ (rva (Ep t.+1) (Xp t.+1))) //.
    rewrite covDr ceEp // add0r; apply: orth_aff (affXp t.+1) => s st Hms.
    exact: ceZ_low.
  by move=> om; rewrite /Ep [RHS]/= mulNmx mul1mx subrK.
by rewrite addnS [X _]/= !covDr covMr IH mul0mx covcr !add0r ceW // addSn ltnS leq_addr.
Qed.
Lemma ceZ t s : (t.+1 < T)%N -> ~~ mis s -> cov (eps t) (Z s) = 0.
Proof.
move=> tT Hms; case: (leqP s t) => ts; first exact: ceZ_low.
rewrite /Z !covDr covMr covcr ceV // -(subnKC ts) ceX // mul0mx !addr0 //.
Qed.
Lemma cee t : (t.+1 < T)%N -> cov (eps t) (eps t) = Pf t - LL t *m Pp t.+1 *m (LL t)^T.
Proof.
move=> tT; rewrite {2}/eps covBr covMr ceEp // mul0mx subr0.
rewrite covBl covMl (op_c (opt_filt (ltnW tT))) -(cov_tr (Ef t)) cEfEp //.
by rewrite -(LLE tT) trmx_mul (psd_sym (psd_Pp tT)) mulmxA.
Qed.

Lemma affXs j t : affz (t + j).+1 (Xs j t).
Proof.
elim: j t => [|j IH] t; first by rewrite addn0; exact: affXfT.
apply: affD; first by apply: aff_le (affXfT t); rewrite ltnS leq_addr.
apply: affM; apply: affD; first by rewrite addnS -addSn; exact: IH.
by apply: affM; apply: aff_le (affXp t.+1); rewrite ltnS leq_addr.
Qed.

Lemma ceEs j t : (t.+1 < T)%N -> cov (eps t) (Es j t.+1) = 0.
Proof.
move=> tT; rewrite covBr; have := ceX 0 tT; rewrite addn0 => ->.
by rewrite (orth_aff _ (affXs j t.+1)) ?subr0 // => s _ Hms; exact: ceZ.
Qed.

Lemma opt_smo j t : (t + j < T)%N -> opt t (t + j).+1 (Xs j t) (Ps j t).
Proof.
elim: j t => [|j IH] t tT; first by rewrite addn0 in tT *; exact: opt_filt.
have tT1 : (t.+1 < T)%N by apply: leq_ltn_trans tT; rewrite addnS ltnS leq_addr.
have Hs : (t.+1 + j < T)%N by rewrite addSnnS.
have [Hm Hz Hc] := IH _ Hs; rewrite -/(Es j t.+1) in Hm Hz Hc.
split; rewrite -/(Es j.+1 t).
- rewrite (mean_ext (EsE j t)) meanD meanM Hm mulmx0 addr0 meanB meanM.
  by rewrite (op_m (opt_filt (ltnW tT1))) (op_m (opt_pred tT1)) mulmx0 subr0.
- move=> s; rewrite addnS -addSn => st Hms.
  by rewrite (cov_ext (EsE j t) (frefl _)) covDl covMl Hz // mulmx0 addr0 ceZ.
- rewrite (cov_ext (EsE j t) (EsE j t)) (covDl (eps t)) (covDr (eps t)) (covDr (rvm _ _)).
  rewrite !(covMl (LL t)) !(covMr (LL t)) ceEs // -(cov_tr (eps t) (Es _ _)) ceEs //.
  rewrite trmx0 mul0mx mulmx0 addr0 add0r Hc cee //.
  have -> : Ps j.+1 t = Pf t + LL t *m ((Ps j t.+1 - Pp t.+1) *m (LL t)^T) by [].
  move: (Pf t) (Ps j _) (Pp _) (LL t) => a b c d; mx.
Qed.

Lemma lag_one j t : (t.+1 + j < T)%N ->
  cov (Es j t.+1) (Es j.+1 t) = Ps j t.+1 *m (LL t)^T.
Proof.
move=> tT; have tT1 : (t.+1 < T)%N by apply: leq_ltn_trans tT; rewrite leq_addr.
have [Hm Hz Hc] := opt_smo tT; rewrite -/(Es j t.+1) in Hm Hz Hc.
rewrite (cov_ext (frefl _) (EsE j t)) (covDr (Es j t.+1)) (covMr (LL t)) -(cov_tr (eps t)) ceEs //.
by rewrite trmx0 add0r Hc.
Qed.

(** ** statements about [x], [z] *)
Lemma aff_zZ p k (Y : Omega -> 'cV[R]_p) : (k <= T)%N -> affz k Y -> aff z mis k Y.
Proof.
move=> kT [c [L H]]; exists c, L => om; rewrite H /affine_est; congr (_ + _).
by apply: eq_bigr => s _; rewrite Z_z //; apply: leq_trans kT.
Qed.

Lemma opt_blue t k (Y : RV Sp n) P : (k <= T)%N -> (t < T)%N -> affz k Y -> opt t k Y P -> blue (x t) z mis k Y P.
Proof.
move=> kT tT HY [Hm Ho Hc].
have Hz : forall s, (s < k)%N -> ~~ mis s -> rvec (z s).
  by move=> s sk _; apply: rvec_ext (rvP (Z s)); apply: Z_z; apply: leq_trans kT.
have Hx : rvec (x t) by apply: rvec_ext (rvP (X t)); exact: X_x.
have E : rvs (MkRV Hx) Y =1 rvs (X t) Y by move=> om; rewrite !rvsE X_x.
apply: (@blue_intro _ _ _ z mis n k (MkRV Hx) Y) => //.
- exact: aff_zZ.
- by rewrite (mean_ext E).
- move=> s sk Hms; rewrite -(Ho s sk Hms); apply: cov_ext => // om.
  by rewrite Z_z //; apply: leq_trans kT.
- by rewrite (cov_ext E E).
Qed.

Lemma blue_pred t : (t < T)%N -> blue (x t) z mis t (Xp t) (Pp t).
Proof. by move=> tT; apply: opt_blue; [exact: ltnW|exact: tT|exact: affXp|exact: opt_pred]. Qed.
Lemma blue_filt t : (t < T)%N -> blue (x t) z mis t.+1 (Xf t) (Pf t).
Proof. by move=> tT; apply: opt_blue; [exact: tT|exact: tT|exact: affXfT|exact: opt_filt]. Qed.
Lemma blue_smo t : (t < T)%N -> blue (x t) z mis T (Xs (T.-1 - t) t) (Ps (T.-1 - t) t).
Proof.
move=> tT; have T0 : (0 < T)%N by apply: leq_ltn_trans tT.
have tT1 : (t <= T.-1)%N by rewrite -ltnS prednK.
have E : (t + (T.-1 - t)).+1 = T by rewrite subnKC // prednK.
rewrite -[X in blue _ _ _ X]E; apply: opt_blue.
- by rewrite E.
- exact: tT.
- exact: affXs.
- by apply: opt_smo; rewrite E.
Qed.
End Opt.
