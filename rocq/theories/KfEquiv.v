(** Change of state coordinates and recoding of observations. *)
From Coq Require Import String List.
From mathcomp Require Import all_ssreflect all_algebra.
From Verif Require Import Prelude Zmod LinAlg Numpy NumpyFacts Sklearn SklearnFacts Standard Model KfSpec StandardInit StandardFacts
  KfStruct SpecL2 L2Facts Lmmse Exists KfOptimal KfModelFacts.
Import GRing.Theory Num.Theory Order.Theory.

Set Implicit Arguments.
Unset Strict Implicit.
Unset Printing Implicit Defensive.
Local Open Scope ring_scope.

Section Cov.
Variables (R : rcfType) (n m : nat) (M : lgm R n m).

Definition mask (zs : seq (orow R m)) t : bool := if List.nth_error zs t is Some r then missing r else true.
Definition vals (zs : seq (orow R m)) t : 'cV[R]_m := if List.nth_error zs t is Some r then r.1 else 0.
Lemma stream_ym zs t : stream zs t = ym (mask zs) (vals zs) t.
Proof. by rewrite /stream /ym /mask /vals; case: (List.nth_error zs t). Qed.

Lemma filt_cov zs t : (filt M (stream zs) t).2 = Pf M (mask zs) t.
Proof.
apply: etrans (cov_indep M (mask zs) t (vals zs) (fun _ => 0)).2.
by apply: f_equal; apply: filt_ext => s _; exact: stream_ym.
Qed.
Lemma pred_cov zs t : (pred M (stream zs) t).2 = Pp M (mask zs) t.
Proof.
apply: etrans (cov_indep M (mask zs) t (vals zs) (fun _ => 0)).1.
by apply: f_equal; apply: pred_ext => s _; exact: stream_ym.
Qed.
Lemma smo_cov zs j t : (smo M (stream zs) j t).2 = Ps M (mask zs) j t.
Proof.
apply: etrans (scov_indep M (mask zs) j t (vals zs) (fun _ => 0)).
by apply: f_equal; apply: smo_ext => s _; exact: stream_ym.
Qed.
End Cov.

Section Coord.
Variables (R : rcfType) (n m : nat) (M : lgm R n m) (T : nat).
Variables (G : 'M[R]_n) (h : 'cV[R]_n).
Hypothesis UG : G \in unitmx.

Notation M' := (coord_model M G h).
Notation moved := (moved G h).
Lemma GTi p (A : 'M[R]_(n, p)) : G^T *m ((invmx G)^T *m A) = A.
Proof. by rewrite mulmxA -trmx_mul mulVmx // trmx1 mul1mx. Qed.
Lemma GiG p (A : 'M[R]_(n, p)) : invmx G *m (G *m A) = A.
Proof. by rewrite mulmxA mulVmx // mul1mx. Qed.

Lemma coord_innov t P : innov_cov M' t (G *m P *m G^T) = innov_cov M t P.
Proof.
rewrite /innov_cov [mC M' t]/= trmx_mul; congr (_ + _).
by rewrite -!mulmxA GiG GTi.
Qed.
Lemma coord_gain t P : gain M' t (G *m P *m G^T) = G *m gain M t P.
Proof. by rewrite /gain coord_innov [mC M' t]/= trmx_mul -!mulmxA GTi. Qed.
Variable y : nat -> option 'cV[R]_m.
Lemma coord_correct t s : correct M' y t (moved s) = moved (correct M y t s).
Proof.
rewrite /correct; case: (y t) => [z|] //; rewrite /moved [(_, _).1]/= [(_, _).2]/= coord_gain.
rewrite [mC M' t]/= [md M' t]/=; congr pair; last first.
  by rewrite -!mulmxA GiG; move: (gain M t s.2) (mC M t) s.2 => K C P; mx.
have -> : mC M t *m invmx G *m (G *m s.1 + h) + (md M t - mC M t *m invmx G *m h) = mC M t *m s.1 + md M t.
  by rewrite mulmxDr -mulmxA GiG -!mulmxA; move: (_ *m s.1) (md M t) => a b; mx.
by move: (gain M t s.2) (z - (mC M t *m s.1 + md M t)) s.1 => K v a; mx.
Qed.
Lemma coord_predict t s : predict M' t (moved s) = moved (predict M t s).
Proof.
rewrite /predict /moved /=; congr pair.
  by rewrite -!mulmxA mulmxDr GiG; move: (mA M t) (mb M t) s.1 (invmx G *m h) => A b a g; mx.
rewrite !trmx_mul -!mulmxA GiG GTi; move: (mA M t) (mQ M t) s.2 => A Q P; mx.
Qed.
Lemma coord_pred t : pred M' y t = moved (pred M y t).
Proof. by elim: t => [|t IH] //=; rewrite IH coord_correct coord_predict. Qed.
Lemma coord_filt t : filt M' y t = moved (filt M y t).
Proof. by rewrite /filt coord_pred coord_correct. Qed.

(** smoother: everything lives in the range of the predicted covariance *)
Variable zs : seq (orow R m).
Hypothesis Hy : y = stream zs.
Hypothesis HM : psd_model M T.

Lemma corr_range t : exists (u : 'cV[R]_n) (U : 'M[R]_n),
  (filt M y t).1 - (pred M y t).1 = (pred M y t).2 *m u /\
  (filt M y t).2 = (pred M y t).2 *m U.
Proof.
rewrite /filt /correct; case: (y t) => [z|].
  do 2 eexists; split; rewrite /=.
    by rewrite addrC addKr /gain -mulmxA.
  by rewrite /gain -{1}[(pred M y t).2]mulmx1 -!mulmxA -mulmxBr.
by exists 0, 1%:M; rewrite subrr mulmx0 mulmx1.
Qed.
Lemma smo_range j t : exists (u : 'cV[R]_n) (U : 'M[R]_n),
  (smo M y j t).1 - (pred M y t).1 = (pred M y t).2 *m u /\
  (smo M y j t).2 - (pred M y t).2 = (pred M y t).2 *m U.
Proof.
have [u [U [E1 E2]]] := corr_range t.
case: j => [|j].
  by exists u, (U - 1%:M); split => //; rewrite mulmxBr mulmx1 -E2.
set P := (pred M y t).2 in E1 E2 *.
pose L := sgain M y t.
pose W := U *m ((mA M t)^T *m pinv (pred M y t.+1).2).
have EL : L = P *m W by rewrite /L /sgain E2 -!mulmxA.
have S1 : (smo M y j.+1 t).1 = (filt M y t).1 + L *m ((smo M y j t.+1).1 - (pred M y t.+1).1) by [].
have S2 : (smo M y j.+1 t).2 = (filt M y t).2 + L *m (((smo M y j t.+1).2 - (pred M y t.+1).2) *m L^T) by [].
rewrite S1 S2; clearbody L W.
exists (u + W *m ((smo M y j t.+1).1 - (pred M y t.+1).1)).
exists (U - 1%:M + W *m (((smo M y j t.+1).2 - (pred M y t.+1).2) *m L^T)).
split.
  rewrite addrAC E1 EL; move: (_ - _) => v.
  by rewrite mulmxDr mulmxA.
move: (smo M y j t.+1).2 (pred M y t.+1).2 => S Q; rewrite addrAC E2 {1}EL; move: (_ *m L^T) => V.
by rewrite mulmxDr mulmxBr mulmx1 mulmxA.
Qed.

Lemma coord_gain_range t : (t < T.-1)%N ->
  sgain M' y t *m (G *m (pred M y t.+1).2) = G *m (sgain M y t *m (pred M y t.+1).2).
Proof.
move=> tT; have tT' : (t < T)%N by apply: leq_trans tT (leq_pred _).
case: HM => _ HQ _.
have HPf : psd (filt M y t).2 by rewrite Hy filt_cov; exact: (Pf_psd HM).
have Ep : (pred M y t.+1).2 = mA M t *m ((filt M y t).2 *m (mA M t)^T) + mQ M t by [].
have Ep' : (pred M' y t.+1).2 = mA M' t *m ((filt M' y t).2 *m (mA M' t)^T) + mQ M' t by [].
have HPf' : psd (filt M' y t).2 by rewrite coord_filt; exact: psd_congr.
have HQ' : psd (mQ M' t) by apply: psd_congr; exact: HQ.
have H1 := sgain_pred (mA M t) HPf (HQ t tT).
have H2 := sgain_pred (mA M' t) HPf' HQ'.
rewrite -Ep -/(sgain M y t) in H1; rewrite -Ep' -/(sgain M' y t) in H2.
rewrite H1; move: H2; rewrite coord_pred coord_filt /moved /=.
move=> /(congr1 (mulmx^~ (invmx G)^T)); rewrite !trmx_mul -!mulmxA.
have TT : G^T *m (invmx G)^T = 1%:M by rewrite -trmx_mul mulVmx // trmx1.
by rewrite GTi TT !mulmx1.
Qed.

Lemma coord_smo j t : (t + j < T)%N -> smo M' y j t = moved (smo M y j t).
Proof.
elim: j t => [|j IH] t tT; first exact: coord_filt.
have tT1 : (t < T.-1)%N.
  by rewrite -ltnS prednK; [apply: leq_trans tT; rewrite addnS !ltnS leq_addr|apply: leq_ltn_trans tT].
have tT2 : (t.+1 + j < T)%N by rewrite addSnnS.
have E (N : lgm R n m) : smo N y j.+1 t = ((filt N y t).1 + sgain N y t *m ((smo N y j t.+1).1 - (pred N y t.+1).1),
   (filt N y t).2 + sgain N y t *m (((smo N y j t.+1).2 - (pred N y t.+1).2) *m (sgain N y t)^T)) by [].
apply: (etrans (E M')); apply: esym; apply: (etrans (f_equal moved (E M))); apply: esym; clear E.
have HL := coord_gain_range tT1.
have [u [U [E1 E2]]] := smo_range j t.+1.
have SPp : (pred M y t.+1).2^T = (pred M y t.+1).2.
  rewrite Hy pred_cov; apply: psd_sym; apply: (Pp_psd HM).
  by apply: leq_ltn_trans tT2; rewrite leq_addr.
have SPs : (smo M y j t.+1).2^T = (smo M y j t.+1).2.
  by rewrite Hy smo_cov; apply: psd_sym; apply: (Ps_psd HM).
rewrite (IH _ tT2) coord_filt coord_pred.
move: SPp SPs E1 E2 HL.
move: (filt M y t) (smo M y j t.+1) (pred M y t.+1) (sgain M' y t) (sgain M y t) => [f F] [s S] [p P] L' L /= SP SS E1 E2 HL.
rewrite /moved /=; congr pair.
  have -> : G *m s + h - (G *m p + h) = G *m (P *m u) by rewrite -E1; mx.
  by rewrite E1 [G *m (P *m u)]mulmxA [L' *m (_ *m u)]mulmxA HL; mx.
have -> : G *m S *m G^T - G *m P *m G^T = G *m (P *m U) *m G^T by rewrite -E2; mx.
have EU : P *m U = U^T *m P by rewrite -E2 -[in RHS]SP -trmx_mul -E2 linearB /= SP SS.
rewrite mulmxDr mulmxDl; congr (_ + _); rewrite E2.
transitivity (G *m (L *m P) *m U *m (G *m L)^T); last by rewrite trmx_mul !mulmxA.
rewrite -HL; transitivity (L' *m G *m (P *m U) *m (L' *m G)^T).
  by rewrite trmx_mul !mulmxA.
rewrite [in LHS]EU; transitivity (L' *m G *m U^T *m (L' *m (G *m P))^T).
  by rewrite !trmx_mul SP !mulmxA.
rewrite HL !trmx_mul SP -HL; transitivity (L' *m G *m (U^T *m P) *m (L^T *m G^T)); first by rewrite !mulmxA.
by rewrite -EU !mulmxA.
Qed.
End Coord.

Lemma invmxM (R : rcfType) n (A B : 'M[R]_n) : A \in unitmx -> B \in unitmx -> invmx (A *m B) = invmx B *m invmx A.
Proof.
move=> UA UB; have U : A *m B \in unitmx by rewrite unitmx_mul UA UB.
by rewrite -[RHS]mulmx1 -(mulmxV U) !mulmxA mulmxKV // mulVmx // mul1mx.
Qed.

(** ** Observations recoded as N z + g *)
Section Recode.
Variables (R : rcfType) (n m : nat) (M : lgm R n m) (T : nat).
Variables (N : 'M[R]_m) (g : 'cV[R]_m).
Hypothesis UN : N \in unitmx.
Notation M' := (recode_model M N g).
Variable zs zs' : seq (orow R m).
Hypothesis Hz : recoded N g zs zs'.
Hypothesis HM : psd_model M T.
Hypothesis HR : forall t, (t < T)%N -> stream zs t -> pd (mR M t).

Lemma recode_stream t : stream zs' t = omap (fun z => N *m z + g) (stream zs t).
Proof.
rewrite /stream; elim: Hz t => [|r r' l l' [H1 H2] _ IH] [|t] //=.
by rewrite H1; case: (missing r) H2 => // -> .
Qed.
Lemma recode_gain t P : (t < T)%N -> stream zs t -> psd P -> gain M' t P *m N = gain M t P.
Proof.
move=> tT Hv HP.
have HS : pd (innov_cov M t P) by rewrite /innov_cov mulmxA; apply: pdD (HR tT Hv); exact: psd_congr.
have E : innov_cov M' t P = N *m innov_cov M t P *m N^T.
  by rewrite /innov_cov /= trmx_mul mulmxDr mulmxDl -!mulmxA.
have HS' : pd (innov_cov M' t P) by rewrite E; exact: pd_congr_unit.
rewrite /gain (pinv_pd HS) (pinv_pd HS') E /= trmx_mul -!mulmxA; congr (_ *m (_ *m _)).
have US := pd_unit HS; have UNT : N^T \in unitmx by rewrite unitmx_tr.
by rewrite !invmxM ?unitmx_mul ?UN ?US // ?mulmxA mulmxV // mul1mx -mulmxA mulVmx // mulmx1.
Qed.
Lemma recode_correct t s : (t < T)%N -> psd s.2 -> correct M' (stream zs') t s = correct M (stream zs) t s.
Proof.
move=> tT HP; rewrite /correct recode_stream; case Ez: (stream zs t) => [z|] //=.
have Hv : stream zs t by rewrite Ez.
have HK := recode_gain tT Hv HP; congr pair.
  rewrite -HK -(mulmxA _ N (z - _)); congr (_ + _ *m _).
  by rewrite -mulmxA; move: (mC M t *m s.1) => c; rewrite mulmxBr !mulmxDr; mx.
by rewrite -HK -!mulmxA.
Qed.
Lemma recode_pred t : (t < T)%N -> pred M' (stream zs') t = pred M (stream zs) t.
Proof.
elim: t => [|t IH] tT; first exact: erefl.
have tT' : (t < T)%N by exact: ltnW.
have E (K : lgm R n m) w : pred K w t.+1 = predict K t (correct K w t (pred K w t)) by [].
rewrite !E (IH tT') recode_correct //.
by rewrite pred_cov; exact: (Pp_psd HM).
Qed.
Lemma recode_filt t : (t < T)%N -> filt M' (stream zs') t = filt M (stream zs) t.
Proof.
move=> tT; rewrite /filt (recode_pred tT) recode_correct //.
by rewrite pred_cov; exact: (Pp_psd HM).
Qed.
Lemma recode_smo j t : (t + j < T)%N -> smo M' (stream zs') j t = smo M (stream zs) j t.
Proof.
elim: j t => [|j IH] t tT; first by apply: recode_filt; rewrite addn0 in tT.
have tT2 : (t.+1 + j < T)%N by rewrite addSnnS.
have tT0 : (t < T)%N by apply: leq_ltn_trans tT; rewrite leq_addr.
have tT1 : (t.+1 < T)%N by apply: leq_ltn_trans tT2; rewrite leq_addr.
have E (K : lgm R n m) y : smo K y j.+1 t = ((filt K y t).1 + sgain K y t *m ((smo K y j t.+1).1 - (pred K y t.+1).1),
   (filt K y t).2 + sgain K y t *m (((smo K y j t.+1).2 - (pred K y t.+1).2) *m (sgain K y t)^T)) by [].
have EL : sgain M' (stream zs') t = sgain M (stream zs) t.
  by rewrite /sgain (recode_filt tT0) (recode_pred tT1).
apply: (etrans (E M' _)); apply: esym; apply: (etrans (E M _)); apply: esym; clear E.
by rewrite EL (IH _ tT2) (recode_filt tT0) (recode_pred tT1).
Qed.
End Recode.
