(** The EM update is an M-step. *)
From Coq Require Import String List.
From mathcomp Require Import all_ssreflect all_algebra.
From mathcomp Require Import ring.
From Verif Require Import Prelude Zmod LinAlg Numpy Sklearn Standard Model KfSpec SpecL2 L2Facts GaussSpec Joint EmForm EmSpec EmMax.
Import GRing.Theory Num.Theory Order.Theory.

Set Implicit Arguments.
Unset Strict Implicit.
Unset Printing Implicit Defensive.
Local Open Scope ring_scope.

Section Step.
Variables (R : rcfType) (ln : R -> R) (ln2pi : R).
Hypotheses (lnM : multiplicative_log ln) (lnC : concave_log ln).
Variables (Sp : l2space R) (n m T : nat) (X : nat -> RV Sp n).
Variables (xs : nat -> 'cV[R]_n) (Ps Lag : nat -> 'M[R]_n).
Variables (mis : nat -> bool) (y : nat -> 'cV[R]_m) (M : lgm R n m) (e : emspec).
Hypothesis T0 : (0 < T)%N.
Hypothesis mX : forall t, (t < T)%N -> mean (X t) = xs t.
Hypothesis cX : forall t, (t < T)%N -> cov (X t) (X t) = Ps t.
Hypothesis lX : forall t, (t.+1 < T)%N -> cov (X t.+1) (X t) = Lag t.+1.
Local Notation M' := (em_model T xs Ps Lag mis y M e).
Local Notation obsd C d := (fun t => sqmom (fun om => y t - C t *m X t om - d t)).
Local Notation trd A b := (fun t => sqmom (fun om => X t.+1 om - A t *m X t om - b t)).

Lemma momX t : (t < T)%N -> mom (X t) (X t) = Ps t + xs t *m (xs t)^T.
Proof. by move=> tT; rewrite mom_cov mX // cX. Qed.
Lemma lagX t : (t.+1 < T)%N -> mom (X t.+1) (X t) = Lag t.+1 + xs t.+1 *m (xs t)^T.
Proof.
move=> tT; have := covE (X t.+1) (X t); rewrite lX // !mX //; last exact: ltnW.
by move=> ->; rewrite subrK.
Qed.
Lemma lt1 (t : 'I_T.-1) : (t < T)%N /\ (t.+1 < T)%N.
Proof. by have [] := ltT (ltn_ord t). Qed.

Lemma cnt1 k : (\sum_(t < k) true)%N = k.
Proof. by rewrite sum_nat_const card_ord muln1. Qed.

(** deviations *)
Lemma obs_dev (C : 'M[R]_(m, n)) d t : (t < T)%N ->
  sqmom (fun om => y t - C *m X t om - d) =
  (y t - C *m xs t - d) *m (y t - C *m xs t - d)^T + C *m (Ps t *m C^T).
Proof.
move=> tT; pose U := rva (rvc Sp (y t - d)) (rvm (- C) (X t)).
have -> : sqmom (fun om => y t - C *m X t om - d) = mom U U.
  by apply: mom_ext => om; rewrite /= mulNmx addrAC.
rewrite mom_cov !(covDl, covDr, covMl, covMr) !(covcl, covcr) meanD meanM mean_c mX // cX //.
rewrite linearN /= ?mulNmx ?mulmxN ?mulmx0 ?mul0mx ?oppr0 ?opprK.
by rewrite addr0 sub0r !add0r !mulmxN opprK [y t - d - _]addrAC addrC.
Qed.
Lemma tr_dev (A : 'M[R]_n) b t : (t.+1 < T)%N ->
  sqmom (fun om => X t.+1 om - A *m X t om - b) =
  (xs t.+1 - A *m xs t - b) *m (xs t.+1 - A *m xs t - b)^T
     + A *m (Ps t *m A^T) + Ps t.+1 - Lag t.+1 *m A^T - (Lag t.+1 *m A^T)^T.
Proof.
move=> t2; have t1 : (t < T)%N by exact: ltnW.
pose U := rva (rva (X t.+1) (rvm (- A) (X t))) (rvc Sp (- b)).
have -> : sqmom (fun om => X t.+1 om - A *m X t om - b) = mom U U.
  by apply: mom_ext => om; rewrite /= mulNmx.
rewrite mom_cov !(covDl, covDr, covMl, covMr) !(covcl, covcr) !meanD meanM mean_c !mX // !cX //.
rewrite -[cov (X t) (X t.+1)]cov_tr lX // trmx_mul trmxK.
rewrite linearN /= ?(mulmx0, mul0mx, addr0, add0r, mulmxDr, mulmxN, mulNmx, oppr0, opprD, opprK).
move: ((_ - _ - b) *m _) (A *m (Ps t *m A^T)) (Ps t.+1) (Lag t.+1 *m A^T) (A *m (Lag t.+1)^T) => a p q l l'.
by zmod.
Qed.
Lemma ini_dev mu : sqmom (fun om => X 0%N om - mu) = f_ic xs Ps mu.
Proof.
pose U := rva (X 0%N) (rvc Sp (- mu)).
have -> : sqmom (fun om => X 0%N om - mu) = mom U U by apply: mom_ext => om.
rewrite mom_cov !(covDl, covDr) !(covcl, covcr) meanD mean_c mX // cX // !addr0 /f_ic.
rewrite mulmxDl linearD linearN /= !mulmxDr !mulNmx !mulmxN opprK -!addrA; congr (_ + (_ + _)).
by rewrite addrCA addrA.
Qed.

(** the pieces *)
Lemma obs_le (C C' : nat -> 'M[R]_(m, n)) (d d' : nat -> 'cV[R]_m) (V : 'M[R]_m) : pd V ->
  lep (\sum_(t < T | ~~ mis t) obsd C' d' t) (\sum_(t < T | ~~ mis t) obsd C d t) ->
  Q_obs ln ln2pi (fun t => X t) y mis T C d (fun _ => V) <= Q_obs ln ln2pi (fun t => X t) y mis T C' d' (fun _ => V).
Proof.
move=> HV H; rewrite /Q_obs.
exact: (@exp_sum_le _ ln ln2pi m V T (fun t => ~~ mis t) (obsd C' d') (obsd C d) HV H).
Qed.
Lemma tr_le (A A' : nat -> 'M[R]_n) (b b' : nat -> 'cV[R]_n) (V : 'M[R]_n) : pd V ->
  lep (\sum_(t < T.-1) trd A' b' t) (\sum_(t < T.-1) trd A b t) ->
  Q_trans ln ln2pi (fun t => X t) T A b (fun _ => V) <= Q_trans ln ln2pi (fun t => X t) T A' b' (fun _ => V).
Proof.
move=> HV H; rewrite /Q_trans.
exact: (@exp_sum_le _ ln ln2pi n V T.-1 (fun t => true) (trd A' b') (trd A b) HV H).
Qed.

Lemma om_lsq d F : lep (\sum_(t < T | ~~ mis t) obsd (fun=> f_om T xs Ps mis y d) d t)
                       (\sum_(t < T | ~~ mis t) obsd (fun=> F) d t).
Proof.
have := @sum_lsq _ Sp m n T (fun t => ~~ mis t) (fun t => rvc Sp (y t - d t)) X F.
rewrite (eq_bigr (fun t : 'I_T => (y t - d t) *m (xs t)^T)); last first.
  by move=> t _; rewrite -mom_tr mom_cc mX // trmx_mul trmxK.
rewrite (eq_bigr (fun t : 'I_T => Ps t + xs t *m (xs t)^T)); last by move=> t _; rewrite momX.
rewrite -/(f_om T xs Ps mis y d) /=.
have E G : \sum_(t < T | ~~ mis t) mom (fun om => y t - d t - G *m X t om) (fun om => y t - d t - G *m X t om)
   = \sum_(t < T | ~~ mis t) obsd (fun=> G) d t.
  by apply: eq_bigr => t _; apply: mom_ext => om; rewrite addrAC.
by rewrite (E F) E.
Qed.
Lemma tm_lsq b F : lep (\sum_(t < T.-1) trd (fun=> f_tm T xs Ps Lag b) b t)
                       (\sum_(t < T.-1) trd (fun=> F) b t).
Proof.
have := @sum_lsq _ Sp n n T.-1 (fun t => true) (fun t => rva (X t.+1) (rvc Sp (- b t))) X F.
rewrite (eq_bigr (fun t : 'I_T.-1 => Lag t.+1 + xs t.+1 *m (xs t)^T - b t *m (xs t)^T)); last first.
  move=> t _; have [t1 t2] := lt1 t; rewrite momDl lagX //; congr (_ + _).
  by rewrite -mom_tr mom_cc mX // trmx_mul trmxK mulNmx.
rewrite (_ : \sum_(t < T.-1) mom (X t) (X t) = \sum_(t < T.-1) (Ps t + xs t *m (xs t)^T)); last first.
  by apply: eq_bigr => t _; have [t1 t2] := lt1 t; rewrite momX.
rewrite -/(f_tm T xs Ps Lag b) /=.
have E G : \sum_(t < T.-1) mom (fun om => X t.+1 om + - b t - G *m X t om) (fun om => X t.+1 om + - b t - G *m X t om)
   = \sum_(t < T.-1) trd (fun=> G) b t.
  by apply: eq_bigr => t _; apply: mom_ext => om; rewrite addrAC.
by rewrite (E F) E.
Qed.
Lemma pinv_nat N : pinv (N%:R%:M : 'M[R]_1) = N%:R^-1%:M.
Proof.
case: N => [|N]; first by rewrite invr0 !raddf0 pinv0.
rewrite pinv_unit ?invmx_scalar // unitmxE det_scalar1 unitfE pnatr_eq0 //.
Qed.
Lemma sum_one (TT : nat) (P : ssrbool.pred nat) : \sum_(t < TT | P t) mom (one1 Sp) (one1 Sp) = (\sum_(t < TT) P t)%N%:R%:M.
Proof.
have -> : mom (one1 Sp) (one1 Sp) = 1%:M by rewrite -mean_mom mean_c.
elim: TT => [|k IH]; first by rewrite !big_ord0 raddf0.
by rewrite big_mkcond big_ord_recr -big_mkcond IH big_ord_recr /= natrD raddfD; case: (P k); rewrite ?raddf0.
Qed.
Lemma oo_lsq (C : nat -> 'M[R]_(m, n)) F :
  lep (\sum_(t < T | ~~ mis t) obsd C (fun=> f_oo T xs mis y C) t)
      (\sum_(t < T | ~~ mis t) obsd C (fun=> F) t).
Proof.
have := @sum_lsq _ Sp m 1 T (fun t => ~~ mis t) (fun t => rva (rvc Sp (y t)) (rvm (- C t) (X t))) (fun=> one1 Sp) F.
rewrite (_ : \sum_(t < T | ~~ mis t) mom (rva (rvc Sp (y t)) (rvm (- C t) (X t))) (one1 Sp) =
    \sum_(t < T | ~~ mis t) (y t - C t *m xs t)); last first.
  by apply: eq_bigr => t _; rewrite -mean_mom meanD meanM mean_c mX // mulNmx.
rewrite (sum_one T (fun t => ~~ mis t)) pinv_nat mul_mx_scalar -/(f_oo T xs mis y C) /=.
have E G : \sum_(t < T | ~~ mis t) mom (fun om => y t + - C t *m X t om - G *m 1%:M) (fun om => y t + - C t *m X t om - G *m 1%:M)
   = \sum_(t < T | ~~ mis t) obsd C (fun=> G) t.
  by apply: eq_bigr => t _; apply: mom_ext => om; rewrite mulmx1 mulNmx.
by rewrite (E F) E.
Qed.
Lemma to_lsq (A : nat -> 'M[R]_n) F :
  lep (\sum_(t < T.-1) trd A (fun=> f_to T xs A) t) (\sum_(t < T.-1) trd A (fun=> F) t).
Proof.
have := @sum_lsq _ Sp n 1 T.-1 (fun t => true) (fun t => rva (X t.+1) (rvm (- A t) (X t))) (fun=> one1 Sp) F.
rewrite (_ : \sum_(t < T.-1) mom (rva (X t.+1) (rvm (- A t) (X t))) (one1 Sp) =
    \sum_(t < T.-1) (xs t.+1 - A t *m xs t)); last first.
  by apply: eq_bigr => t _; have [t1 t2] := lt1 t; rewrite -mean_mom meanD meanM !mX // mulNmx.
rewrite (sum_one T.-1 (fun=> true)) cnt1 pinv_nat mul_mx_scalar -/(f_to T xs A) /=.
have E G : \sum_(t < T.-1) mom (fun om => X t.+1 om + - A t *m X t om - G *m 1%:M) (fun om => X t.+1 om + - A t *m X t om - G *m 1%:M)
   = \sum_(t < T.-1) trd A (fun=> G) t.
  by apply: eq_bigr => t _; apply: mom_ext => om; rewrite mulmx1 mulNmx.
by rewrite (E F) E.
Qed.

Lemma oc_mean d C : f_oc T xs Ps mis y d C = (\sum_(t < T) ~~ mis t)%N%:R^-1 *: \sum_(t < T | ~~ mis t) obsd C d t.
Proof. by rewrite /f_oc; congr (_ *: _); apply: eq_bigr => t _; rewrite obs_dev. Qed.
Lemma tc_mean A b : f_tc T xs Ps Lag A b = (\sum_(t < T.-1) true)%N%:R^-1 *: \sum_(t < T.-1) trd A b t.
Proof.
rewrite /f_tc cnt1; congr (_ *: _); apply: eq_bigr => t _.
by have [_ t2] := lt1 t; rewrite tr_dev.
Qed.

Lemma em_mstep : mstep ln ln2pi (fun t => X t) y mis T (fun x => sel e x) M M'.
Proof.
split; rewrite /em_model /=.
- by move=> -> V HV; split=> // F _; exact: obs_le (om_lsq _ _).
- move=> ->; split=> // HV; split=> // V pV.
  rewrite oc_mean in HV *.
  exact: (@exp_sum_best _ ln ln2pi lnM lnC m V T (fun t => ~~ mis t) (obsd _ _) pV HV).
- by move=> -> V HV; split=> // F _; exact: obs_le (oo_lsq _ _).
- by move=> -> V HV; split=> // F _; exact: tr_le (tm_lsq _ _).
- move=> ->; split=> // HV; split=> // V pV.
  rewrite tc_mean in HV *.
  exact: (@exp_sum_best _ ln ln2pi lnM lnC n V T.-1 (fun t => true) (trd _ _) pV HV).
- by move=> -> V HV; split=> // F _; exact: tr_le (to_lsq _ _).
- move=> -> V HV mu; apply: exp_logpdf_le HV _; rewrite !ini_dev /lep /f_ic.
  have := psd_gram (xs 0%N - mu); rewrite linearB /= !mulmxBr !mulmxBl.
  by congr psd; zmod.
- move=> -> HV V pV; rewrite /Q_init ini_dev; exact: exp_logpdf_best.
- by move=> /negP/negbTE ->. - by move=> /negP/negbTE ->. - by move=> /negP/negbTE ->.
- by move=> /negP/negbTE ->. - by move=> /negP/negbTE ->. - by move=> /negP/negbTE ->.
- by move=> /negP/negbTE ->. - by move=> /negP/negbTE ->.
Qed.

(** estimated covariances are second moments *)
Lemma em_psd : psd_model M T -> psd_model M' T.
Proof.
case=> HP HQ HR.
have po d C : psd (f_oc T xs Ps mis y d C).
  rewrite oc_mean; apply: psdZ; first by rewrite invr_ge0 ler0n.
  apply: psd_sum => t _.
  have -> : obsd C d t = mom (rva (rvc Sp (y t - d t)) (rvm (- C t) (X t))) (rva (rvc Sp (y t - d t)) (rvm (- C t) (X t))).
    by apply: mom_ext => om; rewrite /= mulNmx addrAC.
  exact: mom_psd.
have pt A b : psd (f_tc T xs Ps Lag A b).
  rewrite tc_mean; apply: psdZ; first by rewrite invr_ge0 ler0n.
  apply: psd_sum => t _; pose U := rva (rva (X t.+1) (rvm (- A t) (X t))) (rvc Sp (- b t)).
  have -> : trd A b t = mom U U by apply: mom_ext => om; rewrite /= mulNmx.
  exact: mom_psd.
split; rewrite /em_model /=.
- case: (sel e Isc) => //; rewrite -ini_dev; exact: (mom_psd (rva (X 0%N) (rvc Sp (- _)))).
- by case: (sel e Tc).
- by case: (sel e Oc).
Qed.
End Step.
