(** Factorisation of the expected complete-data log likelihood into the
    likelihood of the data and backward conditionals of the states, and the
    resulting lower bound on the gain in likelihood. *)
From mathcomp Require Import all_ssreflect all_algebra.
From mathcomp Require Import ring.
From Verif Require Import Prelude Zmod LinAlg Numpy Model SpecL2 L2Facts GaussSpec KfEquiv KfLoglik Joint EmForm EmSpec EmMax.
Import GRing.Theory Num.Theory Order.Theory.

Set Implicit Arguments.
Unset Strict Implicit.
Unset Printing Implicit Defensive.
Local Open Scope ring_scope.

Section Bayes.
Variables (R : rcfType) (ln : R -> R) (ln2pi : R).
Hypothesis lnM : multiplicative_log ln.
Local Notation E := (exp_logpdf ln ln2pi).

Lemma exp_diag (Sp : l2space R) k l (D1 : 'M[R]_k) (D2 : 'M[R]_l) (N : 'M[R]_(k + l)) (a : RV Sp k) (b : RV Sp l)
    (W : Om Sp -> 'cV[R]_(k + l)) :
  pd D1 -> pd D2 -> \det N = 1 -> (forall om, W om = N *m col_mx (a om) (b om)) ->
  E (N *m block_mx D1 0 0 D2 *m N^T) (mom W W) = E D1 (mom a a) + E D2 (mom b b).
Proof.
move=> H1 H2 dN EW.
have UN : N \in unitmx by rewrite unitmxE dN unitr1.
pose ab := MkRV (rvec_col a b).
have -> : mom W W = N *m mom ab ab *m N^T.
  rewrite (mom_ext (X' := rvm N ab) (Y' := rvm N ab)) //.
  by rewrite momMl momMr mulmxA.
have [UD ED] := diag_inv (pd_unit H1) (pd_unit H2).
rewrite /exp_logpdf !det_mulmx det_tr dN mul1r mulr1 det_ublock lnM ?det_pd // natrD.
have -> : \tr (invmx (N *m block_mx D1 0 0 D2 *m N^T) *m (N *m mom ab ab *m N^T)) =
  \tr (invmx D1 *m mom a a) + \tr (invmx D2 *m mom b b).
  rewrite invmxM ?unitmx_mul ?UN ?unitmx_tr // invmxM // ED mxtrace_mulC -!mulmxA.
  rewrite (mulmxA N^T) mulmxV ?unitmx_tr // mul1mx mxtrace_mulC -!mulmxA mulVmx // mulmx1.
  by rewrite mxtrace_mulC (mom_col a b a b) mulmx_block !mul0mx addr0 !add0r mxtrace_block.
move: (\tr (invmx D1 *m mom a a)) (\tr (invmx D2 *m mom b b)) (ln (\det D1)) (ln (\det D2)) (k%:R : R) (l%:R : R) => t1 t2 l1 l2 c1 c2; by ring.
Qed.

Variables (k l : nat) (P : 'M[R]_k) (C : 'M[R]_(l, k)) (Rc : 'M[R]_l).
Hypotheses (HP : pd P) (HR : pd Rc).
Definition bS := C *m (P *m C^T) + Rc.
Definition bK := P *m (C^T *m pinv bS).
Definition bP := P - bK *m (C *m P).
Lemma pd_bS : pd bS.
Proof. by rewrite /bS mulmxA; apply: pdD => //; apply: psd_congr; exact: pd_psd. Qed.
Lemma bKS : bK *m bS = P *m C^T.
Proof. by rewrite /bK (pinv_pd pd_bS) -!mulmxA mulVmx ?mulmx1 // (pd_unit pd_bS). Qed.
Lemma bSK : bS *m bK^T = C *m P.
Proof.
have := f_equal trmx bKS; rewrite [LHS]trmx_mul [RHS]trmx_mul trmxK (pd_sym HP) (pd_sym pd_bS); exact.
Qed.
Definition utri : 'M[R]_(k + l) := block_mx 1%:M bK 0 1%:M.
Lemma bsplit : jtri C *m block_mx P 0 0 Rc *m (jtri C)^T = utri *m block_mx bP 0 0 bS *m utri^T.
Proof.
rewrite -jblockE /jblock /utri tr_block_mx !mulmx_block !trmx1 trmx0.
rewrite !(mul1mx, mulmx1, mul0mx, mulmx0, addr0, add0r) bKS bSK.
congr block_mx; last by rewrite /bS mulmxA.
by rewrite -bKS -mulmxA bSK /bP subrK.
Qed.
Lemma pd_bP : pd bP.
Proof.
have SP : bP^T = bP.
  by rewrite /bP linearB /= trmx_mul [(C *m P)^T]trmx_mul (pd_sym HP) -bKS -bSK mulmxA.
have H : pd (utri *m block_mx bP 0 0 bS *m utri^T).
  by rewrite -bsplit -jblockE; apply/pd_jblock; [exact: pd_sym|exact: pd_sym|split].
split=> // v Nv.
have N1 : col_mx v (- (bK^T *m v)) != 0 :> 'cV[R]_(k + l).
  by apply: contraNN Nv => /eqP Ez; rewrite -(col_mxKu v (- (bK^T *m v))) Ez linear0.
have := (proj2 H) _ N1; rewrite qf_congr.
have -> : utri^T *m col_mx v (- (bK^T *m v)) = col_mx v 0.
  by rewrite /utri tr_block_mx trmx0 !trmx1 mul_block_col !(mul1mx, mul0mx) addr0 addrN.
by rewrite qf_block /bf !(trmx0, mul0mx, mulmx0) sc0 qf0 !addr0.
Qed.

Lemma bayes (Sp : l2space R) (e : RV Sp k) (r : RV Sp l) :
  E P (mom e e) + E Rc (mom (fun om => r om - C *m e om) (fun om => r om - C *m e om)) =
  E bS (mom r r) + E bP (mom (fun om => e om - bK *m r om) (fun om => e om - bK *m r om)).
Proof.
pose W om := col_mx (e om) (r om).
pose b := rva r (rvm (- C) e); pose a := rva e (rvm (- bK) r).
have Eb : mom (fun om => r om - C *m e om) (fun om => r om - C *m e om) = mom b b.
  by apply: mom_ext => om; rewrite /= mulNmx.
have Ea : mom (fun om => e om - bK *m r om) (fun om => e om - bK *m r om) = mom a a.
  by apply: mom_ext => om; rewrite /= mulNmx.
rewrite Ea Eb.
have D1 : \det utri = 1 by rewrite /utri det_ublock !det1 mulr1.
have E1 om : W om = jtri C *m col_mx (e om) (b om).
  by rewrite /W /jtri mul_block_col !mul1mx mul0mx addr0 /= mulNmx addrCA addrN addr0.
have E2 om : W om = utri *m col_mx (a om) (r om).
  by rewrite /W /utri mul_block_col !mul1mx mul0mx add0r /= mulNmx subrK.
have H1 := exp_diag HP HR (det_jtri C) E1.
have H2 := exp_diag pd_bP pd_bS D1 E2.
apply: (etrans (esym H1)); rewrite bsplit; apply: (etrans H2); exact: addrC.
Qed.
End Bayes.

Section Const.
Variables (R : rcfType) (ln : R -> R) (ln2pi : R).
Local Notation E := (exp_logpdf ln ln2pi).
Lemma exp_const (Sp : l2space R) k (S : 'M[R]_k) (y nu : 'cV[R]_k) :
  E S (mom (rvc Sp (y - nu)) (rvc Sp (y - nu))) = gauss_logpdf ln ln2pi y nu S.
Proof.
rewrite /exp_logpdf /gauss_logpdf mom_cc mean_c; apply: f_equal; apply: (f_equal (fun q => q + _ + _)).
by rewrite mulmxA mxtrace_mulC mulmxA /qf /bf /sc /mxtrace big_ord1.
Qed.
End Const.

(** ** One model: the recursions abstracted *)
Section Chain.
Variables (R : rcfType) (ln : R -> R) (ln2pi : R).
Hypothesis lnM : multiplicative_log ln.
Local Notation E := (exp_logpdf ln ln2pi).
Variables (n m T : nat) (M : lgm R n m) (mis : nat -> bool) (y : nat -> 'cV[R]_m).
Variables (mp mf : nat -> 'cV[R]_n) (Pp Pf : nat -> 'M[R]_n).
Record kalman : Prop := Kalman {
  ka_m0 : mp 0%N = mmu M; ka_P0 : Pp 0%N = mP M;
  ka_mS : forall t, mp t.+1 = mA M t *m mf t + mb M t;
  ka_PS : forall t, Pp t.+1 = bS (Pf t) (mA M t) (mQ M t);
  ka_mf : forall t, ~~ mis t -> mf t = mp t + bK (Pp t) (mC M t) (mR M t) *m (y t - (mC M t *m mp t + md M t));
  ka_Pf : forall t, ~~ mis t -> Pf t = bP (Pp t) (mC M t) (mR M t);
  ka_mis : forall t, mis t -> mf t = mp t /\ Pf t = Pp t }.
Hypothesis K : kalman.
Hypothesis H : pd_model mis T M.

Lemma pd_corr t : (t < T)%N -> pd (Pp t) -> pd (Pf t).
Proof.
move=> tT Hp; case Em: (mis t); first by rewrite (ka_mis K Em).2.
rewrite (ka_Pf K) ?Em //; apply: pd_bP => //; by apply: (pd_R H) => //; rewrite Em.
Qed.
Lemma pd_pred t : (t < T)%N -> pd (Pp t).
Proof.
elim: t => [|t IH] tT; first by rewrite (ka_P0 K); exact: pd_P H.
rewrite (ka_PS K); apply: pd_bS; first by apply: pd_corr; [exact: ltnW|apply: IH; exact: ltnW].
by apply: (pd_Q H); case: T tT.
Qed.
Lemma pd_filt t : (t < T)%N -> pd (Pf t).
Proof. by move=> tT; apply: pd_corr => //; exact: pd_pred. Qed.

Variables (Sp : l2space R) (X : nat -> RV Sp n).
Definition lik t : R := if mis t then 0 else
  gauss_logpdf ln ln2pi (y t) (mC M t *m mp t + md M t) (bS (Pp t) (mC M t) (mR M t)).
Definition back_gain t := bK (Pf t) (mA M t) (mQ M t).
Definition back_cov t := bP (Pf t) (mA M t) (mQ M t).
Definition back_dev t om := X t om - mf t - back_gain t *m (X t.+1 om - mp t.+1).
Definition back t : R := E (back_cov t) (sqmom (back_dev t)).
Definition last t : R := E (Pf t) (sqmom (fun om => X t om - mf t)).
Definition otrm t : R := E (mR M t) (sqmom (fun om => y t - mC M t *m X t om - md M t)).
Definition ttrm t : R := E (mQ M t) (sqmom (fun om => X t.+1 om - mA M t *m X t om - mb M t)).

Lemma corr_step t : (t < T)%N ->
  E (Pp t) (sqmom (fun om => X t om - mp t)) + (if mis t then 0 else otrm t) = lik t + last t.
Proof.
move=> tT; rewrite /lik /last; case Em: (mis t).
  by rewrite addr0 add0r !(ka_mis K Em).1 (ka_mis K Em).2.
have Om : ~~ mis t by rewrite Em.
pose e := rva (X t) (rvc Sp (- mp t)); pose r := rvc Sp (y t - (mC M t *m mp t + md M t)).
have Eg := exp_const ln ln2pi Sp (bS (Pp t) (mC M t) (mR M t)) (y t) (mC M t *m mp t + md M t).
have B := bayes ln2pi lnM (mC M t) (pd_pred tT) (pd_R H tT Om) e r.
rewrite -/r in Eg; rewrite Eg -(ka_Pf K Om) in B.
have E1 : sqmom (fun om => X t om - mp t) = mom e e by [].
have E2 : sqmom (fun om => y t - mC M t *m X t om - md M t) = mom (fun om => r om - mC M t *m e om) (fun om => r om - mC M t *m e om).
  by apply: mom_ext => om; rewrite /= mulmxDr mulmxN; zmod.
have E3 : sqmom (fun om => X t om - mf t) = mom (fun om => e om - bK (Pp t) (mC M t) (mR M t) *m r om)
                                              (fun om => e om - bK (Pp t) (mC M t) (mR M t) *m r om).
  by apply: mom_ext => om; rewrite (ka_mf K Om) /= opprD addrA.
by rewrite /otrm E1 E2 E3; exact: B.
Qed.
Lemma pred_step t : (t.+1 < T)%N ->
  last t + ttrm t = E (Pp t.+1) (sqmom (fun om => X t.+1 om - mp t.+1)) + back t.
Proof.
move=> tT; have tT0 : (t < T)%N by exact: ltnW.
have tT1 : (t < T.-1)%N by case: T tT.
pose e := rva (X t) (rvc Sp (- mf t)); pose r := rva (X t.+1) (rvc Sp (- mp t.+1)).
have := bayes ln2pi lnM (mA M t) (pd_filt tT0) (pd_Q H tT1) e r.
rewrite -(ka_PS K) -/(back_gain t) -/(back_cov t) => B.
have E2 : sqmom (fun om => X t.+1 om - mA M t *m X t om - mb M t) = mom (fun om => r om - mA M t *m e om) (fun om => r om - mA M t *m e om).
  by apply: mom_ext => om; rewrite /= (ka_mS K) mulmxDr mulmxN; zmod.
by rewrite /last /ttrm /back E2; exact: B.
Qed.
Lemma chain k : (k < T)%N ->
  Q_init ln ln2pi (fun t => X t) (mmu M) (mP M) + \sum_(t < k) ttrm t + \sum_(t < k.+1 | ~~ mis t) otrm t =
  \sum_(t < k.+1) lik t + last k + \sum_(t < k) back t.
Proof.
elim: k => [|k IH] kT.
  rewrite [\sum_(t < 1 | _) _]big_mkcond !big_ord_recr !big_ord0 /= ?add0r !addr0 ?add0r if_neg.
  by rewrite -corr_step // /Q_init (ka_m0 K) (ka_P0 K).
rewrite (sum_condS (fun t => ~~ mis t) otrm) if_neg [\sum_(t < k.+2) _]big_ord_recr [\sum_(t < k.+1) ttrm t]big_ord_recr /=.
rewrite [\sum_(t < k.+1) back t]big_ord_recr /=; have := IH (ltnW kT).
have := corr_step kT; have := pred_step kT.
set a := Q_init _ _ _ _ _; set b := \sum_(t < k) ttrm t; set c := \sum_(t < k.+1 | ~~ mis t) _.
set d := \sum_(t < k.+1) lik t; set f := \sum_(t < k) back t; set g := E _ _.
set h := (if _ then _ else _).
move: (last k) (last k.+1) (ttrm k) (lik k.+1) (back k) => l l' tt li bk H1 H2 H3.
have -> : a + (b + tt) + (c + h) = (a + b + c) + tt + h by ring.
have -> : d + li + l' + (f + bk) = (li + l') + (d + f + bk) by ring.
rewrite H3 -H2.
have -> : d + l + f + tt + h = (l + tt) + d + f + h by ring.
by rewrite H1; ring.
Qed.
End Chain.
