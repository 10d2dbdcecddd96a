(** The unscented recursions coincide with the Kalman recursions on affine models. *)
From Coq Require Import String List.
From mathcomp Require Import all_ssreflect all_algebra.
From mathcomp Require Import ring.
From Verif Require Import Prelude Zmod LinAlg Numpy NumpyFacts Sklearn Standard Model KfSpec StandardInit StandardFacts
  EmSpec EmChain Rng Unscented UscSpec UscFacts UscRefine UscLoop UscInit UscMain.
Import GRing.Theory Num.Theory Order.Theory.

Set Implicit Arguments.
Unset Strict Implicit.
Unset Printing Implicit Defensive.
Local Open Scope ring_scope.

Section Static.
Variable R : rcfType.

Lemma sg_wcov k n (P : 'M[R]_(k, n)) w mu S : is_sigma P w w mu S -> wcov P w w = S.
Proof. by case=> _ H1 _ H2; rewrite /wcov H1. Qed.

Section Aff.
Variables (k n : nat) (P : 'M[R]_(k, n)) (w : 'cV[R]_k) (mu : 'cV[R]_n) (S : 'M[R]_n).
Hypothesis HS : is_sigma P w w mu S.
Lemma aff_wmean p (F : 'M[R]_(p, n)) a : wmean (aff_rows P F a) w = F *m mu + a.
Proof. exact: sg_mean (aff_sigma F a HS). Qed.
Lemma aff_wcov p (F : 'M[R]_(p, n)) a : wcov (aff_rows P F a) w w = F *m S *m F^T.
Proof. exact: sg_wcov (aff_sigma F a HS). Qed.
Lemma aff_wcross p q (F : 'M[R]_(p, n)) a (G : 'M[R]_(q, n)) c :
  wcross w (cen (aff_rows P F a) (F *m mu + a)) (cen (aff_rows P G c) (G *m mu + c)) = F *m S *m G^T.
Proof. by rewrite !aff_cen wcross_mul trmxK (sg_cov HS). Qed.
Lemma ucorr_aff p q (F : 'M[R]_(p, n)) a (G : 'M[R]_(q, n)) c (N : 'M[R]_q) (V : 'M[R]_p) (z : option 'cV[R]_q) :
  S^T = S ->
  let K := F *m S *m G^T *m pinv (G *m S *m G^T + N) in
  ucorr w (aff_rows P F a) (aff_rows P G c) N (F *m mu + a, V) z =
  if z is Some z then (F *m mu + a + K *m (z - (G *m mu + c)), V - K *m (G *m S *m F^T)) else (F *m mu + a, V).
Proof.
move=> sS K; case: z => [z|] //; rewrite /ucorr /= aff_wmean aff_wcross aff_wcov -/K.
by rewrite !trmx_mul trmxK sS mulmxA.
Qed.
Lemma uback_aff p (F : 'M[R]_(p, n)) a (G : 'M[R]_(p, n)) c (N V : 'M[R]_p) (s : 'cV[R]_p * 'M[R]_p) :
  S^T = S ->
  let L := F *m S *m G^T *m pinv (G *m S *m G^T + N) in
  uback1 w (aff_rows P F a) (aff_rows P G c) N (F *m mu + a, V) s =
  (F *m mu + a + L *m (s.1 - (G *m mu + c)), V + L *m (s.2 - (G *m S *m G^T + N)) *m L^T).
Proof.
move=> sS L; rewrite /uback1 /= aff_wmean aff_wcross aff_wcov.
have -> : (G *m S *m F^T)^T = F *m S *m G^T by rewrite !trmx_mul trmxK sS mulmxA.
by [].
Qed.
End Aff.

Lemma aff_id k n (P : 'M[R]_(k, n)) : aff_rows P 1%:M 0 = P.
Proof. by rewrite /aff_rows trmx1 mulmx1 linear0 mulmx0 addr0. Qed.

(** ** additive *)
Section Add.
Variables (n m : nat) (M : lgm R n m) (Q : 'M[R]_n) (Rn : 'M[R]_m).
Notation f := (fun t x => mA M t *m x + mb M t).
Notation g := (fun t x => mC M t *m x + md M t).

Lemma add_pred_lin t s : pd s.2 -> mQ M t = Q -> add_pred Q f t s = Some (predict M t s).
Proof.
move=> H EQ; have [P EP] := spts_pd s.1 H; have HS := spts_sigma (pd_sym H) EP.
rewrite /add_pred EP [omap _ _]/= fmap_affine (aff_wmean HS) (aff_wcov HS) /predict EQ.
by rewrite mulmxA.
Qed.

Lemma ucorr_lin k (P : 'M[R]_(k, n)) w t y (s : 'cV[R]_n * 'M[R]_n) : is_sigma P w w s.1 s.2 -> pd s.2 -> mR M t = Rn ->
  ucorr w P (fmap (g t) P) Rn s (y t) = correct M y t s.
Proof.
case: s => mu S /= HS H ER; rewrite fmap_affine.
have := ucorr_aff HS 1%:M 0 (mC M t) (md M t) Rn S (y t) (pd_sym H).
rewrite aff_id !mul1mx addr0 => ->; rewrite /correct /gain /innov_cov ER /=.
by case: (y t) => [z|] //; rewrite trmx1 mulmx1 !mulmxA.
Qed.
Lemma add_corr_lin t y s : pd s.2 -> mR M t = Rn -> add_corr Rn g t s (y t) = Some (correct M y t s).
Proof.
move=> H ER; have [P EP] := spts_pd s.1 H; have HS := spts_sigma (pd_sym H) EP.
by rewrite /add_corr EP [omap _ _]/= (ucorr_lin y HS H ER).
Qed.
Lemma add_first_lin y : pd (mP M) -> mR M 0%N = Rn -> add_first Rn (mmu M) (mP M) g (y 0%N) = Some (filt M y 0).
Proof.
move=> H ER; have [P EP] := spts_pd (mmu M) H; have HS := spts_sigma (pd_sym H) EP.
rewrite /add_first EP [omap _ _]/= (sg_mean HS) (sg_wcov HS).
by rewrite (@ucorr_lin _ _ _ _ y (mmu M, mP M) HS H ER).
Qed.
End Add.

Section PdFilt.
Variables (n m T : nat) (M : lgm R n m) (y : nat -> option 'cV[R]_m).
Hypothesis H : pd_model (fun t => ~~ isSome (y t)) T M.
Lemma pd_correct t s : (t < T)%N -> pd s.2 -> pd (correct M y t s).2.
Proof.
move=> tT Hs; rewrite /correct; case E: (y t) => [z|] //=.
rewrite /gain /innov_cov; apply: pd_bP => //; apply: (pd_R H) => //; by rewrite E.
Qed.
Lemma pd_predict t s : (t < T.-1)%N -> pd s.2 -> pd (predict M t s).2.
Proof. move=> tT Hs; apply: pd_bS => //; exact: (pd_Q H). Qed.
Lemma pd_pred_t t : (t < T)%N -> pd (pred M y t).2.
Proof.
elim: t => [|t IH] tT; first exact: pd_P H.
apply: pd_predict; first by case: T tT.
by apply: pd_correct; [exact: ltnW|apply: IH; exact: ltnW].
Qed.
Lemma pd_filt_t t : (t < T)%N -> pd (filt M y t).2.
Proof. by move=> tT; apply: pd_correct => //; exact: pd_pred_t. Qed.
End PdFilt.

Section AddLin.
Variables (n m T : nat) (M : lgm R n m) (Q : 'M[R]_n) (Rn : 'M[R]_m) (y : nat -> option 'cV[R]_m).
Notation f := (fun t x => mA M t *m x + mb M t).
Notation g := (fun t x => mC M t *m x + md M t).
Hypotheses (H : pd_model (fun t => ~~ isSome (y t)) T M) (EQ : forall t, (t < T.-1)%N -> mQ M t = Q)
  (ER : forall t, (t < T)%N -> mR M t = Rn).
Lemma add_filt_lin t : (t < T)%N -> add_filt Q Rn (mmu M) (mP M) f g y t = Some (filt M y t).
Proof.
elim: t => [|t IH] tT; first by apply: add_first_lin; [exact: pd_P H|exact: ER].
have tT' : (t < T.-1)%N by case: T tT.
rewrite /add_filt -[ufold _ _ _ _]/(obind (fun s => add_next Q Rn f g t s (y t.+1)) (add_filt Q Rn (mmu M) (mP M) f g y t)).
rewrite IH; last exact: ltnW.
have Pf := pd_filt_t H (ltnW tT).
rewrite -[obind _ _]/(obind (fun mp => add_corr Rn g t.+1 mp (y t.+1)) (add_pred Q f t (filt M y t))).
rewrite (add_pred_lin Pf (EQ tT')) -[obind _ _]/(add_corr Rn g t.+1 (predict M t (filt M y t)) (y t.+1)).
apply: add_corr_lin; [exact: (pd_predict H tT' Pf)|exact: ER].
Qed.
Lemma add_back_lin t s : (t < T.-1)%N -> add_back1 Q f t (filt M y t) s =
  Some ((filt M y t).1 + sgain M y t *m (s.1 - (pred M y t.+1).1),
        (filt M y t).2 + sgain M y t *m ((s.2 - (pred M y t.+1).2) *m (sgain M y t)^T)).
Proof.
move=> tT; have Pf : pd (filt M y t).2 by apply: (pd_filt_t H); exact: leq_trans tT (leq_pred _).
rewrite /sgain -[pred M y t.+1]/(predict M t (filt M y t)).
move: (filt M y t) Pf => [mu S] /= Pf; have [P EP] := spts_pd mu Pf; have HS := spts_sigma (pd_sym Pf) EP.
rewrite /add_back1 EP [omap _ _]/= fmap_affine.
have := uback_aff HS 1%:M 0 (mA M t) (mb M t) Q S s (pd_sym Pf).
rewrite aff_id !mul1mx addr0 => ->; rewrite (EQ tT).
by rewrite !mulmxA.
Qed.
Lemma add_backs_lin j t : (t + j < T)%N -> ubacks (add_back1 Q f) (filt M y) j t = Some (smo M y j t).
Proof.
elim: j t => [//|j IH] t tT; rewrite -[ubacks _ _ _ _]/(obind (add_back1 Q f t (filt M y t)) (ubacks (add_back1 Q f) (filt M y) j t.+1)).
rewrite IH; last by rewrite addSnnS.
apply: (etrans (add_back_lin _ _)) => //.
by move: tT; rewrite addnS; case: T => // T' /= tT; exact: (leq_ltn_trans (leq_addr j t)).
Qed.
End AddLin.

(** ** augmented *)
Lemma pd_diag k l (A : 'M[R]_k) (B : 'M[R]_l) : pd A -> pd B -> pd (block_mx A 0 0 B).
Proof.
case=> SA HA [SB HB]; split; first by rewrite tr_block_mx !linear0 SA SB.
move=> v; rewrite -[v]vsubmxK; move: (usubmx v) (dsubmx v) => a b Nv.
have -> : qf (block_mx A 0 0 B) (col_mx a b) = qf A a + qf B b.
  by rewrite /qf /bf tr_col_mx mul_row_block !mulmx0 addr0 add0r mul_row_col /sc mxE.
have [a0|Na] := eqVneq a 0.
  have Nb : b != 0 by apply: contraNN Nv => /eqP ->; rewrite a0 col_mx0.
  by rewrite a0 qf0 add0r HB.
by rewrite ltr_paddr ?HA //; have [->|Nb] := eqVneq b 0; rewrite ?qf0 // ltW // HB.
Qed.

Lemma lsub_aff k n p (P : 'M[R]_(k, n + p)) : lsubmx P = aff_rows P (row_mx 1%:M 0) 0.
Proof. by rewrite /aff_rows tr_row_mx -{2}[P]hsubmxK mul_row_col trmx1 !trmx0 mulmx1 !mulmx0 !addr0. Qed.
Lemma rsub_aff k n p (P : 'M[R]_(k, n + p)) : rsubmx P = aff_rows P (row_mx 0 1%:M) 0.
Proof. by rewrite /aff_rows tr_row_mx -{2}[P]hsubmxK mul_row_col trmx1 !trmx0 mulmx1 !mulmx0 !addr0 add0r. Qed.
Lemma aff_aff k n p q (P : 'M[R]_(k, n)) (F : 'M[R]_(p, n)) a (G : 'M[R]_(q, p)) c :
  aff_rows (aff_rows P F a) G c = aff_rows P (G *m F) (G *m a + c).
Proof. by rewrite /aff_rows linearD /= !trmx_mul mulmxDl mulmxDr !mulmxA addrA. Qed.
Lemma aff_D k n p (P : 'M[R]_(k, n)) (F G : 'M[R]_(p, n)) a c : aff_rows P F a + aff_rows P G c = aff_rows P (F + G) (a + c).
Proof. by rewrite /aff_rows ![(_ + _)^T]linearD /= !mulmxDr addrACA. Qed.
Lemma fmap2_affine k n p (P : 'M[R]_(k, n)) (W : 'M[R]_(k, p)) (F : 'M[R]_(p, n)) d :
  fmap2 (fun x w => F *m x + d + w) P W = aff_rows P F d + W.
Proof.
rewrite -fmap_affine; apply/matrixP=> i j; rewrite !mxE; congr (_ + _).
Qed.

Lemma mul_rb k l q (A : 'M[R]_(q, k)) (B : 'M[R]_(q, l)) (S : 'M[R]_k) (V : 'M[R]_l) :
  row_mx A B *m block_mx S 0 0 V = row_mx (A *m S) (B *m V).
Proof. by rewrite mul_row_block !mulmx0 addr0 add0r. Qed.
Lemma mul_rr k l q r (A : 'M[R]_(q, k)) (B : 'M[R]_(q, l)) (C : 'M[R]_(r, k)) (D : 'M[R]_(r, l)) :
  row_mx A B *m (row_mx C D)^T = A *m C^T + B *m D^T.
Proof. by rewrite tr_row_mx mul_row_col. Qed.

Section Aug.
Variables (n m : nat) (M : lgm R n m) (Q : 'M[R]_n) (Rn : 'M[R]_m).
Hypotheses (HQ : pd Q) (HR : pd Rn).
Notation f := (fun t x w => mA M t *m x + mb M t + w).
Notation g := (fun t x v => mC M t *m x + md M t + v).

Lemma aug_pts_sigma (s : 'cV[R]_n * 'M[R]_n) : pd s.2 -> exists2 P, aug_pts Q Rn s = Some P &
  is_sigma P (wdef R _) (wdef R _) (col_mx s.1 (col_mx 0 0)) (block_mx s.2 0 0 (block_mx Q 0 0 Rn)).
Proof.
move=> H; have HB : pd (block_mx s.2 0 0 (block_mx Q 0 0 Rn)) by apply: pd_diag => //; exact: pd_diag.
have [P EP] := spts_pd (col_mx s.1 (col_mx 0 0)) HB; exists P => //.
exact: spts_sigma (pd_sym HB) EP.
Qed.

(** the general correction step: predicted points are [F P + a] with [F] acting on state and transition noise only *)
Lemma aug_corr_lin k (P : 'M[R]_(k, n + (n + m))) w (mu : 'cV[R]_n) (S : 'M[R]_n) (F G : 'M[R]_n) a t y :
  is_sigma P w w (col_mx mu (col_mx 0 0)) (block_mx S 0 0 (block_mx Q 0 0 Rn)) -> S^T = S -> mR M t = Rn ->
  aug_corr g t w (aff_rows P (row_mx F (row_mx G 0)) a) (pv P) (y t) =
  correct M y t (F *m mu + a, F *m S *m F^T + G *m Q *m G^T).
Proof.
move=> HS sS ER; rewrite /aug_corr fmap2_affine (aff_wmean HS) (aff_wcov HS) aff_aff /pv rsub_aff.
rewrite [rsubmx P]rsub_aff aff_aff aff_D.
have sB : (block_mx S 0 0 (block_mx Q 0 0 Rn))^T = block_mx S 0 0 (block_mx Q 0 0 Rn).
  by rewrite !tr_block_mx !linear0 sS (pd_sym HQ) (pd_sym HR).
rewrite (ucorr_aff HS) // !(mul_mx_row, mulmx0, mul1mx, addr0, mulmx1, add_row_mx, add0r).
rewrite !mul_rb !mul_rr !mul_row_col !(mulmx0, mul0mx, addr0, add0r, trmx0, trmx1, mulmx1, mul1mx).
rewrite /correct; case: (y t) => [z|] //=.
rewrite /gain /innov_cov ER.
set K := _ *m pinv _; set K' := _ *m (_ *m pinv _).
have -> : K = K' by rewrite /K /K' !trmx_mul !mulmxDl !mulmxDr !mulmxA addrA.
by rewrite !mulmxDr !mulmxA !addrA.
Qed.

Lemma aug_next_lin t y s : pd s.2 -> mQ M t = Q -> mR M t.+1 = Rn ->
  aug_next Q Rn f g t s (y t.+1) = Some (correct M y t.+1 (predict M t s)).
Proof.
move=> H EQ ER; have [P EP HS] := aug_pts_sigma H.
rewrite /aug_next EP [omap _ _]/=; congr Some.
have -> : fmap2 (f t) (px P) (pw P) = aff_rows P (row_mx (mA M t) (row_mx 1%:M 0)) (mb M t).
  rewrite fmap2_affine /px /pw !lsub_aff rsub_aff !aff_aff aff_D; congr aff_rows.
    by rewrite !(mul_mx_row, mulmx0, mul1mx, mulmx1, add_row_mx, addr0, add0r).
  by rewrite !(mulmx0, addr0, add0r).
rewrite (aug_corr_lin _ _ _ _ HS (pd_sym H) ER) /predict EQ trmx1 mulmx1 mul1mx.
by rewrite mulmxA.
Qed.
Lemma aug_first_lin y : pd (mP M) -> mR M 0%N = Rn -> aug_first Q Rn (mmu M) (mP M) g (y 0%N) = Some (filt M y 0).
Proof.
move=> H ER; have [P EP HS] := @aug_pts_sigma (mmu M, mP M) H.
rewrite /aug_first EP [omap _ _]/=; congr Some.
have -> : px P = aff_rows P (row_mx 1%:M (row_mx 0 0)) 0 by rewrite /px lsub_aff row_mx0.
rewrite (aug_corr_lin _ _ _ _ HS (pd_sym H) ER) trmx1 mulmx1 !mul1mx !mul0mx !addr0.
by [].
Qed.
Lemma aug_back_lin t (x s : 'cV[R]_n * 'M[R]_n) : pd x.2 -> mQ M t = Q ->
  let L := x.2 *m ((mA M t)^T *m pinv (predict M t x).2) in
  aug_back1 Q f t x s = Some (x.1 + L *m (s.1 - (predict M t x).1), x.2 + L *m ((s.2 - (predict M t x).2) *m L^T)).
Proof.
move=> H EQ; case: x H => mu S H.
have HB : pd (block_mx S 0 0 Q) by exact: pd_diag.
have [P EP] := spts_pd (col_mx mu 0) HB; have HS := spts_sigma (pd_sym HB) EP.
rewrite /aug_back1 EP [omap _ _]/= fmap2_affine.
rewrite !lsub_aff rsub_aff aff_aff aff_D.
have E1 : (mu, S) = (row_mx 1%:M 0 *m col_mx mu (0 : 'cV[R]_n) + 0, S) by rewrite mul_row_col mul1mx mulmx0 !addr0.
rewrite [X in uback1 _ _ _ _ X]E1 (uback_aff HS) ?(pd_sym HB) //.
rewrite !(mul_mx_row, mulmx0, mul1mx, mulmx1, add_row_mx, addr0, add0r).
rewrite !mul_rb !mul_rr !mul_row_col !(mulmx0, mul0mx, addr0, add0r, trmx0, trmx1, mulmx1, mul1mx).
by rewrite /= EQ !mulmxA.
Qed.
End Aug.

Section AugLin.
Variables (n m T : nat) (M : lgm R n m) (Q : 'M[R]_n) (Rn : 'M[R]_m) (y : nat -> option 'cV[R]_m).
Notation f := (fun t x w => mA M t *m x + mb M t + w).
Notation g := (fun t x v => mC M t *m x + md M t + v).
Hypotheses (HP : pd (mP M)) (HQ : pd Q) (HR : pd Rn).
Hypotheses (EQ : forall t, (t < T.-1)%N -> mQ M t = Q) (ER : forall t, (t < T)%N -> mR M t = Rn).
Lemma pdm : pd_model (fun t => ~~ isSome (y t)) T M.
Proof. by split=> // t tT; [rewrite EQ|rewrite ER]. Qed.
Lemma aug_filt_lin t : (t < T)%N -> aug_filt Q Rn (mmu M) (mP M) f g y t = Some (filt M y t).
Proof.
elim: t => [|t IH] tT; first by apply: aug_first_lin => //; exact: ER.
have tT' : (t < T.-1)%N by case: T tT.
rewrite /aug_filt -[ufold _ _ _ _]/(obind (fun s => aug_next Q Rn f g t s (y t.+1)) (aug_filt Q Rn (mmu M) (mP M) f g y t)).
rewrite IH; last exact: ltnW.
apply: (aug_next_lin HQ HR y (pd_filt_t pdm (ltnW tT))); [exact: EQ|exact: ER].
Qed.
Lemma aug_backs_lin j t : (t + j < T)%N -> ubacks (aug_back1 Q f) (filt M y) j t = Some (smo M y j t).
Proof.
elim: j t => [//|j IH] t tT; rewrite -[ubacks _ _ _ _]/(obind (aug_back1 Q f t (filt M y t)) (ubacks (aug_back1 Q f) (filt M y) j t.+1)).
rewrite IH; last by rewrite addSnnS.
have tT' : (t < T.-1)%N by move: tT; rewrite addnS; case: T => // T' /= tT; exact: (leq_ltn_trans (leq_addr j t)).
apply: (etrans (aug_back_lin HQ (smo M y j t.+1) (pd_filt_t pdm _) (EQ tT'))) => //.
exact: leq_trans tT' (leq_pred _).
Qed.
End AugLin.

(** ** statements about the classes *)
Lemma mapr_lift n (F : nat -> option ('cV[R]_n * 'M[R]_n)) x T : (forall t, (t < T)%N -> F t = Some (x t)) ->
  mapr (fun t => lift_o (F t)) (iota 0 T) = Ok [seq (A1 (x t).1, A2 (x t).2) | t <- iota 0 T].
Proof.
move=> H; apply: mapr_all_ok => t /In_mem; rewrite mem_iota add0n => /= tT.
by rewrite H.
Qed.
End Static.
