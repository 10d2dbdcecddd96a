(** A model of fewer quantities gives the same estimates of them. *)
From Coq Require Import String List.
From mathcomp Require Import all_ssreflect all_algebra.
From Verif Require Import Prelude Zmod LinAlg Numpy NumpyFacts Sklearn Standard Model KfSpec StandardInit StandardFacts
  SpecL2 L2Facts Lmmse Exists KfOptimal KfModelFacts KfEquiv KfJoint KfGlue KfExact RedSpec Examples.
Import GRing.Theory Num.Theory Order.Theory.

Set Implicit Arguments.
Unset Strict Implicit.
Unset Printing Implicit Defensive.
Local Open Scope ring_scope.

Section Alg.
Variables (R : rcfType) (n k : nat) (W : 'M[R]_(k, n)).
Lemma red_alg (A P P1 F L : 'M[R]_n) (Ar B0 B1 : 'M[R]_k) (mu : 'cV[R]_n) (c0 c1 : 'cV[R]_k) :
  P^T = P -> P1^T = P1 -> F = P + P *m W^T *m B0 *m W *m P -> L *m P1 = F *m A^T -> W *m A = Ar *m W ->
  let G := (1%:M + B0 *m (W *m P *m W^T)) *m Ar^T in
  mu + P *m W^T *m c0 + L *m (P1 *m W^T *m c1) = mu + P *m W^T *m (c0 + G *m c1) /\
  F + L *m ((P1 *m W^T *m B1 *m W *m P1) *m L^T) = P + P *m W^T *m (B0 + G *m B1 *m G^T) *m W *m P.
Proof.
move=> SP SP1 EF EL EW G.
have EG : L *m P1 *m W^T = P *m W^T *m G.
  rewrite EL -mulmxA -trmx_mul EW trmx_mul EF /G.
  rewrite mulmxDl !mulmxDl mul1mx mulmxDr; congr (_ + _); by rewrite !mulmxA.
move: (G) EG => {}G EG.
have EGT : W *m P1 *m L^T = G^T *m W *m P.
  by have := congr1 trmx EG; rewrite !trmx_mul !trmxK SP SP1 !mulmxA.
split; first by rewrite mulmxDr addrA !mulmxA EG.
rewrite mulmxDr !mulmxDl EF addrA; congr (_ + _).
have -> : L *m (P1 *m W^T *m B1 *m W *m P1 *m L^T) = (L *m P1 *m W^T) *m B1 *m (W *m P1 *m L^T) by rewrite !mulmxA.
by rewrite EG EGT !mulmxA.
Qed.
End Alg.

Section Red.
Variables (R : rcfType) (n k m : nat) (T : nat) (W : 'M[R]_(k, n)) (M : lgm R n m) (M' : lgm R k m).
Hypothesis HW : reduces T W M M'.
Variable zs : seq (orow R m).
Notation y := (stream zs).
Definition img (s : 'cV[R]_n * 'M[R]_n) : 'cV[R]_k * 'M[R]_k := (W *m s.1, W *m s.2 *m W^T).

Lemma red_innov t P : (t < T)%N -> innov_cov M' t (W *m P *m W^T) = innov_cov M t P.
Proof. by move=> tT; rewrite /innov_cov (rd_R HW tT) (rd_C HW tT) trmx_mul !mulmxA. Qed.
Lemma red_mean t x : (t < T)%N -> mC M' t *m (W *m x) + md M' t = mC M t *m x + md M t.
Proof. by move=> tT; rewrite (rd_d HW tT) (rd_C HW tT) mulmxA. Qed.
Lemma red_correct t s : (t < T)%N -> correct M' y t (img s) = img (correct M y t s).
Proof.
move=> tT; rewrite /correct; case: (y t) => [z|] //; move: s => [x P]; rewrite /img /=.
rewrite red_mean //.
have EK : gain M' t (W *m P *m W^T) = W *m gain M t P.
  by rewrite /gain red_innov // (rd_C HW tT) trmx_mul !mulmxA.
rewrite EK; move: (z - _) (gain M t P) => e K; congr pair; first by rewrite mulmxDr mulmxA.
by rewrite mulmxBr mulmxBl (rd_C HW tT) !mulmxA.
Qed.
Lemma red_predict t s : (t.+1 < T)%N -> predict M' t (img s) = img (predict M t s).
Proof.
move=> tT; move: s => [x P]; rewrite /predict /img /= (rd_b HW tT) (rd_Q HW tT); congr pair.
  by rewrite mulmxDr !mulmxA (rd_A HW tT).
rewrite mulmxDr mulmxDl; congr (_ + _).
have -> : W *m (mA M t *m (P *m (mA M t)^T)) *m W^T = (W *m mA M t) *m P *m (W *m mA M t)^T by rewrite trmx_mul !mulmxA.
by rewrite (rd_A HW tT) trmx_mul !mulmxA.
Qed.
Lemma red_pred t : (t < T)%N -> pred M' y t = img (pred M y t).
Proof.
elim: t => [|t IH] tT; first by rewrite /img /= (rd_mu HW) (rd_P HW).
have E i (K : lgm R i m) : pred K y t.+1 = predict K t (correct K y t (pred K y t)) by exact: erefl.
by rewrite !E (IH (ltnW tT)) (red_correct _ (ltnW tT)) red_predict.
Qed.
Lemma red_filt t : (t < T)%N -> filt M' y t = img (filt M y t).
Proof. by move=> tT; rewrite /filt red_pred // red_correct. Qed.

Hypothesis HM : psd_model M T.
Lemma red_psd : psd_model M' T.
Proof.
case: HM => HP HQ HR; split.
- by rewrite (rd_P HW); exact: psd_congr.
- move=> t tT; have tT' : (t.+1 < T)%N by move: tT; case: (T).
  by rewrite (rd_Q HW tT'); apply: psd_congr; exact: HQ.
by move=> t tT; rewrite (rd_R HW tT); exact: HR.
Qed.

(** later data move both estimates by the same amounts *)
Definition both (p s : 'cV[R]_n * 'M[R]_n) (s' : 'cV[R]_k * 'M[R]_k) := exists c B,
  s = (p.1 + p.2 *m W^T *m c, p.2 + p.2 *m W^T *m B *m W *m p.2) /\
  s' = (W *m p.1 + W *m p.2 *m W^T *m c, W *m p.2 *m W^T + W *m p.2 *m W^T *m B *m (W *m p.2 *m W^T)).
Lemma both_img p s s' : both p s s' -> s' = img s.
Proof.
case=> c [B [-> ->]]; rewrite /img /=; congr pair; first by rewrite mulmxDr !mulmxA.
by rewrite mulmxDr mulmxDl !mulmxA.
Qed.
Lemma red_both0 t : (t < T)%N -> both (pred M y t) (filt M y t) (filt M' y t).
Proof.
move=> tT; rewrite (red_filt tT) /filt /correct; case: (y t) => [z|]; last first.
  by exists 0, 0; rewrite !mulmx0 !mul0mx !addr0; case: (pred M y t).
move: (pred M y t) => [x P]; set e := z - _; set V := pinv (innov_cov M t P).
exists ((mC M' t)^T *m V *m e), (- ((mC M' t)^T *m V *m mC M' t)).
rewrite /img /= /gain -/V; move: (V) (e) => {}V {}e; rewrite (rd_C HW tT) trmx_mul; split.
  by rewrite !mulmxN !mulNmx !mulmxA.
by rewrite !mulmxN !mulNmx mulmxDr mulmxBr mulmxBl !mulmxA.
Qed.
Lemma sgainE i (K : lgm R i m) t : psd_model K T -> (t.+1 < T)%N ->
  sgain K y t *m (pred K y t.+1).2 = (filt K y t).2 *m (mA K t)^T.
Proof.
move=> HK tT; apply: sgain_pred; first exact: (pf_psd zs HK (ltnW tT)).
by case: HK => _ + _; apply; move: tT; case: (T).
Qed.
Lemma red_both j t : (t + j < T)%N -> both (pred M y t) (smo M y j t) (smo M' y j t).
Proof.
elim: j t => [|j IH] t tT; first by apply: red_both0; rewrite addn0 in tT.
have tT1 : (t.+1 < T)%N by apply: leq_ltn_trans tT; rewrite -addSnnS leq_addr.
have tT0 := ltnW tT1; rewrite -addSnnS in tT.
have ES i (K : lgm R i m) : smo K y j.+1 t = ((filt K y t).1 + sgain K y t *m ((smo K y j t.+1).1 - (pred K y t.+1).1),
   (filt K y t).2 + sgain K y t *m (((smo K y j t.+1).2 - (pred K y t.+1).2) *m (sgain K y t)^T)) by exact: erefl.
have L1 := sgainE HM tT1; have L2 := sgainE red_psd tT1.
have [c1 [B1 [E1 E1']]] := IH _ tT; have [c0 [B0 [E0 E0']]] := red_both0 tT0.
have SP := psd_sym (pp_psd zs HM tT0); have SP1 := psd_sym (pp_psd zs HM tT1).
rewrite !ES E1 E1' (red_pred tT1); rewrite (red_pred tT1) in L2.
rewrite E0 E0' in L1 L2 *; have EA := rd_A HW tT1; clear ES E1 E1' E0 E0' IH.
move: (sgain M y t) (sgain M' y t) (pred M y t) (pred M y t.+1) L1 L2 SP SP1 => L L' [x P] [x1 P1].
rewrite /img /both /fst /snd => L1 L2 SP SP1.
have SPr (X : 'M[R]_n) : X^T = X -> (W *m X *m W^T)^T = W *m X *m W^T by move=> E; rewrite !trmx_mul trmxK E mulmxA.
have [A1 A2] := red_alg B1 x c0 c1 SP SP1 erefl L1 EA.
have EF : W *m P *m W^T + W *m P *m W^T *m B0 *m (W *m P *m W^T) = W *m P *m W^T + (W *m P *m W^T) *m 1%:M^T *m B0 *m 1%:M *m (W *m P *m W^T).
  by rewrite trmx1 !mulmx1.
have EA' : 1%:M *m mA M' t = mA M' t *m 1%:M by rewrite mulmx1 mul1mx.
have [A1' A2'] := red_alg B1 (W *m x) c0 c1 (SPr _ SP) (SPr _ SP1) EF L2 EA'.
have Ez i (a b : 'cV[R]_i) : a + b - a = b by zmod.
have Em i (a b : 'M[R]_i) : a + b - a = b by zmod.
set G := (1%:M + B0 *m (W *m P *m W^T)) *m (mA M' t)^T.
have EG : (1%:M + B0 *m (1%:M *m (W *m P *m W^T) *m 1%:M^T)) *m (mA M' t)^T = G by rewrite trmx1 mulmx1 mul1mx.
exists (c0 + G *m c1), (B0 + G *m B1 *m G^T); rewrite !Ez !Em; split.
  by rewrite A1 A2.
rewrite EG trmx1 !mulmx1 in A1' A2'; by rewrite A1' A2'.
Qed.
Lemma red_smo j t : (t + j < T)%N -> smo M' y j t = img (smo M y j t).
Proof. by move=> tT; apply: both_img (red_both tT). Qed.
End Red.

Section Api.
Variables (R : rcfType) (n k m : nat) (T : nat) (W : 'M[R]_(k, n)) (M : lgm R n m) (M' : lgm R k m) (zs : seq (orow R m)) (o o' : kf R).
Hypotheses (HW : reduces T W M M') (Ho : kf_model o T M) (Ho' : kf_model o' T M') (Hsz : size zs = T) (Hk : keeps zs).
Lemma red_filter_api : exists (x : nat -> 'cV[R]_n) (P : nat -> 'M[R]_n),
  kf_filter o (O2 m zs) = Ok [seq (A1 (x t), A2 (P t)) | t <- iota 0 T] /\
  kf_filter o' (O2 m zs) = Ok [seq (A1 (W *m x t), A2 (W *m P t *m W^T)) | t <- iota 0 T].
Proof.
have K : (T != 1%N) || (m <= 1)%N by rewrite -Hsz.
exists (fun t => (filt M (stream zs) t).1), (fun t => (filt M (stream zs) t).2); split; first exact: (kf_filter_ok Ho Hsz K).
rewrite (kf_filter_ok Ho' Hsz K); apply: f_equal; apply: iota_map_ext => t; rewrite add0n leq0n andTb => tT.
by apply: pairE; rewrite (red_filt HW _ tT).
Qed.
Lemma red_smooth_api : psd_model M T -> (0 < T)%N -> exists (x : nat -> 'cV[R]_n) (P : nat -> 'M[R]_n),
  kf_smooth o (O2 m zs) = Ok [seq (A1 (x t), A2 (P t)) | t <- iota 0 T] /\
  kf_smooth o' (O2 m zs) = Ok [seq (A1 (W *m x t), A2 (W *m P t *m W^T)) | t <- iota 0 T].
Proof.
move=> HM T0; have K : (T != 1%N) || (m <= 1)%N by rewrite -Hsz.
exists (fun t => (smo M (stream zs) (T.-1 - t) t).1), (fun t => (smo M (stream zs) (T.-1 - t) t).2); split.
  exact: (kf_smooth_ok Ho Hsz K T0).
rewrite (kf_smooth_ok Ho' Hsz K T0); apply: f_equal; apply: iota_map_ext => t; rewrite add0n leq0n andTb => tT.
by apply: pairE; rewrite (red_smo HW _ HM (idx_lt tT)).
Qed.
Lemma red_loglik ln ln2pi : const2 (k_oc o) -> const2 (k_oc o') ->
  kf_loglikelihood ln ln2pi o' (O2 m zs) = kf_loglikelihood ln ln2pi o (O2 m zs).
Proof.
move=> Hc Hc'; rewrite (kf_loglik_steps Ho Hc Hsz Hk) (kf_loglik_steps Ho' Hc' Hsz Hk).
congr (bind _ _); apply: KfGlue.mapr_ext => t; rewrite mem_iota add0n leq0n andTb => tT; rewrite /ll_step.
case: (stream zs t) => // z; rewrite (red_pred HW _ tT); move: (pred M _ t) => [a P]; rewrite /img [fst _]/= [snd _]/=.
by rewrite (red_innov HW _ tT) (red_mean HW _ tT).
Qed.
End Api.

Lemma accum_reduces (R : rcfType) n m (M : lgm R n m) T : reduces T (row_mx 1%:M 0) (accum_model M) M.
Proof.
have E : row_mx 1%:M (0 : 'M[R]_n) *m col_mx 1%:M (0 : 'M[R]_n) = 1%:M :> 'M[R]_n by rewrite mul_row_col mul0mx addr0 mulmx1.
have EQ (Q : 'M[R]_n) : Q = row_mx 1%:M (0 : 'M[R]_n) *m (col_mx 1%:M (0 : 'M[R]_n) *m Q *m (col_mx 1%:M (0 : 'M[R]_n))^T) *m (row_mx 1%:M (0 : 'M[R]_n))^T.
  by rewrite -!mulmxA -trmx_mul E trmx1 mulmx1 mulmxA E mul1mx.
split=> //=.
- by move=> t _; rewrite mul_row_block !mul0mx !addr0 !mul1mx mul_mx_row mulmx1 mulmx0.
- by move=> t _; rewrite mul_row_col mul0mx addr0 mul1mx.
- by move=> t _; rewrite mul_mx_row mulmx1 mulmx0.
- by rewrite mul_row_col mul0mx addr0 mul1mx.
Qed.
Lemma accum_psd (R : rcfType) n m (M : lgm R n m) T : psd_model M T -> psd_model (accum_model M) T.
Proof. by case=> HP HQ HR; split=> [|t tT|//] /=; apply: psd_congr => //; exact: HQ. Qed.
