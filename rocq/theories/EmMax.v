(** Maximisation of the expected complete-data log likelihood. *)
From mathcomp Require Import all_ssreflect all_algebra.
From mathcomp Require Import ring.
From Verif Require Import LinAlg Numpy Model KfSpec SpecL2 L2Facts Exists GaussSpec KfLoglik Joint EmSpec.
Import GRing.Theory Num.Theory Order.Theory.

Set Implicit Arguments.
Unset Strict Implicit.
Unset Printing Implicit Defensive.
Local Open Scope ring_scope.

Section Trace.
Variable R : rcfType.
Lemma tr_congr k p (W : 'M[R]_k) (L : 'M[R]_(k, p)) : \tr (L^T *m W *m L) = \sum_i qf W (col i L).
Proof.
rewrite /mxtrace; apply: eq_bigr => i _.
rewrite /qf /bf /sc tr_col -row_mul !mxE; apply: eq_bigr => j _.
by rewrite !mxE.
Qed.
Lemma tr_psd_ge0 k (W D : 'M[R]_k) : psd W -> psd D -> 0 <= \tr (W *m D).
Proof.
move=> HW /psd_sqrt [L ->]; rewrite mulmxA mxtrace_mulC mulmxA tr_congr.
by apply: sumr_ge0 => i _; exact: psd_ge0.
Qed.

Lemma qf_low k p (A : 'M[R]_k) (B : 'M[R]_(k, p)) C (D : 'M[R]_p) v :
  qf (block_mx A B C D) (col_mx 0 v) = qf D v.
Proof. by rewrite qf_block qf0 /bf trmx0 !mul0mx mulmx0 !sc0 !add0r. Qed.

(** Loewner-least regression *)
Lemma lsq_expand k p (Syy : 'M[R]_k) (Syx : 'M[R]_(k, p)) (Sxx : 'M[R]_p) (F G : 'M[R]_(k, p)) :
  Sxx^T = Sxx -> G *m Sxx = Syx ->
  (Syy - F *m Syx^T - Syx *m F^T + F *m Sxx *m F^T) - (Syy - G *m Syx^T - Syx *m G^T + G *m Sxx *m G^T)
  = (F - G) *m Sxx *m (F - G)^T.
Proof.
move=> S <-; rewrite trmx_mul S !linearB /= !mulmxBl !mulmxA.
set a := F *m Sxx *m G^T; set b := G *m Sxx *m F^T; set c := G *m Sxx *m G^T; set f := F *m Sxx *m F^T.
by apply/matrixP=> i j; rewrite !mxE; ring.
Qed.
Lemma lsq k p (Syy : 'M[R]_k) (Syx : 'M[R]_(k, p)) (Sxx : 'M[R]_p) (F : 'M[R]_(k, p)) :
  psd (block_mx Syy Syx Syx^T Sxx) ->
  let G := Syx *m pinv Sxx in
  lep (Syy - G *m Syx^T - Syx *m G^T + G *m Sxx *m G^T) (Syy - F *m Syx^T - Syx *m F^T + F *m Sxx *m F^T).
Proof.
move=> HB G.
have HS : psd Sxx.
  split=> [|v]; first by case: HB; rewrite tr_block_mx trmxK => /eq_block_mx [].
  by have := psd_ge0 (col_mx 0 v) HB; rewrite qf_low.
have GS : G *m Sxx = Syx.
  apply: pinv_ker => v Sv.
  have Q : qf (block_mx Syy Syx Syx^T Sxx) (col_mx 0 v) = 0.
    by rewrite qf_low /qf /bf -mulmxA Sv mulmx0 sc0.
  have := psd_qf0 HB Q; rewrite mul_block_col !mulmx0 !add0r => /eqP.
  by rewrite col_mx_eq0 => /andP [/eqP -> _].
rewrite /lep lsq_expand //; last exact: psd_sym.
by have := psd_congrT (F - G)^T HS; rewrite trmxK; apply.
Qed.
End Trace.

Section Gauss.
Variables (R : rcfType) (ln : R -> R) (ln2pi : R).
Hypotheses (lnM : multiplicative_log ln) (lnC : concave_log ln).
Local Notation E := (exp_logpdf ln ln2pi).

Lemma lndet_le k (M : 'M[R]_k) : pd M -> ln (\det M) <= \tr M - k%:R.
Proof.
move=> HM; have [L EL] := chol_pd HM; have [HL LL Lp] := chol_spec (pd_sym HM) EL.
rewrite (det_chol HL LL) (ln_prod lnM); last by move=> i; rewrite mulr_gt0.
rewrite HL /mxtrace -[k in k%:R]card_ord -sumr_const -sumrB; apply: ler_sum => i _.
apply: le_trans (lnC _) _; first by rewrite mulr_gt0.
rewrite ler_add2r mxE (bigD1 i) //= mxE ler_addl; apply: sumr_ge0 => j _.
by rewrite mxE -expr2 sqr_ge0.
Qed.

Lemma exp_logpdf_le k (V S S' : 'M[R]_k) : pd V -> lep S S' -> E V S' <= E V S.
Proof.
move=> HV HS; rewrite /exp_logpdf !mulNr ler_opp2 ler_wpmul2l ?invr_ge0 ?ler0n //.
rewrite -!addrA ler_add2r -subr_ge0 -linearB -mulmxBr /=.
exact: tr_psd_ge0 (pd_psd (pd_inv HV)) HS.
Qed.
Lemma exp_logpdf_best k (V S : 'M[R]_k) : pd V -> pd S -> E V S <= E S S.
Proof.
move=> HV HS; rewrite /exp_logpdf !mulNr ler_opp2 ler_wpmul2l ?invr_ge0 ?ler0n //.
rewrite mulVmx ?pd_unit // mxtrace1.
have [L EL] := chol_pd HS; have [HL LL Lp] := chol_spec (pd_sym HS) EL.
have UL : L \in unitmx.
  by have := pd_unit HS; rewrite HL unitmx_mul => /andP [].
have HM : pd (L^T *m invmx V *m L) by have := @pd_congr_unit _ _ L^T _ (pd_inv HV); rewrite unitmx_tr trmxK; apply.
have := lndet_le HM; rewrite mxtrace_mulC mulmxA -HL mxtrace_mulC !det_mulmx det_tr det_inv.
have -> : \det L * (\det V)^-1 * \det L = \det S * (\det V)^-1.
  by rewrite [in RHS]HL det_mulmx det_tr mulrAC.
have dV := det_pd HV; have dS := det_pd HS.
have <- : ln (\det S) - ln (\det V) = ln (\det S * (\det V)^-1).
  have := lnM (a := \det S * (\det V)^-1) (b := \det V).
  rewrite mulfVK ?gt_eqF // => -> //; first by ring.
  by rewrite mulr_gt0 ?invr_gt0.
move: (\tr _) (ln _) (ln _) (k%:R) => a c b d H.
have -> : d + d * ln2pi + b = (b - c) + (c + d + d * ln2pi) by ring.
have -> : a + d * ln2pi + c = (a - d) + (c + d + d * ln2pi) by ring.
by rewrite ler_add2r.
Qed.

Lemma exp_logpdfZ k (V S : 'M[R]_k) N : (0 < N)%N ->
  N%:R * E V (N%:R^-1 *: S) = - 2%:R^-1 * (\tr (invmx V *m S) + N%:R * (k%:R * ln2pi + ln (\det V))).
Proof.
move=> N0; have N1 : N%:R != 0 :> R by rewrite pnatr_eq0 -lt0n.
rewrite /exp_logpdf -scalemxAr linearZ /=; by field.
Qed.
Lemma exp_logpdf_sum k (V : 'M[R]_k) T (P : ssrbool.pred nat) (S : nat -> 'M[R]_k) :
  \sum_(t < T | P t) E V (S t) = - 2%:R^-1 * (\tr (invmx V *m \sum_(t < T | P t) S t)
     + (\sum_(t < T) P t)%N%:R * (k%:R * ln2pi + ln (\det V))).
Proof.
elim: T => [|T IH]; first by rewrite !big_ord0 mulmx0 linear0 mul0r addr0 mulr0.
rewrite big_mkcond big_ord_recr -big_mkcond IH.
rewrite [in RHS]big_mkcond big_ord_recr -[in RHS]big_mkcond (big_ord_recr T) /=.
case: (P T); last by rewrite !addr0 addn0.
by rewrite /exp_logpdf mulmxDr linearD natrD /=; ring.
Qed.
Lemma exp_sum_le k (V : 'M[R]_k) T (P : ssrbool.pred nat) (S S' : nat -> 'M[R]_k) : pd V ->
  lep (\sum_(t < T | P t) S t) (\sum_(t < T | P t) S' t) ->
  \sum_(t < T | P t) E V (S' t) <= \sum_(t < T | P t) E V (S t).
Proof.
move=> HV HS; rewrite !exp_logpdf_sum !mulNr ler_opp2 ler_wpmul2l ?invr_ge0 ?ler0n //.
rewrite ler_add2r -subr_ge0 -linearB -mulmxBr /=.
exact: tr_psd_ge0 (pd_psd (pd_inv HV)) HS.
Qed.
Lemma exp_sum_best k (V : 'M[R]_k) T (P : ssrbool.pred nat) (S : nat -> 'M[R]_k) :
  let N := (\sum_(t < T) P t)%N in let W := N%:R^-1 *: \sum_(t < T | P t) S t in pd V -> pd W ->
  \sum_(t < T | P t) E V (S t) <= \sum_(t < T | P t) E W (S t).
Proof.
move=> N W HV HW; rewrite !exp_logpdf_sum -/N; case: (posnP N) => N0; last first.
  by rewrite -!exp_logpdfZ // ler_wpmul2l ?ler0n // exp_logpdf_best.
rewrite N0 !mul0r; suff -> : \sum_(t < T | P t) S t = 0 by rewrite !mulmx0.
apply: big_pred0 => t; move/eqP: N0; rewrite sum_nat_eq0 => /forallP /(_ t) /=.
by rewrite eqb0 => /negbTE.
Qed.
End Gauss.

Lemma sum4 (V : zmodType) (I : Type) (r : seq I) (P : ssrbool.pred I) (a b c d : I -> V) :
  \sum_(i <- r | P i) (a i - b i - c i + d i) = \sum_(i <- r | P i) a i - \sum_(i <- r | P i) b i
    - \sum_(i <- r | P i) c i + \sum_(i <- r | P i) d i.
Proof. by rewrite -!sumrB -big_split. Qed.

(** regression of random vectors *)
Section Regress.
Variables (R : rcfType) (Sp : l2space R) (k p : nat).
Lemma reg_mom (Y : RV Sp k) (X : RV Sp p) (F : 'M[R]_(k, p)) :
  mom (fun om => Y om - F *m X om) (fun om => Y om - F *m X om) =
  mom Y Y - F *m (mom Y X)^T - mom Y X *m F^T + F *m mom X X *m F^T.
Proof.
pose U := rva Y (rvm (- F) X).
have -> : mom (fun om => Y om - F *m X om) (fun om => Y om - F *m X om) = mom U U.
  by apply: mom_ext => om; rewrite /= mulNmx.
rewrite momDl !momDr !momMl !momMr mom_tr linearN /= !mulNmx !mulmxN opprK !mulmxA.
by rewrite !addrA; congr (_ + _); rewrite addrAC.
Qed.
Lemma reg_psd (Y : RV Sp k) (X : RV Sp p) : psd (block_mx (mom Y Y) (mom Y X) (mom Y X)^T (mom X X)).
Proof.
have := mom_psd (MkRV (rvec_col Y X)).
by rewrite /= (mom_col Y X Y X) mom_tr.
Qed.
Lemma block_sum (I : Type) (r : seq I) (P : ssrbool.pred I) a b (A : I -> 'M[R]_a) (B : I -> 'M[R]_(a, b))
    (C : I -> 'M[R]_(b, a)) (D : I -> 'M[R]_b) :
  block_mx (\sum_(i <- r | P i) A i) (\sum_(i <- r | P i) B i) (\sum_(i <- r | P i) C i) (\sum_(i <- r | P i) D i)
  = \sum_(i <- r | P i) block_mx (A i) (B i) (C i) (D i).
Proof.
elim: r => [|i r IH]; first by rewrite !big_nil block_mx0.
by rewrite !big_cons; case: (P i) => //; rewrite -IH add_block_mx.
Qed.

Variables (T : nat) (P : ssrbool.pred nat) (Y : nat -> RV Sp k) (X : nat -> RV Sp p).
Let Syy := \sum_(t < T | P t) mom (Y t) (Y t).
Let Syx := \sum_(t < T | P t) mom (Y t) (X t).
Let Sxx := \sum_(t < T | P t) mom (X t) (X t).
Lemma sum_reg F : \sum_(t < T | P t) mom (fun om => Y t om - F *m X t om) (fun om => Y t om - F *m X t om)
  = Syy - F *m Syx^T - Syx *m F^T + F *m Sxx *m F^T.
Proof.
rewrite (eq_bigr (fun t : 'I_T => mom (Y t) (Y t) - F *m (mom (Y t) (X t))^T - mom (Y t) (X t) *m F^T
   + F *m mom (X t) (X t) *m F^T)); last by move=> t _; exact: reg_mom.
have ET : Syx^T = \sum_(t < T | P t) (mom (Y t) (X t))^T by rewrite /Syx linear_sum.
by rewrite sum4 ET /Syx /Sxx !mulmx_sumr !mulmx_suml.
Qed.
Lemma sum_reg_psd : psd (block_mx Syy Syx Syx^T Sxx).
Proof.
have -> : Syx^T = \sum_(t < T | P t) (mom (Y t) (X t))^T by rewrite /Syx linear_sum.
rewrite /Syx block_sum.
by apply: psd_sum => t _; exact: reg_psd.
Qed.
Lemma sum_lsq F : let G := Syx *m pinv Sxx in
  lep (\sum_(t < T | P t) mom (fun om => Y t om - G *m X t om) (fun om => Y t om - G *m X t om))
      (\sum_(t < T | P t) mom (fun om => Y t om - F *m X t om) (fun om => Y t om - F *m X t om)).
Proof. by move=> G; rewrite !sum_reg; exact: lsq sum_reg_psd. Qed.
End Regress.
