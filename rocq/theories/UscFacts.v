(** Facts about sigma points and the unscented transform. *)
From Coq Require Import List.
From mathcomp Require Import all_ssreflect all_algebra.
From mathcomp Require Import ring.
From Verif Require Import Prelude Zmod LinAlg Numpy NumpyFacts Sklearn Standard Unscented UscSpec.
Import GRing.Theory Num.Theory Order.Theory.

Set Implicit Arguments.
Unset Strict Implicit.
Unset Printing Implicit Defensive.
Local Open Scope ring_scope.

Section Facts.
Variable R : rcfType.

(** ** weighted sums *)
Lemma wcrossE k p q (w : 'cV[R]_k) (X : 'M[R]_(k, p)) (Y : 'M[R]_(k, q)) a b :
  wcross w X Y a b = \sum_i w i 0 * (X i a * Y i b).
Proof.
rewrite /wcross mxE; apply: eq_bigr => i _.
by rewrite mul_mx_diag !mxE mulrA [w i 0 * _]mulrC.
Qed.
Lemma wcross_tr k p q (w : 'cV[R]_k) (X : 'M[R]_(k, p)) (Y : 'M[R]_(k, q)) : (wcross w X Y)^T = wcross w Y X.
Proof. by apply/matrixP=> a b; rewrite mxE !wcrossE; apply: eq_bigr => i _; ring. Qed.
Lemma wcross_mul k p q p' q' (w : 'cV[R]_k) (X : 'M[R]_(k, p)) (Y : 'M[R]_(k, q)) (F : 'M_(p, p')) (G : 'M_(q, q')) :
  wcross w (X *m F) (Y *m G) = F^T *m wcross w X Y *m G.
Proof. by rewrite /wcross trmx_mul !mulmxA. Qed.

Lemma one_w k (w : 'cV[R]_k) : \sum_i w i 0 = 1 -> (const_mx 1 : 'rV[R]_k) *m w = 1%:M.
Proof.
move=> H; apply/matrixP=> i j; rewrite !ord1 !mxE -[RHS]H.
by apply: eq_bigr => l _; rewrite mxE mul1r.
Qed.

(** affine image of weighted rows *)
Definition aff_rows k n p (P : 'M[R]_(k, n)) (F : 'M[R]_(p, n)) (d : 'cV[R]_p) : 'M[R]_(k, p) :=
  P *m F^T + const_mx 1 *m d^T.
Lemma aff_mean k n p (P : 'M[R]_(k, n)) (F : 'M[R]_(p, n)) d (w : 'cV_k) : \sum_i w i 0 = 1 ->
  wmean (aff_rows P F d) w = F *m wmean P w + d.
Proof.
move=> /one_w H; rewrite /wmean /aff_rows linearD /= trmx_mul trmxK mulmxDl -mulmxA; congr (_ + _).
by rewrite trmx_mul trmxK trmx_const -mulmxA H mulmx1.
Qed.
Lemma aff_cen k n p (P : 'M[R]_(k, n)) (F : 'M[R]_(p, n)) d mu : cen (aff_rows P F d) (F *m mu + d) = cen P mu *m F^T.
Proof. by rewrite /cen /aff_rows linearD /= trmx_mul mulmxDr mulmxBl mulmxA opprD addrACA subrr addr0. Qed.

Lemma aff_sigma k n p (P : 'M[R]_(k, n)) wm wc mu S (F : 'M[R]_(p, n)) d :
  is_sigma P wm wc mu S -> is_sigma (aff_rows P F d) wm wc (F *m mu + d) (F *m S *m F^T).
Proof.
case=> H1 H2 H3 H4; split=> //; first by rewrite aff_mean ?H2.
- by rewrite aff_cen wcross_mul H3 trmxK.
- by rewrite aff_cen wcross_mul H4 trmxK.
Qed.

Lemma fmap_affine k n p (P : 'M[R]_(k, n)) (F : 'M[R]_(p, n)) d : fmap (fun x => F *m x + d) P = aff_rows P F d.
Proof.
apply/matrixP=> i j; rewrite !mxE big_ord1 !mxE mul1r; congr (_ + _).
by apply: eq_bigr => l _; rewrite !mxE mulrC.
Qed.

(** ** the 2n+1 points *)
Section Points.
Variables (n : nat).
Definition pos (i : 'I_n) : 'I_((n + n).+1) := lift ord0 (lshift n i).
Definition neg (i : 'I_n) : 'I_((n + n).+1) := lift ord0 (rshift n i).
Lemma sum_pts (V : zmodType) (F : 'I_((n + n).+1) -> V) : \sum_i F i = F ord0 + \sum_i (F (pos i) + F (neg i)).
Proof. by rewrite big_ord_recl big_split_ord big_split. Qed.

Variables (mu : 'cV[R]_n) (L : 'M[R]_n) (c : R).
Lemma row_0 j : sigma_rows mu L c ord0 j = mu j 0. Proof. by rewrite mxE. Qed.
Lemma row_pos i j : sigma_rows mu L c (pos i) j = mu j 0 + L j i * Num.sqrt c.
Proof. by rewrite mxE lift0 /= ltn_ord bgetE. Qed.
Lemma row_neg i j : sigma_rows mu L c (neg i) j = mu j 0 - L j i * Num.sqrt c.
Proof.
rewrite mxE lift0 /=; have -> : (n + i < n)%N = false by rewrite ltnNge leq_addr.
by rewrite subSS addKn bgetE.
Qed.
Lemma wt_0 w0 : sigma_weights n w0 c ord0 0 = w0. Proof. by rewrite mxE. Qed.
Lemma wt_pos w0 i : sigma_weights n w0 c (pos i) 0 = 2%:R^-1 / c. Proof. by rewrite mxE lift0. Qed.
Lemma wt_neg w0 i : sigma_weights n w0 c (neg i) 0 = 2%:R^-1 / c. Proof. by rewrite mxE lift0. Qed.

Hypothesis c0 : 0 < c.
Lemma half2 : 2%:R^-1 / c + 2%:R^-1 / c = c^-1 :> R.
Proof. by field; rewrite (gt_eqF c0). Qed.
Lemma wt_sum : \sum_i sigma_weights n (1 - n%:R / c) c i 0 = 1.
Proof.
rewrite sum_pts wt_0 (eq_bigr (fun=> c^-1)); last by move=> i _; rewrite wt_pos wt_neg half2.
by rewrite sumr_const card_ord -[c^-1 *+ n]mulr_natl subrK.
Qed.
Lemma pts_mean : wmean (sigma_rows mu L c) (sigma_weights n (1 - n%:R / c) c) = mu.
Proof.
apply/matrixP=> j q; rewrite (ord1 q) mxE.
rewrite (eq_bigr (fun i => sigma_rows mu L c i j * sigma_weights n (1 - n%:R / c) c i 0)); last by move=> i _; rewrite mxE.
rewrite sum_pts row_0 wt_0 (eq_bigr (fun=> mu j 0 * c^-1)); last first.
  move=> i _; rewrite row_pos row_neg wt_pos wt_neg; move: half2; set h := _ / c => <-; ring.
by rewrite -mulr_sumr sumr_const card_ord -[c^-1 *+ n]mulr_natl -mulrDr subrK mulr1.
Qed.
Lemma pts_cov w0 : wcross (sigma_weights n w0 c) (cen (sigma_rows mu L c) mu) (cen (sigma_rows mu L c) mu) = L *m L^T.
Proof.
have cenE i j : cen (sigma_rows mu L c) mu i j = sigma_rows mu L c i j - mu j 0.
  by rewrite !mxE big_ord1 !mxE mul1r.
apply/matrixP=> a b; rewrite wcrossE sum_pts !cenE !row_0 !subrr !mulr0 add0r mxE.
apply: eq_bigr => i _; rewrite !cenE !row_pos !row_neg wt_pos wt_neg mxE.
have E : Num.sqrt c * Num.sqrt c = c by rewrite -expr2 sqr_sqrtr // ltW.
have E1 : (Num.sqrt c * Num.sqrt c) * c^-1 = 1 by rewrite E mulfV // gt_eqF.
rewrite -[RHS]mulr1 -[X in _ = _ * X]E1; move: (Num.sqrt c) half2 => r; set h := _ / c => <-.
move: (mu a 0) (mu b 0) (L a i) (L b i) h => x y z u h; ring.
Qed.
Lemma pts_sigma w0 : is_sigma (sigma_rows mu L c) (sigma_weights n (1 - n%:R / c) c) (sigma_weights n w0 c) mu (L *m L^T).
Proof. by split; rewrite ?wt_sum ?pts_mean ?pts_cov. Qed.
End Points.
End Facts.
