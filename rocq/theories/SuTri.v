(** Triangular factors with the same product; sigma points from either. *)
From Coq Require Import String List.
From mathcomp Require Import all_ssreflect all_algebra.
From mathcomp Require Import ring.
From Verif Require Import Prelude Zmod LinAlg Numpy NumpyFacts Standard Sqrt SqrtFacts Unscented UscSpec UscFacts UscRefine SqrtUnscented CuFacts BiUdu.
Import GRing.Theory Num.Theory Order.Theory.

Set Implicit Arguments.
Unset Strict Implicit.
Unset Printing Implicit Defensive.
Local Open Scope ring_scope.

Section Tri.
Variables (R : rcfType) (n : nat).
Implicit Types (U V : 'M[R]_n).

(** upper triangular and regular *)
Definition regular U := upper U /\ forall i, U i i != 0.
Lemma regular_unit U : regular U -> U \in unitmx.
Proof. by case=> H H0; apply: upper_unit. Qed.
Lemma regular_pd U : regular U -> pd (U^T *m U).
Proof. by case=> H H0; apply: upper_pd. Qed.
Lemma upper_regular U : upper U -> pd (U^T *m U) -> regular U.
Proof.
move=> HU /pd_unit; rewrite unitmx_mul unitmx_tr andbb unitmxE unitfE upper_det // => /prodf_neq0 H.
by split=> // i; apply: H.
Qed.
Lemma is_chol_regular P U : is_chol P U -> regular U.
Proof. by case=> H H0 _; split=> // i; rewrite gt_eqF. Qed.

Lemma gramE U (i j : 'I_n) : upper U -> (U^T *m U) i j = \sum_(l < n | (l < i)%N) U l i * U l j + U i i * U i j.
Proof.
move=> HU; rewrite mxE (bigID (fun l : 'I_n => (l < i)%N)) /=; congr (_ + _).
  by apply: eq_bigr => l _; rewrite mxE.
rewrite (bigD1 i) ?ltnn //= big1 ?addr0 ?mxE // => l /andP[H1 H2].
by rewrite mxE HU ?mul0r // ltn_neqAle leqNgt H1 andbT eq_sym.
Qed.

Lemma upper_sign U V : regular U -> regular V -> U^T *m U = V^T *m V ->
  forall i, (U i i = V i i /\ forall j, U i j = V i j) \/ (U i i = - V i i /\ forall j, U i j = - V i j).
Proof.
move=> [HU U0] [HV V0] E i; have [d] := ubnP (i : nat); elim: d i => // d IH i Hi.
have S (j : 'I_n) : U i i * U i j = V i i * V i j.
  have := congr1 (fun M : 'M_n => M i j) E; rewrite /= !gramE //.
  have -> : \sum_(l < n | (l < i)%N) U l i * U l j = \sum_(l < n | (l < i)%N) V l i * V l j.
    apply: eq_bigr => l li; have [//|[_ H]|[_ H]] := IH l _; first exact: leq_trans li _.
    - by rewrite !H.
    - by rewrite !H mulrNN.
  by move/addrI.
have := S i; rewrite -!expr2 => /eqP; rewrite eqf_sqr => /orP[]/eqP e; [left|right]; split=> // j.
- by apply: (mulfI (U0 i)); rewrite S e.
- by apply: (mulfI (U0 i)); rewrite S e mulrNN.
Qed.
Lemma upper_uniq U V P : is_chol P U -> is_chol P V -> U = V.
Proof.
move=> HU HV; case: (HU) (HV) => [_ U0 EU] [_ V0 EV].
have E : U^T *m U = V^T *m V by rewrite EU.
apply/matrixP=> i j; have [[_ H]|[H _]] := upper_sign (is_chol_regular HU) (is_chol_regular HV) E i; first exact: H.
by have := U0 i; rewrite H oppr_gt0 ltNge ltW.
Qed.

(** ** sums over sigma points do not depend on the signs of the factor *)
Definition sym_w (w : 'cV[R]_((n + n).+1)) := forall i, w (pos i) 0 = w (neg i) 0.
Lemma row_ext k p (A B : 'M[R]_(k, p)) (i : 'I_k) (i' : 'I_k) : (forall j, A i j = B i' j) -> row i A = row i' B.
Proof. by move=> H; apply/matrixP=> a b; rewrite !mxE H. Qed.
Lemma sum_sign (W : zmodType) U V (mu : 'cV[R]_n) c (G : 'I_((n + n).+1) -> 'rV[R]_n -> W) :
  regular U -> regular V -> U^T *m U = V^T *m V -> (forall i x, G (pos i) x = G (neg i) x) ->
  \sum_k G k (row k (sigma_rows mu U^T c)) = \sum_k G k (row k (sigma_rows mu V^T c)).
Proof.
move=> HU HV E HG; rewrite !sum_pts; congr (_ + _).
  by congr (G _ _); apply: row_ext => j; rewrite !row_0.
apply: eq_bigr => i _; have [[_ H]|[_ H]] := upper_sign HU HV E i.
  have -> : row (pos i) (sigma_rows mu U^T c) = row (pos i) (sigma_rows mu V^T c).
    by apply: row_ext => j; rewrite !row_pos !mxE H.
  by have -> : row (neg i) (sigma_rows mu U^T c) = row (neg i) (sigma_rows mu V^T c)
    by apply: row_ext => j; rewrite !row_neg !mxE H.
have -> : row (pos i) (sigma_rows mu U^T c) = row (neg i) (sigma_rows mu V^T c).
  by apply: row_ext => j; rewrite row_pos row_neg !mxE H mulNr.
have -> : row (neg i) (sigma_rows mu U^T c) = row (pos i) (sigma_rows mu V^T c).
  by apply: row_ext => j; rewrite row_pos row_neg !mxE H mulNr opprK.
by rewrite addrC; congr (_ + _); rewrite HG.
Qed.
End Tri.

Section Sums.
Variables (R : rcfType) (n : nat) (U V : 'M[R]_n) (mu : 'cV[R]_n).
Hypotheses (HU : regular U) (HV : regular V) (E : U^T *m U = V^T *m V).
Notation PU := (sigma_rows mu U^T 3%:R).
Notation PV := (sigma_rows mu V^T 3%:R).
Variable w : 'cV[R]_((n + n).+1).
Hypothesis Hw : sym_w w.
Lemma sgn_mean p (f : 'cV[R]_n -> 'cV[R]_p) : wmean (fmap f PU) w = wmean (fmap f PV) w.
Proof.
apply/matrixP=> a b; rewrite (ord1 b) !mxE.
pose G k (x : 'rV[R]_n) := f x^T a 0 * w k 0.
rewrite (eq_bigr (fun k => G k (row k PU))); last by move=> k _; rewrite !mxE.
rewrite [in RHS](eq_bigr (fun k => G k (row k PV))); last by move=> k _; rewrite !mxE.
by apply: sum_sign => // i x; rewrite /G Hw.
Qed.
Lemma cenE k p (P : 'M[R]_(k, p)) (m : 'cV[R]_p) i j : cen P m i j = P i j - m j 0.
Proof. by rewrite !mxE big_ord1 !mxE mul1r. Qed.
Lemma sgn_cross p q (f : 'cV[R]_n -> 'cV[R]_p) (g : 'cV[R]_n -> 'cV[R]_q) mf mg :
  wcross w (cen (fmap f PU) mf) (cen (fmap g PU) mg) = wcross w (cen (fmap f PV) mf) (cen (fmap g PV) mg).
Proof.
apply/matrixP=> a b; rewrite !wcrossE.
pose G k (x : 'rV[R]_n) := w k 0 * ((f x^T a 0 - mf a 0) * (g x^T b 0 - mg b 0)).
rewrite (eq_bigr (fun k => G k (row k PU))); last by move=> k _; rewrite !cenE !mxE.
rewrite [in RHS](eq_bigr (fun k => G k (row k PV))); last by move=> k _; rewrite !cenE !mxE.
by apply: sum_sign => // i x; rewrite /G Hw.
Qed.
Lemma fmap_id k (P : 'M[R]_(k, n)) : fmap id P = P.
Proof. by apply/matrixP=> i j; rewrite !mxE. Qed.
End Sums.

Section Chol.
Variables (R : rcfType) (n : nat).
Lemma chol_is_chol (P L : 'M[R]_n) : P^T = P -> chol P = Some L -> is_chol P L^T.
Proof.
move=> HP E; have [EP HL Hd] := chol_spec HP E; split.
- by move=> i j ij; rewrite mxE; apply: HL.
- by move=> i; rewrite mxE.
- by rewrite trmxK -EP.
Qed.
Lemma diag_chol (P F : 'M[R]_n) : is_diag_mx P -> is_chol P F -> F *m F^T = P.
Proof.
move=> dP HF; pose D : 'M[R]_n := diag_mx (\row_i Num.sqrt (P i i)).
have pP : forall i, 0 < P i i.
  move=> i; have [_ H] := is_chol_pd HF; rewrite -(qf_e P i); apply: H.
  by apply/eqP=> /matrixP/(_ i 0)/eqP; rewrite !mxE !eqxx oner_eq0.
have DD : D *m D = P.
  rewrite /D mulmx_diag; apply/matrixP=> i j; rewrite !mxE; case: eqVneq => [->|ij].
    by rewrite mulr1n -expr2 sqr_sqrtr // ltW.
  by rewrite mulr0n; move/is_diag_mxP: dP => ->.
have HD : is_chol P D.
  split; last by rewrite tr_diag_mx.
  - by move=> i j ij; rewrite !mxE -(inj_eq val_inj) (gtn_eqF ij) mulr0n.
  - by move=> i; rewrite !mxE eqxx mulr1n sqrtr_gt0.
by rewrite (upper_uniq HF HD) tr_diag_mx.
Qed.
End Chol.
