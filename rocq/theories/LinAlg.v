(** Linear algebra over a real closed field: positive (semi)definite matrices,
    the Moore-Penrose pseudo-inverse, Cholesky factorisation. *)
From mathcomp Require Import all_ssreflect all_algebra.
From mathcomp Require Import ring.
From Verif Require Import Prelude Zmod.
Import GRing.Theory Num.Theory Order.Theory.

Set Implicit Arguments.
Unset Strict Implicit.
Unset Printing Implicit Defensive.
Local Open Scope ring_scope.

Section Defs.
Variable R : rcfType.

(** value of a 1x1 matrix *)
Definition sc (M : 'M[R]_1) : R := M 0 0.

(** [bf u A v] = u^T A v *)
Definition bf m n (u : 'cV[R]_m) (A : 'M[R]_(m, n)) (v : 'cV[R]_n) : R :=
  sc (u^T *m A *m v).
Definition qf n (A : 'M[R]_n) (v : 'cV[R]_n) : R := bf v A v.

Definition psd n (A : 'M[R]_n) : Prop := A^T = A /\ forall v, 0 <= qf A v.
Definition pd n (A : 'M[R]_n) : Prop := A^T = A /\ forall v, v != 0 -> 0 < qf A v.

(** Loewner order *)
Definition lep n (A B : 'M[R]_n) : Prop := psd (B - A).

(** Moore-Penrose pseudo-inverse through a full-rank factorisation. *)
Definition pinv m n (M : 'M[R]_(m, n)) : 'M[R]_(n, m) :=
  let B := col_base M in let F := row_base M in
  F^T *m invmx (F *m F^T) *m invmx (B^T *m B) *m B^T.

(** Cholesky factor [L] (lower triangular, [A = L L^T]); only the lower
    triangle of [A] is read; [None] when a pivot is not positive. *)
Fixpoint chol n : 'M[R]_n -> option 'M[R]_n :=
  match n return 'M[R]_n -> option 'M[R]_n with
  | 0 => fun _ => Some 0
  | n'.+1 => fun A : 'M[R]_(1 + n') =>
      let a := ulsubmx A 0 0 in
      if a <= 0 then None else
      let l := Num.sqrt a in
      let v := l^-1 *: dlsubmx A in
      if chol (drsubmx A - v *m v^T) is Some L
      then Some (block_mx l%:M 0 v L : 'M[R]_(1 + n'))
      else None
  end.

Definition lower_tri n (L : 'M[R]_n) : Prop := forall i j : 'I_n, (i < j)%N -> L i j = 0.
Definition upper_tri n (L : 'M[R]_n) : Prop := forall i j : 'I_n, (j < i)%N -> L i j = 0.
End Defs.

Section Theory.
Variable R : rcfType.
Implicit Types (m n p : nat).

Lemma scD (A B : 'M[R]_1) : sc (A + B) = sc A + sc B.
Proof. by rewrite /sc mxE. Qed.
Lemma scN (A : 'M[R]_1) : sc (- A) = - sc A.
Proof. by rewrite /sc mxE. Qed.
Lemma scZ c (A : 'M[R]_1) : sc (c *: A) = c * sc A.
Proof. by rewrite /sc mxE. Qed.
Lemma sc0 : sc (0 : 'M[R]_1) = 0.
Proof. by rewrite /sc mxE. Qed.
Lemma sc_tr (A : 'M[R]_1) : sc A^T = sc A.
Proof. by rewrite /sc mxE. Qed.
Lemma scM (A B : 'M[R]_1) : sc (A *m B) = sc A * sc B.
Proof. by rewrite /sc mxE big_ord1. Qed.
Lemma scK (A : 'M[R]_1) : (sc A)%:M = A.
Proof. by rewrite [RHS]mx11_scalar. Qed.
Lemma sc_scalar (c : R) : sc c%:M = c.
Proof. by rewrite /sc mxE eqxx mulr1n. Qed.
Lemma sc_inj (A B : 'M[R]_1) : sc A = sc B -> A = B.
Proof. by move=> H; rewrite -(scK A) -(scK B) H. Qed.
Lemma mulmx_sc m (A : 'M[R]_(m, 1)) (B : 'M[R]_1) : A *m B = sc B *: A.
Proof. by rewrite -{1}(scK B) mul_mx_scalar. Qed.
Lemma sc_mulmx m (A : 'M[R]_(1, m)) (B : 'M[R]_1) : B *m A = sc B *: A.
Proof. by rewrite -{1}(scK B) mul_scalar_mx. Qed.

Lemma bfDl m n u v (A : 'M[R]_(m, n)) w : bf (u + v) A w = bf u A w + bf v A w.
Proof. by rewrite /bf linearD /= !mulmxDl scD. Qed.
Lemma bfDr m n u (A : 'M[R]_(m, n)) v w : bf u A (v + w) = bf u A v + bf u A w.
Proof. by rewrite /bf mulmxDr scD. Qed.
Lemma bfNl m n u (A : 'M[R]_(m, n)) w : bf (- u) A w = - bf u A w.
Proof. by rewrite /bf linearN /= !mulNmx scN. Qed.
Lemma bfNr m n u (A : 'M[R]_(m, n)) w : bf u A (- w) = - bf u A w.
Proof. by rewrite /bf mulmxN scN. Qed.
Lemma bfZl m n c u (A : 'M[R]_(m, n)) w : bf (c *: u) A w = c * bf u A w.
Proof. by rewrite /bf linearZ /= -!scalemxAl scZ. Qed.
Lemma bfZr m n c u (A : 'M[R]_(m, n)) w : bf u A (c *: w) = c * bf u A w.
Proof. by rewrite /bf -!scalemxAr scZ. Qed.
Lemma bfDm m n u (A B : 'M[R]_(m, n)) w : bf u (A + B) w = bf u A w + bf u B w.
Proof. by rewrite /bf mulmxDr mulmxDl scD. Qed.
Lemma bfNm m n u (A : 'M[R]_(m, n)) w : bf u (- A) w = - bf u A w.
Proof. by rewrite /bf mulmxN mulNmx scN. Qed.
Lemma bfZm m n c u (A : 'M[R]_(m, n)) w : bf u (c *: A) w = c * bf u A w.
Proof. by rewrite /bf -scalemxAr -scalemxAl scZ. Qed.
Lemma bf0m m n u w : bf u (0 : 'M[R]_(m, n)) w = 0.
Proof. by rewrite /bf mulmx0 mul0mx sc0. Qed.
Lemma bf_tr m n u (A : 'M[R]_(m, n)) w : bf u A w = bf w A^T u.
Proof. by rewrite /bf -sc_tr !trmx_mul trmxK mulmxA. Qed.
Lemma bf_mul m n p q u (B : 'M[R]_(m, p)) (A : 'M[R]_(p, q)) (C : 'M[R]_(q, n)) w :
  bf u (B *m A *m C) w = bf (B^T *m u) A (C *m w).
Proof. by rewrite /bf trmx_mul trmxK !mulmxA. Qed.
Lemma bf_mull m n p u (B : 'M[R]_(m, p)) (A : 'M[R]_(p, n)) w :
  bf u (B *m A) w = bf (B^T *m u) A w.
Proof. by rewrite /bf trmx_mul trmxK !mulmxA. Qed.
Lemma bf_mulr m n p u (B : 'M[R]_(m, p)) (A : 'M[R]_(p, n)) w :
  bf u (B *m A) w = bf u B (A *m w).
Proof. by rewrite /bf !mulmxA. Qed.

Lemma qfD n (A B : 'M[R]_n) v : qf (A + B) v = qf A v + qf B v.
Proof. exact: bfDm. Qed.
Lemma qfN n (A : 'M[R]_n) v : qf (- A) v = - qf A v.
Proof. exact: bfNm. Qed.
Lemma qfZ n c (A : 'M[R]_n) v : qf (c *: A) v = c * qf A v.
Proof. exact: bfZm. Qed.
Lemma qf0m n v : qf (0 : 'M[R]_n) v = 0.
Proof. exact: bf0m. Qed.
Lemma qf_congr n p (B : 'M[R]_(p, n)) (A : 'M[R]_n) v :
  qf (B *m A *m B^T) v = qf A (B^T *m v).
Proof. by rewrite /qf bf_mul. Qed.
Lemma qf0 n (A : 'M[R]_n) : qf A 0 = 0.
Proof. by rewrite /qf /bf mulmx0 sc0. Qed.

(** squared norm *)
Lemma sqn_sum n (v : 'cV[R]_n) : qf 1%:M v = \sum_i v i 0 ^+ 2.
Proof.
rewrite /qf /bf /sc mulmx1 mxE; apply: eq_bigr => i _.
by rewrite mxE expr2.
Qed.
Lemma sqn_ge0 n (v : 'cV[R]_n) : 0 <= qf 1%:M v.
Proof. by rewrite sqn_sum; apply: sumr_ge0 => i _; exact: sqr_ge0. Qed.
Lemma sqn_eq0 n (v : 'cV[R]_n) : qf 1%:M v = 0 -> v = 0.
Proof.
rewrite sqn_sum => /eqP; rewrite psumr_eq0; last by move=> i _; exact: sqr_ge0.
move=> /allP H; apply/matrixP=> i j; rewrite ord1 mxE.
by have := H i (mem_index_enum _); rewrite sqrf_eq0 => /eqP.
Qed.
Lemma sqn_gt0 n (v : 'cV[R]_n) : v != 0 -> 0 < qf 1%:M v.
Proof.
move=> H; rewrite lt0r sqn_ge0 andbT; apply: contraNN H => /eqP H.
by rewrite (sqn_eq0 H).
Qed.

Lemma psd_sym n (A : 'M[R]_n) : psd A -> A^T = A. Proof. by case. Qed.
Lemma psd_ge0 n (A : 'M[R]_n) v : psd A -> 0 <= qf A v. Proof. by case. Qed.
Lemma pd_sym n (A : 'M[R]_n) : pd A -> A^T = A. Proof. by case. Qed.
Lemma pd_psd n (A : 'M[R]_n) : pd A -> psd A.
Proof.
case=> S H; split=> // v; have [->|Nv] := eqVneq v 0; first by rewrite qf0.
exact/ltW/H.
Qed.
Lemma psd0 n : psd (0 : 'M[R]_n).
Proof. by split; [rewrite trmx0|move=> v; rewrite qf0m]. Qed.
Lemma psdD n (A B : 'M[R]_n) : psd A -> psd B -> psd (A + B).
Proof.
case=> SA HA [SB HB]; split; first by rewrite linearD /= SA SB.
by move=> v; rewrite qfD addr_ge0.
Qed.
Lemma psdZ n c (A : 'M[R]_n) : 0 <= c -> psd A -> psd (c *: A).
Proof.
move=> Hc [SA HA]; split; first by rewrite linearZ /= SA.
by move=> v; rewrite qfZ mulr_ge0.
Qed.
Lemma psd_congr n p (B : 'M[R]_(p, n)) (A : 'M[R]_n) :
  psd A -> psd (B *m A *m B^T).
Proof.
case=> SA HA; split; first by rewrite !trmx_mul trmxK SA mulmxA.
by move=> v; rewrite qf_congr.
Qed.
Lemma psd_congrT n p (B : 'M[R]_(n, p)) (A : 'M[R]_n) :
  psd A -> psd (B^T *m A *m B).
Proof. by move=> H; have := psd_congr B^T H; rewrite trmxK. Qed.
Lemma psd1 n : psd (1%:M : 'M[R]_n).
Proof. by split; [rewrite trmx1|move=> v; exact: sqn_ge0]. Qed.
Lemma pd1 n : pd (1%:M : 'M[R]_n).
Proof. by split; [rewrite trmx1|move=> v; exact: sqn_gt0]. Qed.
Lemma psd_gram n p (B : 'M[R]_(n, p)) : psd (B *m B^T).
Proof. by have := psd_congr B (psd1 p); rewrite mulmx1. Qed.
Lemma psd_gramT n p (B : 'M[R]_(n, p)) : psd (B^T *m B).
Proof. by have := psd_gram B^T; rewrite trmxK. Qed.
Lemma psd_sum n (I : Type) (r : seq I) (P : pred I) (F : I -> 'M[R]_n) :
  (forall i, P i -> psd (F i)) -> psd (\sum_(i <- r | P i) F i).
Proof.
move=> H; elim/big_rec: _ => [|i A Pi HA]; first exact: psd0.
by apply: psdD => //; apply: H.
Qed.
Lemma pdD n (A B : 'M[R]_n) : psd A -> pd B -> pd (A + B).
Proof.
case=> SA HA [SB HB]; split; first by rewrite linearD /= SA SB.
by move=> v Nv; rewrite qfD ltr_paddl // HB.
Qed.
Lemma pdDr n (A B : 'M[R]_n) : pd A -> psd B -> pd (A + B).
Proof. by move=> *; rewrite addrC; apply: pdD. Qed.
Lemma pdZ n c (A : 'M[R]_n) : 0 < c -> pd A -> pd (c *: A).
Proof.
move=> Hc [SA HA]; split; first by rewrite linearZ /= SA.
by move=> v Nv; rewrite qfZ mulr_gt0 // HA.
Qed.

(** a PSD form vanishing at [v] has [v] in its kernel *)
Lemma psd_qf0 n (A : 'M[R]_n) (v : 'cV_n) : psd A -> qf A v = 0 -> A *m v = 0.
Proof.
case=> SA HA H0; set w := A *m v.
have HN : bf w A v = qf 1%:M w by rewrite /qf /bf mulmx1 -mulmxA.
have HN' : bf v A w = qf 1%:M w by rewrite bf_tr SA.
set N := qf 1%:M w in HN HN'; set q := qf A w.
have q0 : 0 <= q by exact: HA.
have q1 : 0 < q + 1 by rewrite ltr_paddl // ltr01.
have N0 : 0 <= N by exact: sqn_ge0.
apply: sqn_eq0; rewrite -/N; apply/eqP; rewrite eq_le N0 andbT leNgt.
apply/negP=> Npos.
have := HA (v + (- N / (q + 1)) *: w).
rewrite /qf bfDl !bfDr !bfZl !bfZr -/(qf A v) H0 HN HN' -/(qf A w) -/q.
rewrite leNgt => /negP; apply.
have -> : 0 + - N / (q + 1) * N + (- N / (q + 1) * N + - N / (q + 1) * (- N / (q + 1) * q))
   = - (N ^+ 2 * (q + 1 + 1) / (q + 1) ^+ 2).
  by field; rewrite lt0r_neq0.
rewrite oppr_lt0 divr_gt0 ?exprn_gt0 // mulr_gt0 ?exprn_gt0 //.
by rewrite ltr_paddl ?ltr01 // ltW.
Qed.

Lemma psd_qf_gt0 n (A : 'M[R]_n) (v : 'cV_n) : psd A -> A *m v != 0 -> 0 < qf A v.
Proof.
move=> HA Nv; rewrite lt0r psd_ge0 // andbT; apply: contraNN Nv => /eqP H.
by rewrite psd_qf0.
Qed.

(** kernel of a sum of PSD matrices *)
Lemma psd_kerD n (A B : 'M[R]_n) (v : 'cV_n) :
  psd A -> psd B -> (A + B) *m v = 0 -> A *m v = 0 /\ B *m v = 0.
Proof.
move=> HA HB H.
have : qf A v + qf B v = 0 by rewrite -qfD /qf /bf -mulmxA H mulmx0 sc0.
move/eqP; rewrite paddr_eq0 ?psd_ge0 // => /andP[/eqP a0 /eqP b0].
by split; apply: psd_qf0.
Qed.

Lemma psd_ker_congr n p (P : 'M[R]_n) (C : 'M[R]_(p, n)) (v : 'cV_p) :
  psd P -> C *m P *m C^T *m v = 0 -> P *m C^T *m v = 0.
Proof.
move=> HP H; rewrite -mulmxA; apply: psd_qf0 => //.
by rewrite -qf_congr /qf /bf -mulmxA H mulmx0 sc0.
Qed.

Lemma mulmx_cols0 m n (A : 'M[R]_(m, n)) :
  (forall v : 'cV_n, A *m v = 0) -> A = 0.
Proof.
move=> H; apply/matrixP=> i j.
have /matrixP/(_ i 0) := H (delta_mx j 0).
rewrite !mxE (bigD1 j) //= mxE !eqxx mulr1 big1 ?addr0 // => k Hk.
by rewrite mxE (negbTE Hk) mulr0.
Qed.

(** "ker S <= ker M" in matrix form *)
Lemma ker_mul m n p (S : 'M[R]_(n, p)) (M : 'M[R]_(m, p)) q (X : 'M[R]_(p, q)) :
  (forall v : 'cV_p, S *m v = 0 -> M *m v = 0) -> S *m X = 0 -> M *m X = 0.
Proof.
move=> H HX; apply: mulmx_cols0 => v; rewrite -mulmxA; apply: H.
by rewrite mulmxA HX mul0mx.
Qed.

(** ** Pseudo-inverse *)
Lemma gram_eq0 n p (B : 'M[R]_(n, p)) (v : 'cV_n) : B *m B^T *m v = 0 -> B^T *m v = 0.
Proof.
move=> H; apply: sqn_eq0; rewrite -qf_congr mulmx1.
by rewrite /qf /bf -mulmxA H mulmx0 sc0.
Qed.

Lemma row_free_gram n p (F : 'M[R]_(n, p)) : row_free F -> F *m F^T \in unitmx.
Proof.
move=> HF; rewrite -row_free_unit -kermx_eq0.
set K := kermx _; have HK : K *m (F *m F^T) = 0 by apply: mulmx_ker.
have H2 : F *m F^T *m K^T = 0.
  by have := congr1 trmx HK; rewrite !trmx_mul trmxK trmx0.
have H3 : F^T *m K^T = 0.
  apply: mulmx_cols0 => v; rewrite -mulmxA; apply: gram_eq0.
  by rewrite mulmxA H2 mul0mx.
have H4 : K *m F = 0 by have := congr1 trmx H3; rewrite trmx_mul !trmxK trmx0.
by apply/eqP; apply: (row_free_inj HF); rewrite H4 mul0mx.
Qed.

Lemma col_base_gram m n (M : 'M[R]_(m, n)) : (col_base M)^T *m col_base M \in unitmx.
Proof.
have := @row_free_gram _ _ (col_base M)^T; rewrite trmxK; apply.
by rewrite /row_free mxrank_tr; exact: col_base_full.
Qed.
Lemma row_base_gram m n (M : 'M[R]_(m, n)) : row_base M *m (row_base M)^T \in unitmx.
Proof. exact/row_free_gram/row_base_free. Qed.

Lemma invmx_sym n (A : 'M[R]_n) : A^T = A -> (invmx A)^T = invmx A.
Proof. by move=> H; rewrite trmx_inv H. Qed.

Section FullRank.
Variables (m n r : nat) (B : 'M[R]_(m, r)) (F : 'M[R]_(r, n)).
Hypotheses (UF : F *m F^T \in unitmx) (UB : B^T *m B \in unitmx).
Let G := invmx (F *m F^T).
Let H := invmx (B^T *m B).
Let M := B *m F.
Let X := F^T *m G *m H *m B^T.
Let GE : F *m F^T *m G = 1%:M. Proof. exact/mulmxV. Qed.
Let EH : H *m (B^T *m B) = 1%:M. Proof. exact/mulVmx. Qed.
Let Gs : G^T = G. Proof. by apply: invmx_sym; rewrite trmx_mul trmxK. Qed.
Let Hs : H^T = H. Proof. by apply: invmx_sym; rewrite trmx_mul trmxK. Qed.

Let Mp : M *m X = B *m H *m B^T.
Proof.
rewrite /M /X !mulmxA.
have -> : B *m F *m F^T *m G = B *m (F *m F^T *m G) by rewrite !mulmxA.
by rewrite GE mulmx1.
Qed.
Let pM : X *m M = F^T *m G *m F.
Proof.
rewrite /M /X !mulmxA.
have -> : F^T *m G *m H *m B^T *m B = F^T *m G *m (H *m (B^T *m B)) by rewrite !mulmxA.
by rewrite EH mulmx1.
Qed.

Lemma fullrank_pinv : [/\ M *m X *m M = M, X *m M *m X = X,
  (M *m X)^T = M *m X & (X *m M)^T = X *m M].
Proof.
split.
- rewrite Mp /M mulmxA.
  have -> : B *m H *m B^T *m B = B *m (H *m (B^T *m B)) by rewrite !mulmxA.
  by rewrite EH mulmx1.
- rewrite pM /X !mulmxA.
  have -> : F^T *m G *m F *m F^T *m G = F^T *m G *m (F *m F^T *m G) by rewrite !mulmxA.
  by rewrite GE mulmx1.
- by rewrite Mp !trmx_mul trmxK Hs mulmxA.
- by rewrite pM !trmx_mul trmxK Gs mulmxA.
Qed.
End FullRank.

Section PinvFacts.
Variables (m n : nat) (M : 'M[R]_(m, n)).
Let facts := fullrank_pinv (row_base_gram M) (col_base_gram M).
Lemma pinv1 : M *m pinv M *m M = M.
Proof. by case: facts; rewrite mulmx_base. Qed.
Lemma pinv2 : pinv M *m M *m pinv M = pinv M.
Proof. by case: facts; rewrite mulmx_base. Qed.
Lemma pinv3 : (M *m pinv M)^T = M *m pinv M.
Proof. by case: facts; rewrite mulmx_base. Qed.
Lemma pinv4 : (pinv M *m M)^T = pinv M *m M.
Proof. by case: facts; rewrite mulmx_base. Qed.
End PinvFacts.

(** The four Penrose equations determine the pseudo-inverse. *)
Lemma pinv_uniq m n (M : 'M[R]_(m, n)) (X : 'M[R]_(n, m)) :
  M *m X *m M = M -> X *m M *m X = X ->
  (M *m X)^T = M *m X -> (X *m M)^T = X *m M -> X = pinv M.
Proof.
move=> X1 X2 X3 X4.
set Y := pinv M.
have Y1 : M *m Y *m M = M := pinv1 M.
have Y2 : Y *m M *m Y = Y := pinv2 M.
have Y3 : (M *m Y)^T = M *m Y := pinv3 M.
have Y4 : (Y *m M)^T = Y *m M := pinv4 M.
have a : M *m X = M *m Y.
  have -> : M *m X = (M *m X)^T by rewrite X3.
  have -> : M *m X = M *m Y *m (M *m X) by rewrite mulmxA Y1.
  by rewrite trmx_mul X3 Y3 mulmxA X1.
have b : X *m M = Y *m M.
  have -> : X *m M = (X *m M)^T by rewrite X4.
  have -> : X *m M = X *m M *m (Y *m M) by rewrite mulmxA -(mulmxA X) -(mulmxA X) Y1.
  by rewrite trmx_mul X4 Y4 -mulmxA (mulmxA M) X1.
by rewrite -X2 -mulmxA a mulmxA b Y2.
Qed.

Lemma pinv_tr m n (M : 'M[R]_(m, n)) : pinv M^T = (pinv M)^T.
Proof.
symmetry; apply: pinv_uniq; rewrite -?trmx_mul ?trmxK.
- by rewrite mulmxA pinv1.
- by rewrite mulmxA pinv2.
- by rewrite pinv4.
- by rewrite pinv3.
Qed.

Lemma pinv_sym n (M : 'M[R]_n) : M^T = M -> (pinv M)^T = pinv M.
Proof. by move=> H; rewrite -pinv_tr H. Qed.

Lemma pinv_unit n (M : 'M[R]_n) : M \in unitmx -> pinv M = invmx M.
Proof.
move=> H; symmetry; apply: pinv_uniq; rewrite ?(mulmxV H, mulVmx H) ?mul1mx ?mulmx1 ?trmx1 //.
Qed.

Lemma pinv_psd n (M : 'M[R]_n) : psd M -> psd (pinv M).
Proof.
move=> HM; rewrite -(pinv2 M); have Hs := pinv_sym (psd_sym HM).
by rewrite -{2}Hs; exact: psd_congr.
Qed.

Lemma pinv0 m n : pinv (0 : 'M[R]_(m, n)) = 0.
Proof. by rewrite -(pinv2 0) mulmx0 mul0mx. Qed.

(** If [ker S <= ker M] then [M S^+ S = M]. *)
Lemma pinv_ker m n p (S : 'M[R]_(n, p)) (M : 'M[R]_(m, p)) :
  (forall v : 'cV_p, S *m v = 0 -> M *m v = 0) -> M *m pinv S *m S = M.
Proof.
move=> H; apply/eqP; rewrite -subr_eq0 -opprB oppr_eq0; apply/eqP.
have -> : M - M *m pinv S *m S = M *m (1%:M - pinv S *m S) by mx.
by apply: (ker_mul H); rewrite mulmxBr mulmx1 mulmxA pinv1 subrr.
Qed.

(** ** Positive definite matrices and inverses *)
Lemma pd_unit n (A : 'M[R]_n) : pd A -> A \in unitmx.
Proof.
case=> SA HA; rewrite -row_free_unit -kermx_eq0.
apply/eqP; set K := kermx _; have HK : K *m A = 0 by apply: mulmx_ker.
have HK2 : A *m K^T = 0 by have := congr1 trmx HK; rewrite trmx_mul SA trmx0.
have : K^T = 0.
  apply: mulmx_cols0 => v; apply/eqP; apply/negPn/negP => /HA.
  by rewrite /qf /bf -mulmxA (mulmxA A) HK2 mul0mx mulmx0 sc0 ltxx.
by move/(congr1 trmx); rewrite trmxK trmx0.
Qed.

Lemma psd_unit_pd n (A : 'M[R]_n) : psd A -> A \in unitmx -> pd A.
Proof.
move=> HA UA; split; first exact: psd_sym.
move=> v Nv; apply: psd_qf_gt0 => //; apply: contraNN Nv => /eqP H.
by rewrite -(mul1mx v) -(mulVmx UA) -mulmxA H mulmx0.
Qed.

Lemma pd_inv n (A : 'M[R]_n) : pd A -> pd (invmx A).
Proof.
move=> HA; have UA := pd_unit HA; apply: psd_unit_pd; last by rewrite unitmx_inv.
by rewrite -pinv_unit //; apply/pinv_psd/pd_psd.
Qed.

Lemma pinv_pd n (A : 'M[R]_n) : pd A -> pinv A = invmx A.
Proof. by move=> HA; exact/pinv_unit/pd_unit. Qed.

Lemma pd_congr n p (B : 'M[R]_(p, n)) (A : 'M[R]_n) :
  pd A -> (forall v : 'cV_p, B^T *m v = 0 -> v = 0) -> pd (B *m A *m B^T).
Proof.
move=> HA HB; split; first exact: psd_sym (psd_congr B (pd_psd HA)).
move=> v Nv; rewrite qf_congr; case: HA => _; apply.
by apply: contraNN Nv => /eqP /HB ->.
Qed.

Lemma pd_congr_unit n (B : 'M[R]_n) (A : 'M[R]_n) :
  pd A -> B \in unitmx -> pd (B *m A *m B^T).
Proof.
move=> HA UB; apply: pd_congr => // v H.
have UB' : B^T \in unitmx by rewrite unitmx_tr.
by rewrite -(mul1mx v) -(mulVmx UB') -mulmxA H mulmx0.
Qed.

(** ** Loewner order *)
Lemma lep_refl n (A : 'M[R]_n) : lep A A.
Proof. by rewrite /lep subrr; exact: psd0. Qed.
Lemma lep_trans n (A B C : 'M[R]_n) : lep A B -> lep B C -> lep A C.
Proof.
rewrite /lep => H1 H2; have -> : C - A = (C - B) + (B - A) by zmod.
exact: psdD.
Qed.
Lemma lep_antisym n (A B : 'M[R]_n) : lep A B -> lep B A -> A = B.
Proof.
move=> [_ H1] HBA; have [_ H2] := HBA.
apply/eqP; rewrite -subr_eq0; apply/eqP; apply: mulmx_cols0 => v.
apply: psd_qf0 => //; apply/eqP; rewrite eq_le H2 andbT -oppr_ge0 -qfN opprB.
exact: H1.
Qed.
Lemma lep_congr n p (X : 'M[R]_(p, n)) (A B : 'M[R]_n) :
  lep A B -> lep (X *m A *m X^T) (X *m B *m X^T).
Proof. by rewrite /lep => /(psd_congr X); rewrite mulmxBr mulmxBl. Qed.
Lemma lepD n (A B C D : 'M[R]_n) : lep A B -> lep C D -> lep (A + C) (B + D).
Proof.
rewrite /lep => H1 H2; have -> : B + D - (A + C) = (B - A) + (D - C) by zmod.
exact: psdD.
Qed.

(** ** Block matrices *)
Lemma qf_block m n (A : 'M[R]_m) (B : 'M[R]_(m, n)) (C : 'M[R]_(n, m)) (D : 'M[R]_n) u v :
  qf (block_mx A B C D) (col_mx u v) = qf A u + bf u B v + bf v C u + qf D v.
Proof.
rewrite /qf /bf tr_col_mx mul_row_block mul_row_col !mulmxDl !scD.
by rewrite addrACA -!addrA; congr (_ + _); rewrite addrCA.
Qed.

Lemma pd_dsub m n (A : 'M[R]_(m + n)) : pd A -> pd (drsubmx A).
Proof.
case=> SA HA; split; first by rewrite trmx_drsub SA.
move=> v Nv; have : col_mx 0 v != 0 :> 'cV_(m + n).
  apply: contraNN Nv => /eqP; rewrite -[0 in RHS](col_mx0 _ m n 1) => /eq_col_mx[_ ->].
  by [].
move/HA; rewrite -{1}(submxK A) qf_block qf0 /bf trmx0 !mul0mx mulmx0 sc0.
by rewrite !add0r.
Qed.

(** ** Cholesky *)
Lemma lower_tri_block n (l : 'M[R]_1) (v : 'M[R]_(n, 1)) (L : 'M[R]_n) :
  lower_tri L -> lower_tri (block_mx l 0 v L : 'M_(1 + n)).
Proof.
move=> HL i j; rewrite -(splitK i) -(splitK j).
case: (split i) => i'; case: (split j) => j' /=.
- by rewrite !ord1.
- by move=> _; rewrite block_mxEur mxE.
- by rewrite (ord1 j').
- by rewrite !ltn_add2l block_mxEdr; exact: HL.
Qed.

Lemma chol_spec n (A L : 'M[R]_n) :
  A^T = A -> chol A = Some L ->
  [/\ A = L *m L^T, lower_tri L & forall i, 0 < L i i].
Proof.
elim: n A L => [|n IH] A L SA.
  by move=> [<-]; split; [apply/matrixP=> [] []|move=> []|move=> []].
rewrite /=; case: (lerP (ulsubmx (A : 'M_(1 + n)) 0 0) 0) => // Ha.
set a := ulsubmx _ 0 0 in Ha *; set l := Num.sqrt a.
set v := l^-1 *: _.
case E: (chol _) => [L'|] // [<-].
have l0 : 0 < l by rewrite sqrtr_gt0.
have l2 : l * l = a by rewrite -expr2 sqr_sqrtr // ltW.
have SA' : (A : 'M_(1 + n))^T = A by exact: SA.
have [|E1 E2 E3] := IH _ _ _ E.
  rewrite linearB /= trmx_mul trmxK; congr (_ - _).
  by rewrite trmx_drsub SA'.
have Eul : ulsubmx (A : 'M_(1 + n)) = a%:M by exact: mx11_scalar.
have Edl : dlsubmx (A : 'M_(1 + n)) = l *: v.
  by rewrite scalerA mulfV ?scale1r // lt0r_neq0.
have Eur : ursubmx (A : 'M_(1 + n)) = l *: v^T.
  by rewrite -[in LHS]SA' -trmx_dlsub Edl linearZ.
split.
- pose B : 'M[R]_(1 + n) := block_mx l%:M 0 v L'.
  have EB : (A : 'M_(1 + n)) = B *m B^T; last exact: EB.
  rewrite -[LHS](@submxK _ 1 n 1 n) tr_block_mx trmx0 mulmx_block !mulmx0 !mul0mx !addr0 tr_scalar_mx.
  rewrite !mul_scalar_mx mul_mx_scalar scale_scalar_mx l2 Eul Edl Eur.
  by rewrite -E1 addrCA subrr addr0.
- exact: lower_tri_block.
- move=> i; rewrite -(splitK (i : 'I_(1 + n))); case: (split _) => i' /=.
    by rewrite (@block_mxEul _ 1 n 1 n) ord1 mxE eqxx mulr1n.
  by rewrite (@block_mxEdr _ 1 n 1 n).
Qed.

Lemma chol_pd n (A : 'M[R]_n) : pd A -> exists L, chol A = Some L.
Proof.
elim: n A => [|n IH] A [SA HA]; first by exists 0.
have SA' : (A : 'M_(1 + n))^T = A by exact: SA.
have HA' : forall v : 'cV_(1 + n), v != 0 -> 0 < qf (A : 'M_(1 + n)) v by exact: HA.
have Ha : 0 < ulsubmx (A : 'M_(1 + n)) 0 0.
  have N1 : col_mx 1%:M 0 != 0 :> 'cV[R]_(1 + n).
    rewrite -[0 in X in _ != X](col_mx0 _ 1 n 1); apply/eqP => /eq_col_mx[/matrixP/(_ 0 0)].
    by rewrite !mxE eqxx => /eqP; rewrite oner_eq0.
  have := HA' _ N1; rewrite -(submxK (A : 'M_(1 + n))) qf_block.
  rewrite /qf /bf trmx0 !mulmx0 !mul0mx sc0 !addr0 trmx1 mul1mx mulmx1.
  by rewrite block_mxKul.
rewrite /= leNgt Ha /=.
set a := ulsubmx _ 0 0 in Ha *; set l := Num.sqrt a; set v := l^-1 *: _.
have l0 : 0 < l by rewrite sqrtr_gt0.
have l2 : l * l = a by rewrite -expr2 sqr_sqrtr // ltW.
have Eul : ulsubmx (A : 'M_(1 + n)) = a%:M by exact: mx11_scalar.
have Edl : dlsubmx (A : 'M_(1 + n)) = l *: v.
  by rewrite scalerA mulfV ?scale1r // lt0r_neq0.
have Eur : ursubmx (A : 'M_(1 + n)) = l *: v^T.
  by rewrite -[in LHS]SA' -trmx_dlsub Edl linearZ.
have Hpd : pd (drsubmx (A : 'M_(1 + n)) - v *m v^T).
  split.
    rewrite linearB /= trmx_mul trmxK; congr (_ - _).
    by rewrite trmx_drsub SA'.
  move=> w Nw; pose x : R := - (l^-1 * bf v 1%:M w).
  have N2 : col_mx x%:M w != 0 :> 'cV[R]_(1 + n).
    apply: contraNN Nw => /eqP.
    by rewrite -[0 in X in _ = X](col_mx0 _ 1 n 1) => /eq_col_mx[_ ->].
  have := HA' _ N2; rewrite -{1}(submxK (A : 'M_(1 + n))) qf_block Eul Edl Eur.
  rewrite qfD qfN; set D := qf (drsubmx _) w.
  have E1 : qf a%:M x%:M = a * x ^+ 2.
    by rewrite /qf /bf !scM sc_tr !sc_scalar expr2; ring.
  have E2 : bf x%:M (l *: v^T) w = x * l * bf v 1%:M w.
    rewrite bfZm {1}/bf tr_scalar_mx mul_scalar_mx -scalemxAl scZ /bf mulmx1.
    by rewrite mulrCA mulrA.
  have E3 : bf w (l *: v) x%:M = x * l * bf v 1%:M w.
    rewrite bfZm {1}/bf mul_mx_scalar scZ /bf mulmx1 -[in LHS]sc_tr trmx_mul trmxK.
    by rewrite mulrCA mulrA.
  have E4 : qf (v *m v^T) w = (bf v 1%:M w) ^+ 2.
    rewrite /qf /bf mulmx1 mulmxA -mulmxA scM expr2; congr (_ * _).
    by rewrite -sc_tr trmx_mul trmxK.
  rewrite E1 E2 E3 E4 -l2 /x; set b := bf _ _ _.
  suff -> : l * l * (- (l^-1 * b)) ^+ 2 + - (l^-1 * b) * l * b + - (l^-1 * b) * l * b + D
    = D - b ^+ 2 by [].
  by field; rewrite lt0r_neq0.
have [L ->] := IH _ Hpd.
by eexists.
Qed.

Lemma lower_tri_gt0_unit n (L : 'M[R]_n) :
  lower_tri L -> (forall i, 0 < L i i) -> L \in unitmx.
Proof.
move=> HL Hd; rewrite unitmxE unitfE det_trig; last first.
  by apply/is_trig_mxP => i j; exact: HL.
by apply: lt0r_neq0; apply: prodr_gt0.
Qed.

Lemma chol_some_pd n (A L : 'M[R]_n) : A^T = A -> chol A = Some L -> pd A.
Proof.
move=> SA /(chol_spec SA)[-> HL Hd].
have UL := lower_tri_gt0_unit HL Hd.
by have := pd_congr_unit (pd1 n) UL; rewrite mulmx1.
Qed.

Lemma chol_none n (A : 'M[R]_n) : A^T = A -> chol A = None -> ~ pd A.
Proof. by move=> SA E /chol_pd[L]; rewrite E. Qed.

(** every PSD matrix is a Gram matrix is proved later, through UDU^T *)
End Theory.
