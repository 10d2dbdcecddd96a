(** Processing the components of a decorrelated observation one by one gives the joint update. *)
From mathcomp Require Import all_ssreflect all_algebra.
From mathcomp Require Import ring.
From Verif Require Import Prelude Zmod LinAlg Numpy BiUdu BiSingle.
Import GRing.Theory Num.Theory Order.Theory.

Set Implicit Arguments.
Unset Strict Implicit.
Unset Printing Implicit Defensive.
Local Open Scope ring_scope.

Section Rank1.
Variables (R : rcfType) (n : nat).
Implicit Types (P : 'M[R]_n) (h : 'cV[R]_n).

(** the update is a congruence plus a Gram matrix *)
Lemma rank1_psd P h (r : R) : psd P -> 0 < r -> psd (rank1_cov P h r).
Proof.
move=> PP r0; have q0 : 0 < qf P h + r by apply: ltr_paddl => //; exact: psd_ge0.
set s := qf P h + r in q0.
have nz : s != 0 by rewrite gt_eqF.
pose K := s^-1 *: (P *m h).
pose B := 1%:M - K *m h^T.
have E1 : h^T *m (P *m h) = (s - r)%:M.
  by rewrite mulmxA /s addrK; rewrite -[LHS]scK.
have E2 : B *m P *m B^T = P - (s^-1 + s^-1 * (s^-1 * r)) *: (P *m h *m (P *m h)^T).
  rewrite /B linearB /= trmx1 trmx_mul trmxK mulmxBl mul1mx mulmxBr mulmx1 mulmxBl.
  have -> : K *m h^T *m P = s^-1 *: (P *m h *m (P *m h)^T).
    by rewrite /K -!scalemxAl trmx_mul (psd_sym PP) mulmxA.
  have -> : P *m (h *m K^T) = s^-1 *: (P *m h *m (P *m h)^T).
    by rewrite /K linearZ /= -!scalemxAr mulmxA.
  have -> : s^-1 *: (P *m h *m (P *m h)^T) *m (h *m K^T) = (s^-1 * (s^-1 * (s - r))) *: (P *m h *m (P *m h)^T).
    rewrite /K linearZ /= -!scalemxAr -scalemxAl scalerA -[_ *m _ *m (h *m _)]mulmxA.
    rewrite [(P *m h)^T *m _]mulmxA {1}trmx_mul (psd_sym PP) -(mulmxA h^T) E1 mul_scalar_mx -scalemxAr scalerA.
    by congr (_ *: _); rewrite mulrA.
  move: (P *m h *m _) => G; apply/matrixP => a b; rewrite !mxE.
  by move: (P a b) (G a b) => u v; field.
suff -> : rank1_cov P h r = B *m P *m B^T + r *: (K *m K^T).
  by apply: psdD; [exact: psd_congr|apply: psdZ; [exact: ltW|exact: psd_gram]].
have EK : K^T = s^-1 *: (P *m h)^T by rewrite /K linearZ.
rewrite E2 /rank1_cov -/s EK /K -scalemxAr -scalemxAl !scalerA.
move: (P *m h *m _) => G; apply/matrixP => a b; rewrite !mxE.
by move: (P a b) (G a b) => u v; field.
Qed.
End Rank1.

Section Seq.
Variables (R : rcfType) (n m : nat).
Variables (P : 'M[R]_n) (x : 'cV[R]_n) (B : 'M[R]_(m, n)) (z d : 'cV[R]_m).
Hypothesis PP : psd P.

(** one scalar observation with unit noise *)
Definition seq1 (st : 'cV[R]_n * 'M[R]_n) (i : 'I_m) : 'cV[R]_n * 'M[R]_n :=
  let h := (row i B)^T in
  (st.1 + (z i 0 - (bf h 1%:M st.1 + d i 0)) *: rank1_gain st.2 h 1, rank1_cov st.2 h 1).

Definition seqG (j : nat) : 'M[R]_n := \sum_(l < m | (l < j)%N) (row l B)^T *m row l B.
Definition seqw (j : nat) : 'cV[R]_n :=
  \sum_(l < m | (l < j)%N) (z l 0 - (bf (row l B)^T 1%:M x + d l 0)) *: (row l B)^T.

Definition sinv (j : nat) (st : 'cV[R]_n * 'M[R]_n) : Prop :=
  [/\ psd st.2, st.2 *m (1%:M + seqG j *m P) = P & st.1 = x + st.2 *m seqw j].

Lemma sinv0 : sinv 0 (x, P).
Proof. by split=> //=; rewrite /seqG /seqw below_0 ?mul0mx ?mulmx0 ?addr0 ?mulmx1. Qed.

Lemma sinvS (i : 'I_m) st : sinv i st -> sinv i.+1 (seq1 st i).
Proof.
case: st => y X [/= pX EX Ey]; set h := (row i B)^T.
have q0 : 0 < qf X h + 1 by apply: ltr_paddl (psd_ge0 h pX) ltr01.
have nz : qf X h + 1 != 0 by rewrite gt_eqF.
have hB : row i B = h^T by rewrite trmxK.
have qE : h^T *m (X *m h) = (qf X h)%:M by rewrite mulmxA /qf /bf scK.
split=> /=.
- exact: (rank1_psd h pX ltr01).
- rewrite /seqG below_rec -/(seqG i) hB trmxK.
  rewrite mulmxDl addrA mulmxDr {1}/rank1_cov mulmxBl EX -scalemxAl.
  rewrite trmx_mul (psd_sym pX) -[X *m h *m _ *m _]mulmxA -[h^T *m X *m _]mulmxA EX.
  rewrite /rank1_cov mulmxBl -scalemxAl trmx_mul (psd_sym pX).
  have -> : X *m (h *m h^T *m P) = X *m h *m (h^T *m P) by rewrite !mulmxA.
  have -> : X *m h *m (h^T *m X) *m (h *m h^T *m P) = qf X h *: (X *m h *m (h^T *m P)).
    transitivity (X *m h *m (h^T *m (X *m h)) *m (h^T *m P)); first by rewrite !mulmxA.
    by rewrite qE mul_mx_scalar -scalemxAl.
  move: (X *m h *m (h^T *m P)) => G; apply/matrixP => a b; rewrite !mxE.
  by move: (qf X h) nz (P a b) (G a b) => q nz u v; field.
- rewrite /seqw below_rec -/(seqw i) -/h Ey.
  set e := z i 0 - _; set e' := z i 0 - _.
  have Ee : e = e' - bf h 1%:M (X *m seqw i).
    by rewrite /e /e' bfDr; ring.
  rewrite Ee -addrA; congr (_ + _).
  rewrite /rank1_cov mulmxDr !mulmxBl -!scalemxAr -!scalemxAl -addrA; congr (_ + _).
  rewrite trmx_mul (psd_sym pX) -[X *m h *m _ *m _]mulmxA.
  have -> : h^T *m X *m seqw i = (bf h 1%:M (X *m seqw i))%:M by rewrite /bf mulmx1 scK mulmxA.
  rewrite -[X *m h *m (h^T *m X) *m h]mulmxA -[h^T *m X *m h]mulmxA qE.
  rewrite !mul_mx_scalar /rank1_gain; move: (bf h _ _) (X *m h) => w G.
  apply/matrixP => a b; rewrite !mxE.
  by move: (qf X h) nz (G a b) => q nz v; field.
Qed.

(** joint update with unit noise *)
Lemma seq_joint st : sinv m st ->
  let V := B *m P *m B^T + 1%:M in
  st = (x + P *m B^T *m invmx V *m (z - (B *m x + d)), P - P *m B^T *m invmx V *m (B *m P)).
Proof.
case: st => y X [/= pX EX Ey]; set V := B *m P *m B^T + 1%:M.
have EG : seqG m = B^T *m B.
  rewrite /seqG below_n; apply/matrixP => a b; rewrite summxE mxE; apply: eq_bigr => l _.
  by rewrite mxE big_ord_recl big_ord0 addr0 !mxE.
have Ew : seqw m = B^T *m (z - (B *m x + d)).
  rewrite /seqw below_n; apply/matrixP => a b; rewrite summxE mxE (ord1 b); apply: eq_bigr => l _.
  rewrite !mxE mulrC; congr (_ * (_ - (_ + _))).
  by rewrite /bf mulmx1 trmxK /sc !mxE; apply: eq_bigr => c _; rewrite !mxE.
have uV : V \in unitmx.
  by apply: pd_unit; apply: pdD; [exact: psd_congr|exact: pd1].
have EB : X *m B^T = P *m B^T *m invmx V.
  apply: (canRL (mulmxK uV)).
  rewrite -[in RHS]EX EG /V mulmxDr mulmx1 mulmxDr mulmx1 mulmxDl addrC; congr (_ + _).
  by rewrite !mulmxA.
congr pair.
  by rewrite Ey Ew mulmxA EB.
have EP : P = X + X *m B^T *m (B *m P) by rewrite -{1}EX EG mulmxDr mulmx1 !mulmxA.
by rewrite -EB {1}EP addrK.
Qed.
End Seq.

(** decorrelation: [L] is a factor of the noise covariance *)
Section Deco.
Variables (R : rcfType) (n m : nat).
Variables (P : 'M[R]_n) (C : 'M[R]_(m, n)) (L : 'M[R]_m).
Hypothesis PP : psd P.
Hypothesis uL : L \in unitmx.

Lemma deco_gain : let B := invmx L *m C in
  P *m B^T *m invmx (B *m P *m B^T + 1%:M) *m invmx L =
  P *m (C^T *m pinv (C *m (P *m C^T) + L *m L^T)).
Proof.
move=> B; set V' := _ + 1%:M; set V := C *m _ + _.
have uLt : L^T \in unitmx by rewrite unitmx_tr.
have EV : V = L *m V' *m L^T.
  rewrite /V /V' mulmxDr mulmx1 mulmxDl; congr (_ + _).
  by rewrite /B trmx_mul !mulmxA mulmxV // mul1mx -!mulmxA -trmx_mul mulmxV // trmx1 mulmx1.
have uV' : V' \in unitmx.
  by apply: pd_unit; apply: pdD; [exact: psd_congr|exact: pd1].
have uV : V \in unitmx by rewrite EV !unitmx_mul uL uV' uLt.
rewrite pinv_unit //.
have -> : invmx V = invmx L^T *m invmx V' *m invmx L.
  rewrite -[RHS](mulKmx uV) {3}EV -!mulmxA (mulKVmx uLt) (mulKVmx uV').
  by rewrite mulmxV // mulmx1.
by rewrite /B trmx_mul trmx_inv !mulmxA.
Qed.
End Deco.
