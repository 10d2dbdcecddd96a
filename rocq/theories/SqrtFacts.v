(** Facts about slices, stacking and QR factorisations. *)
From mathcomp Require Import all_ssreflect all_algebra.
From mathcomp Require Import ring.
From Verif Require Import Prelude Zmod LinAlg Numpy NumpyFacts Sqrt.
Import GRing.Theory Num.Theory Order.Theory.

Set Implicit Arguments.
Unset Strict Implicit.
Unset Printing Implicit Defensive.
Local Open Scope ring_scope.

Section Slices.
Variable R : rcfType.

Lemma A2_eq m n m' n' (M : 'M[R]_(m, n)) (N : 'M[R]_(m', n')) :
  m = m' -> n = n' -> (forall i j, (i < m')%N -> (j < n')%N -> mget M i j = mget N i j) -> A2 M = A2 N.
Proof.
move=> e1 e2; subst m' n' => H; congr A2; apply/matrixP=> i j.
by rewrite -!mgetE H.
Qed.

Lemma mget_block m1 m2 n1 n2 (A : 'M[R]_(m1, n1)) (B : 'M_(m1, n2)) (C : 'M_(m2, n1)) (D : 'M_(m2, n2)) i j :
  (i < m1 + m2)%N -> (j < n1 + n2)%N ->
  mget (block_mx A B C D) i j =
  if (i < m1)%N then (if (j < n1)%N then mget A i j else mget B i (j - n1))
  else (if (j < n1)%N then mget C (i - m1) j else mget D (i - m1) (j - n1)).
Proof.
move=> Hi Hj; pose i0 : 'I_(m1 + m2) := Ordinal Hi; pose j0 : 'I_(n1 + n2) := Ordinal Hj.
rewrite (mgetE _ i0 j0) -[i]/(nat_of_ord i0) -[j]/(nat_of_ord j0).
move: i0 j0 => {Hi Hj} i0 j0; rewrite -[i0]splitK -[j0]splitK.
case: (split i0) => i'; case: (split j0) => j' /=.
- by rewrite !ltn_ord block_mxEul mgetE.
- by rewrite !ltn_ord ltnNge leq_addr /= addKn block_mxEur mgetE.
- by rewrite ltn_ord ltnNge leq_addr /= addKn block_mxEdl mgetE.
- by rewrite ltnNge leq_addr /= ltnNge leq_addr /= !addKn block_mxEdr mgetE.
Qed.

Lemma mget_slice m n (M : 'M[R]_(m, n)) r0 r1 c0 c1 i j :
  (i < minn r1 m - r0)%N -> (j < minn c1 n - c0)%N ->
  mget (slice M r0 r1 c0 c1) i j = mget M (r0 + i) (c0 + j).
Proof. by move=> Hi Hj; rewrite (mgetE _ (Ordinal Hi) (Ordinal Hj)) mxE. Qed.

Lemma slice_ul m1 m2 n1 n2 (M : 'M[R]_(m1 + m2, n1 + n2)) :
  A2 (slice M 0 m1 0 n1) = A2 (ulsubmx M).
Proof.
have e1 : (minn m1 (m1 + m2) - 0 = m1)%N by rewrite subn0; apply/minn_idPl/leq_addr.
have e2 : (minn n1 (n1 + n2) - 0 = n1)%N by rewrite subn0; apply/minn_idPl/leq_addr.
apply: A2_eq => // i j Hi Hj; rewrite mget_slice ?e1 ?e2 // -{1}(submxK M) !add0n mget_block ?Hi ?Hj //.
- exact: ltn_addr.
- exact: ltn_addr.
Qed.
Lemma slice_ur m1 m2 n1 n2 (M : 'M[R]_(m1 + m2, n1 + n2)) :
  A2 (slice M 0 m1 n1 (n1 + n2)) = A2 (ursubmx M).
Proof.
have e1 : (minn m1 (m1 + m2) - 0 = m1)%N by rewrite subn0; apply/minn_idPl/leq_addr.
have e2 : (minn (n1 + n2) (n1 + n2) - n1 = n2)%N by rewrite minnn addKn.
apply: A2_eq => // i j Hi Hj; rewrite mget_slice ?e1 ?e2 // -{1}(submxK M) !add0n mget_block ?Hi.
- by rewrite ltnNge leq_addr /= addKn.
- exact: ltn_addr.
- by rewrite ltn_add2l.
Qed.
Lemma slice_dr m1 m2 n1 n2 (M : 'M[R]_(m1 + m2, n1 + n2)) :
  A2 (slice M m1 (m1 + m2) n1 (n1 + n2)) = A2 (drsubmx M).
Proof.
have e1 : (minn (m1 + m2) (m1 + m2) - m1 = m2)%N by rewrite minnn addKn.
have e2 : (minn (n1 + n2) (n1 + n2) - n1 = n2)%N by rewrite minnn addKn.
apply: A2_eq => // i j Hi Hj; rewrite mget_slice ?e1 ?e2 // -{1}(submxK M) mget_block ?ltn_add2l //.
by rewrite ltnNge leq_addr /= ltnNge leq_addr /= !addKn.
Qed.
(** all columns, the first rows *)
Lemma slice_u m1 m2 n (M : 'M[R]_(m1 + m2, n)) :
  A2 (slice M 0 m1 0 n) = A2 (usubmx M).
Proof.
have e1 : (minn m1 (m1 + m2) - 0 = m1)%N by rewrite subn0; apply/minn_idPl/leq_addr.
have e2 : (minn n n - 0 = n)%N by rewrite subn0 minnn.
apply: A2_eq => // i j Hi Hj; rewrite mget_slice ?e1 ?e2 // !add0n.
have Hi' : (i < m1 + m2)%N by exact: ltn_addr.
rewrite (mgetE M (Ordinal Hi') (Ordinal Hj)) (mgetE _ (Ordinal Hi) (Ordinal Hj)) mxE.
by congr (M _ _); apply: val_inj.
Qed.

Lemma hstackE m p q (M : 'M[R]_(m, p)) (N : 'M[R]_(m, q)) :
  np_hstack (A2 M) (A2 N) = Ok (A2 (row_mx M N)).
Proof. by rewrite /=; case: eqP => // e; rewrite castmx_id. Qed.
Lemma bO T U (x : T) (k : T -> res U) : bind (Ok x) k = k x.
Proof. by []. Qed.
Lemma len1E n (v : 'cV[R]_n) : np_len (A1 v) = Ok n.
Proof. by []. Qed.
Lemma A2_inj m n (M N : 'M[R]_(m, n)) : A2 M = A2 N -> M = N.
Proof.
move/(congr1 (fun a => \matrix_(i < m, j < n) aget a i j)) => /matrixP E.
by apply/matrixP=> i j; have := E i j; rewrite !mxE /= !mgetE.
Qed.
Lemma A2_tr m n m' n' (M : 'M[R]_(m, n)) (N : 'M[R]_(m', n')) : A2 M = A2 N -> A2 M^T = A2 N^T.
Proof. by move/(congr1 (fun a : arr R => if a is A2 _ _ M then A2 M^T else a)). Qed.

Lemma np_sliceE m n (M : 'M[R]_(m, n)) r0 r1 c0 c1 :
  np_slice (A2 M) r0 r1 c0 c1 = Ok (A2 (slice M r0 r1 c0 c1)).
Proof. by []. Qed.
Lemma qr_rE (qr : qr_fun R) m n (M : 'M[R]_(m, n)) : np_qr_r qr (A2 M) = Ok (A2 (qr m n M).2).
Proof. by []. Qed.
End Slices.

#[global] Arguments np_slice : simpl never.
#[global] Arguments np_hstack : simpl never.
#[global] Arguments np_qr_r : simpl never.

(** ** QR *)
Section QR.
Variable R : rcfType.

Lemma qr_gram (qr : qr_fun R) m n (M : 'M[R]_(m, n)) : qr_valid qr ->
  (qr m n M).2^T *m (qr m n M).2 = M^T *m M.
Proof.
move=> /(_ m n M)[QQ _ EM]; rewrite -{3 4}EM trmx_mul mulmxA -[X in _ = X *m _]mulmxA QQ.
by rewrite mulmx1.
Qed.

Lemma qr_dl (qr : qr_fun R) m1 m2 n1 n2 (M : 'M[R]_(m1 + m2, n1 + n2)) : qr_valid qr -> (n1 <= m1)%N ->
  dlsubmx (qr _ _ M).2 = 0.
Proof.
move=> /(_ _ _ M)[_ H _] le; apply/matrixP=> i j; rewrite !mxE; apply: H => /=.
by apply: leq_trans (leq_trans (ltn_ord j) le) _; rewrite leq_addr.
Qed.

(** a valid routine exists: Householder reflections *)
Definition house m (v : 'cV[R]_(1 + m)) : 'M[R]_(1 + m) :=
  let u := v - (Num.sqrt (qf 1%:M v)) *: col_mx 1%:M 0 in
  1%:M - (2%:R / qf 1%:M u) *: (u *m u^T).

Fixpoint qr_hh m n : 'M[R]_(m, n) -> 'M[R]_m * 'M[R]_(m, n) :=
  match m, n return 'M[R]_(m, n) -> 'M[R]_m * 'M[R]_(m, n) with
  | m'.+1, n'.+1 => fun M : 'M[R]_(1 + m', 1 + n') =>
      let H := house (lsubmx M) in
      let HM := H *m M in
      let QR := qr_hh (drsubmx HM) in
      (H *m block_mx 1%:M 0 0 QR.1,
       block_mx (ulsubmx HM) (ursubmx HM) 0 QR.2)
  | _, _ => fun M => (1%:M, M)
  end.

Lemma dotE m (u v : 'cV[R]_m) : u^T *m v = (bf u 1%:M v)%:M.
Proof. by rewrite /bf mulmx1 scK. Qed.

Lemma house_tr m (v : 'cV[R]_(1 + m)) : (house v)^T = house v.
Proof. by rewrite /house linearB /= linearZ /= trmx_mul trmxK trmx1. Qed.

Lemma house_orth m (v : 'cV[R]_(1 + m)) : (house v)^T *m house v = 1%:M.
Proof.
rewrite house_tr /house; set u := v - _; set q := qf 1%:M u.
have E : u *m u^T *m (u *m u^T) = q *: (u *m u^T).
  by rewrite mulmxA -[u *m u^T *m u]mulmxA dotE mul_mx_scalar -scalemxAl.
rewrite mulmxBl mul1mx mulmxBr mulmx1 -scalemxAl -scalemxAr E !scalerA.
have [q0|q0] := eqVneq q 0.
  by rewrite q0 invr0 !mulr0 scale0r !subr0.
have -> : 2%:R / q * (2%:R / q) * q = 2%:R / q + 2%:R / q by field.
by rewrite scalerDl opprB addrK subrK.
Qed.

Lemma house_col m (v : 'cV[R]_(1 + m)) :
  house v *m v = (Num.sqrt (qf 1%:M v)) *: col_mx 1%:M 0.
Proof.
rewrite /house; set s := Num.sqrt _; set e := col_mx _ _; set u := v - _; set q := qf 1%:M u.
have ss : s * s = qf 1%:M v by rewrite -expr2 sqr_sqrtr // sqn_ge0.
have ee : bf e 1%:M e = 1.
  by rewrite /bf mulmx1 /e tr_col_mx mul_row_col trmx0 mul0mx addr0 trmx1 mulmx1 sc_scalar.
set c := bf e 1%:M v.
have cs : bf v 1%:M e = c by rewrite bf_tr trmx1.
have uv : bf u 1%:M v = s * s - s * c.
  by rewrite /u bfDl bfNl bfZl ss /qf -/c.
have uu : q = 2%:R * (s * s - s * c).
  rewrite /q /qf {2}/u bfDr bfNr uv bfZr /u bfDl bfNl bfZl cs ee; ring.
rewrite mulmxBl mul1mx -scalemxAl -mulmxA dotE mul_mx_scalar scalerA uv.
have [q0|q0] := eqVneq q 0.
  have /eqP := q0; rewrite uu mulf_eq0 pnatr_eq0 /= => /eqP ->.
  have u0 : u = 0 by apply: sqn_eq0.
  by rewrite mulr0 scale0r subr0 -[LHS](subrK (s *: e)) -/u u0 add0r.
have -> : 2%:R / q * (s * s - s * c) = 1.
  by rewrite mulrAC -uu divff.
by rewrite scale1r /u opprB addrC subrK.
Qed.

Lemma qr_hh_valid : qr_valid qr_hh.
Proof.
rewrite /qr_valid; elim=> [|m IH] [|n].
- by move=> M; split; rewrite ?trmx1 ?mulmx1 ?mul1mx //; case.
- by move=> M; split; rewrite ?trmx1 ?mulmx1 ?mul1mx //; case.
- by move=> M; split; rewrite ?trmx1 ?mulmx1 ?mul1mx // => i; case.
move=> M0; rewrite /=; move: M0; change (forall M : 'M[R]_(1 + m, 1 + n),
  let H := house (lsubmx M) in let HM := H *m M in let QR := qr_hh (drsubmx HM) in
  [/\ (H *m block_mx 1%:M 0 0 QR.1)^T *m (H *m block_mx 1%:M 0 0 QR.1) = 1%:M,
      forall i j : 'I_(_ + _), (j < i)%N -> block_mx (ulsubmx HM) (ursubmx HM) 0 QR.2 i j = 0 &
      H *m block_mx 1%:M 0 0 QR.1 *m block_mx (ulsubmx HM) (ursubmx HM) 0 QR.2 = M]).
move=> M /=; set H := house _; set HM := H *m M.
have [QQ U E] := IH n (drsubmx HM).
have HH : H *m H = 1%:M by rewrite -{1}[H]house_tr house_orth.
have dl : dlsubmx HM = 0.
  have : lsubmx HM = col_mx (Num.sqrt (qf 1%:M (lsubmx M)))%:M 0.
    rewrite /HM -[in lsubmx _](hsubmxK M) mul_mx_row row_mxKl house_col.
    by rewrite scale_col_mx scaler0 scalemx1.
  by rewrite /dlsubmx /= => /(congr1 dsubmx); rewrite col_mxKd => <-; apply/matrixP=> i j; rewrite !mxE.
split.
- rewrite trmx_mul house_tr -mulmxA [X in _ *m X = _]mulmxA HH mul1mx.
  by rewrite tr_block_mx mulmx_block !trmx1 !trmx0 !mulmx0 !mul0mx !addr0 !mulmx1 !add0r QQ -scalar_mx_block.
- move=> i j; rewrite -[i]splitK -[j]splitK.
  case: (split i) => i'; case: (split j) => j' /=.
  + by rewrite (ord1 i') (ord1 j').
  + by rewrite (ord1 i').
  + by rewrite block_mxEdl mxE.
  + by rewrite block_mxEdr ltn_add2l; exact: U.
- rewrite -mulmxA mulmx_block !mul1mx !mulmx0 !mul0mx !addr0 !add0r E.
  rewrite -dl submxK /HM mulmxA HH mul1mx //.
Qed.
End QR.
