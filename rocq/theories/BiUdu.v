(** The UDU' factorisation. *)
From Coq Require Import String List.
From mathcomp Require Import all_ssreflect all_algebra.
From mathcomp Require Import ring.
From Verif Require Import Prelude Zmod LinAlg Numpy NumpyFacts Standard Sqrt SqrtFacts Bierman.
Import GRing.Theory Num.Theory Order.Theory.

Set Implicit Arguments.
Unset Strict Implicit.
Unset Printing Implicit Defensive.
Local Open Scope ring_scope.

(** Specification: unit upper triangular factor, non-negative diagonal *)
Definition unit_upper (R : rcfType) n (U : 'M[R]_n) : Prop :=
  (forall i, U i i = 1) /\ (forall i j : 'I_n, (j < i)%N -> U i j = 0).
Definition is_udu (R : rcfType) n (P U : 'M[R]_n) (D : 'cV[R]_n) : Prop :=
  [/\ unit_upper U, forall i, 0 <= D i 0 & U *m diag_mx D^T *m U^T = P].

Section Udu.
Variables (R : rcfType) (n : nat).
Implicit Types (M U A : 'M[R]_n) (d : 'cV[R]_n).

Lemma mgetO M (i j : 'I_n) : mget M i j = M i j. Proof. exact: mgetE. Qed.

(** effect of the inner loop on column [j] *)
Lemma inner_ok (j : 'I_n) alpha M U k : (k <= j)%N ->
  foldl (udu_inner j.+1 alpha) (M, U) (iota 1 k) =
  (\matrix_(a, b) if (b < k)%N && (a <= b)%N then M a b - M b j * (alpha * M a j) else M a b,
   \matrix_(a, b) if (b == j) && (a < k)%N then alpha * M a j else U a b).
Proof.
elim: k => [|k IH] kj.
  by rewrite /=; congr pair; apply/matrixP => a b; rewrite !mxE ?andbF.
rewrite -(addn1 k) iotaD foldl_cat IH; last exact: ltnW.
rewrite add1n /= /udu_inner.
have kn : (k < n)%N := ltn_trans kj (ltn_ord j).
pose ko := Ordinal kn.
have -> : k = ko :> nat by [].
rewrite addn1 !mgetO !mxE.
have -> : (j < ko)%N = false by rewrite ltnNge (ltnW kj).
rewrite andFb; congr pair; apply/matrixP => a b; rewrite !mxE.
  rewrite mgetO !mxE eqxx andbT !ltnS [in X in _ = X]leq_eqVlt.
  case: (eqVneq (b : nat) ko) => [e|ne]; last by rewrite andFb orFb.
  have -> : b = ko by apply/val_inj.
  rewrite ltnn orbF !andTb andFb.
  case: (leqP a ko) => [ak|//]; congr (_ - _ * _).
  rewrite leq_eqVlt in ak; case: (eqVneq (a : nat) ko) ak => [e' _|_ /=].
    by have -> : a = ko by apply/val_inj.
  by move=> ->; rewrite eqxx.
rewrite ltnS [in X in _ = X]leq_eqVlt andbC (inj_eq val_inj).
case: (eqVneq b j) => [->|ne]; last by rewrite !andFb.
rewrite !andTb (inj_eq val_inj); case: (eqVneq a ko) => [->|ne] //.
Qed.

(** ** One pass of the outer loop *)
Lemma outer_ok (j : 'I_n) M U d : let alpha := if 0 < M j j then (M j j)^-1 else 0 in
  udu_outer (M, U, d) j.+1 =
  (\matrix_(a, b) (if (b < j)%N && (a <= b)%N then M a b - M b j * (alpha * M a j) else M a b),
   \matrix_(a, b) (if (b == j) && (a < j)%N then alpha * M a j else U a b),
   \col_a if a == j then M j j else d a 0).
Proof.
move=> alpha; rewrite /udu_outer mgetO.
rewrite -/alpha [j.+1.-1]/= inner_ok //; congr pair.
Qed.

(** weighted sum of the outer products of the columns of [U] *)
Definition usum U d : 'M[R]_n := \matrix_(a, b) \sum_l d l 0 * U a l * U b l.
Lemma usumE U d : U *m diag_mx d^T *m U^T = usum U d.
Proof.
apply/matrixP => a b; rewrite !mxE; apply: eq_bigr => l _; rewrite !mxE.
rewrite (bigD1 l) //= big1 ?addr0; last by move=> i ne; rewrite !mxE (negbTE ne) mulr0n mulr0.
by rewrite !mxE eqxx mulr1n; congr (_ * _); rewrite mulrC.
Qed.

(** what holds before column [j] (counted from one) is processed *)
Record uinv (M0 : 'M[R]_n) (j : nat) (st : 'M[R]_n * 'M[R]_n * 'cV[R]_n) (A : 'M[R]_n) : Prop := UInv {
  ui_psd : psd A;
  ui_z : forall a b : 'I_n, (j <= b)%N -> A a b = 0;
  ui_M : forall a b : 'I_n, (a <= b)%N -> (b < j)%N -> st.1.1 a b = A a b;
  ui_U : unit_upper st.1.2;
  ui_Ue : forall a b : 'I_n, (b < j)%N -> st.1.2 a b = (a == b)%:R;
  ui_d : forall a : 'I_n, (a < j)%N -> st.2 a 0 = 0;
  ui_d0 : forall a : 'I_n, 0 <= st.2 a 0;
  ui_E : M0 = A + usum st.1.2 st.2
}.

Lemma col_e A (j : 'I_n) : A *m delta_mx j 0 = col j A.
Proof. by rewrite -colE. Qed.
Lemma qf_e A (j : 'I_n) : qf A (delta_mx j 0) = A j j.
Proof. by rewrite /qf /bf -mulmxA col_e trmx_delta -rowE /sc !mxE. Qed.

Lemma psd_diag A (j : 'I_n) : psd A -> 0 <= A j j.
Proof. by move=> [_ /(_ (delta_mx j 0))]; rewrite qf_e. Qed.
Lemma psd_diag0 A (a j : 'I_n) : psd A -> A j j = 0 -> A a j = 0.
Proof.
move=> PA E; have := psd_qf0 PA (v := delta_mx j 0); rewrite qf_e E => /(_ erefl).
by rewrite col_e => /matrixP/(_ a 0); rewrite !mxE.
Qed.
Lemma psdE A (a b : 'I_n) : psd A -> A b a = A a b.
Proof. by move=> [/matrixP/(_ a b)]; rewrite mxE. Qed.

(** the Schur complement stays positive semidefinite *)
Lemma schur_psd A (j : 'I_n) alpha : psd A -> 0 < A j j -> alpha = (A j j)^-1 ->
  psd (\matrix_(a, b) (A a b - alpha * A a j * A b j)).
Proof.
move=> PA H0 Ea; set B := \matrix_(a, b) _.
pose X : 'M[R]_n := 1%:M - alpha *: (col j A *m (delta_mx j 0 : 'cV[R]_n)^T).
have EX a b : X a b = (a == b)%:R - alpha * (A a j * (b == j)%:R).
  rewrite !mxE big_ord_recl big_ord0 addr0 !mxE eqxx andbT.
  by rewrite mulr_natr.
suff -> : B = X *m A *m X^T by exact: psd_congr.
have XA a b : (X *m A) a b = A a b - alpha * A a j * A j b.
  rewrite mxE (eq_bigr (fun l => (a == l)%:R * A l b - alpha * A a j * ((l == j)%:R * A l b))); last first.
    by move=> l _; rewrite EX mulrBl !mulrA.
  rewrite sumrB (bigD1 a) //= big1 ?addr0; last by move=> l ne; rewrite eq_sym (negbTE ne) mul0r.
  rewrite eqxx mul1r; congr (_ - _); rewrite -mulr_sumr (bigD1 j) //= eqxx mul1r big1 ?addr0 //.
  by move=> l ne; rewrite (negbTE ne) mul0r.
have nz : A j j != 0 by rewrite gt_eqF.
apply/matrixP => a b; rewrite mxE [in RHS]mxE.
rewrite (eq_bigr (fun l => (X *m A) a l * (b == l)%:R - (X *m A) a l * (l == j)%:R * (alpha * A b j))); last first.
  by move=> l _; rewrite [X^T _ _]mxE EX mulrBr; congr (_ - _); rewrite (mulrC (A b j)) !mulrA (mulrC (_ * alpha)) ?mulrA; ring.
rewrite sumrB (bigD1 b) //= big1 ?addr0; last by move=> l ne; rewrite eq_sym (negbTE ne) mulr0.
rewrite eqxx mulr1 -mulr_suml (bigD1 j) //= eqxx mulr1 big1 ?addr0; last first.
  by move=> l ne; rewrite (negbTE ne) mulr0.
rewrite !XA (psdE b j PA) Ea; move: nz; move: (A j j) (A a j) (A b j) (A a b) => p q r s nz.
by field.
Qed.

Lemma outer_inv M0 (j : 'I_n) M U d A : uinv M0 j.+1 (M, U, d) A ->
  exists A', uinv M0 j (udu_outer (M, U, d) j.+1) A'.
Proof.
move=> [PA Az AM [U1 U0] Ue dz d0 E]; rewrite outer_ok.
have EM (a : 'I_n) : (a <= j)%N -> M a j = A a j by move=> le; exact: (AM a j le (ltnSn _)).
rewrite (EM j (leqnn _)); set alpha := if _ then _ else _.
exists (\matrix_(a, b) (A a b - alpha * A a j * A b j)).
have Aj a : A j j = 0 -> A a j = 0 by exact: psd_diag0.
have ge0 := psd_diag j PA.
split => /=.
- case: (ltrgt0P (A j j)) ge0 => // [gt|e] _; first by apply: (@schur_psd A j alpha) => //; rewrite /alpha gt.
  suff -> : (\matrix_(a, b) (A a b - alpha * A a j * A b j)) = A by [].
  by apply/matrixP => a b; rewrite mxE (Aj b e) mulr0 subr0.
- move=> a b le; rewrite mxE; move: le; rewrite leq_eqVlt => /orP[/eqP/val_inj <-|lt].
    rewrite /alpha; case: ltrgt0P ge0 => // [gt|e] _; last by rewrite (Aj a e) mulr0 mul0r subr0.
    by rewrite mulrAC mulVf ?gt_eqF // mul1r subrr.
  by rewrite (psdE j b PA) (Az a b lt) (Az j b lt) mulr0 subr0.
- move=> a b ab bj; rewrite !mxE bj ab /=.
  have bj' : (b < j.+1)%N by rewrite ltnS ltnW.
  rewrite [M a b](AM a b ab bj') (EM b (ltnW bj)) (EM a (leq_trans ab (ltnW bj))).
  by congr (_ - _); ring.
- split=> [i|i k ki]; rewrite !mxE.
    by case: eqP => [->|_] /=; rewrite ?ltnn /= U1.
  case: eqP => [e|_] /=; last exact: U0.
  by rewrite -e (ltnNge i k) (ltnW ki) /= U0.
- move=> a b bj; rewrite mxE; case: eqP => [e|_] /=; first by rewrite e ltnn in bj.
  by apply: Ue; rewrite ltnS ltnW.
- move=> a aj; rewrite mxE; case: eqP => [e|_]; first by rewrite e ltnn in aj.
  by apply: dz; rewrite ltnS ltnW.
- by move=> a; rewrite mxE; case: eqP.
- rewrite E /=; apply/matrixP => a b; rewrite !mxE (bigD1 j) //= [in RHS](bigD1 j) //=.
  rewrite (dz j (ltnSn _)) !mul0r add0r !mxE eqxx /=.
  rewrite [in RHS](eq_bigr (fun l => d l 0 * U a l * U b l)); last first.
    by move=> l ne; rewrite !mxE (negbTE ne).
  rewrite -addrA; congr (_ + _); rewrite addrA -[LHS]add0r; congr (_ + _).
  have EU (c : 'I_n) : A j j * (if (c < j)%N then alpha * M c j else U c j) = A j j * (alpha * A c j).
    case: (ltrgt0P (A j j)) ge0 => // [gt|e] _; last by rewrite e !mul0r.
    congr (_ * _); case: (ltnP c j) => [lt|]; first by rewrite EM // ltnW.
    rewrite leq_eqVlt => /orP[/eqP/val_inj <-|lt]; first by rewrite U1 /alpha gt mulVf ?gt_eqF.
    by rewrite U0 // (psdE j c PA) Az ?mulr0.
  have {}EU (c : 'I_n) : A j j * (if (c < j)%N then alpha * M c j else U c j) = A j j * alpha * A c j.
    by rewrite EU mulrA.
  have EA c : A j j * alpha * A c j = A c j.
    rewrite /alpha; case: (ltrgt0P (A j j)) ge0 => // [gt|e] _; last by rewrite (Aj c e) mulr0.
    by rewrite mulfV ?mul1r ?gt_eqF.
  set Ua := if (a < j)%N then _ else _; set Ub := if (b < j)%N then _ else _.
  have Ha : A j j * Ua = A a j by rewrite EU EA.
  have Hb : Ub = alpha * A b j \/ A a j = 0.
    case: (ltrgt0P (A j j)) ge0 => // [gt|e] _; last by right; exact: Aj.
    left; have nz : A j j != 0 by rewrite gt_eqF.
    by apply: (mulfI nz); rewrite EU mulrA.
  rewrite Ha; case: Hb => [->|->]; last by rewrite mul0r mulr0 mul0r oppr0 addr0.
  by ring.
Qed.

Lemma fold_inv M0 q st A : (q < n)%N -> uinv M0 q.+1 st A ->
  exists A', uinv M0 1 (foldl (@udu_outer R n) st (rev (iota 2 q))) A'.
Proof.
elim: q st A => [|q IH] st A qn H; first by exists A.
rewrite -(addn1 q) iotaD rev_cat /= add2n.
case: st H => [[M U] d] H; have [A' H'] := @outer_inv M0 (Ordinal qn) M U d A H.
exact: (IH _ A' (ltnW qn) H').
Qed.

Lemma init_inv M0 : psd M0 -> uinv M0 n (triu M0, 1%:M, 0) M0.
Proof.
move=> P0; split=> //=.
- by move=> a b; rewrite leqNgt ltn_ord.
- by move=> a b ab _; rewrite mxE ab.
- split=> [i|i j ji]; first by rewrite mxE eqxx.
  by rewrite mxE; case: eqP => [e|//]; rewrite e ltnn in ji.
- by move=> a b _; rewrite mxE.
- by move=> a _; rewrite mxE.
- by move=> a; rewrite mxE.
rewrite -usumE trmx0 (_ : diag_mx 0 = 0) ?mulmx0 ?mul0mx ?addr0 //.
by apply/matrixP => a b; rewrite !mxE mul0rn.
Qed.

Lemma core_ok M0 : (0 < n)%N -> psd M0 -> is_udu M0 (udu_core M0).1 (udu_core M0).2.
Proof.
move=> n0 P0; have n1 : (n.-1 < n)%N by rewrite prednK.
have := @fold_inv M0 n.-1 _ M0 n1; rewrite (prednK n0) => /(_ _ (init_inv P0)) [A].
rewrite /udu_core; case: (foldl _ _ _) => [[M U] d] [/= PA Az AM UU Ue dz d0 E].
pose o := Ordinal n0.
have E0 : mget M 0 0 = A o o by rewrite (mgetO M o o); exact: (AM o o).
have A0 a b : A a b = if (a == o) && (b == o) then A o o else 0.
  have lt (c : 'I_n) : c != o -> (1 <= c)%N by rewrite lt0n -val_eqE.
  case: (eqVneq a o) => [->|ne]; last by rewrite /= (psdE b a PA) Az // lt.
  by case: (eqVneq b o) => [->|ne] //=; rewrite Az // lt.
split=> //.
- by move=> i; rewrite mxE E0; case: eqP => // _; exact: psd_diag.
rewrite usumE E; apply/matrixP => a b; rewrite !mxE (bigD1 o) //= [in RHS](bigD1 o) //=.
rewrite mxE eqxx E0 (dz o) // !mul0r add0r !(Ue _ o) // (A0 a b); congr (_ + _).
  by case: (a == o); case: (b == o); rewrite ?mulr1 ?mulr0 ?mul0r.
apply: eq_bigr => l ne; rewrite mxE; case: eqP => [e|//].
by case/eqP: ne; exact: val_inj.
Qed.

(** ** [udu] *)
Lemma isclose_refl (x : R) : isclose x x.
Proof.
by rewrite /isclose subrr normr0 addr_ge0 ?mulr_ge0 ?invr_ge0 ?ler0n ?normr_ge0.
Qed.

Lemma udu_ok M : (0 < n)%N -> psd M ->
  exists U d, [/\ udu (A2 M) = Ok (A2 U, A1 d), is_udu M U d &
                  bi_reconstruct (A2 U, A1 d) = Ok (A2 M)].
Proof.
move=> n0 PM; have H := core_ok n0 PM; exists (udu_core M).1, (udu_core M).2; split=> //.
- rewrite /udu eqxx /as_square /=; case: eqP => // e; rewrite castmx_id.
  have -> : [forall i, [forall j, isclose (M i j) (M j i)]].
    by apply/forallP => i; apply/forallP => j; rewrite (psdE i j PM) isclose_refl.
  by rewrite (gtn_eqF n0); case: (udu_core M).
- case: H => _ _ E; rewrite /bi_reconstruct bO dot22 bO tr2 bO dot22.
  by rewrite E.
Qed.

Lemma udu_empty (M : 'M[R]_0) : udu (A2 M) = Err IndexError.
Proof.
rewrite /udu eqxx /as_square /=; case: eqP => // e.
by case: ifP => // /negP[]; apply/forallP => -[].
Qed.

Lemma udu_asym M (i j : 'I_n) : ~~ isclose (M i j) (M j i) -> udu (A2 M) = Err AssertionError.
Proof.
move=> H; rewrite /udu eqxx /as_square /=; case: eqP => // e; rewrite castmx_id.
by case: ifP => // /forallP/(_ i)/forallP/(_ j); rewrite (negbTE H).
Qed.
End Udu.
