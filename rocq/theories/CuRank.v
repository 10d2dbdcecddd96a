(** What a successful [cholupdate] has computed. *)
From Coq Require Import String List.
From mathcomp Require Import all_ssreflect all_algebra.
From mathcomp Require Import ring.
From Verif Require Import Prelude Zmod LinAlg Numpy NumpyFacts Standard Sqrt SqrtFacts SqrtUnscented CuFacts.
Import GRing.Theory Num.Theory Order.Theory.

Set Implicit Arguments.
Unset Strict Implicit.
Unset Printing Implicit Defensive.
Local Open Scope ring_scope.

Section Rank.
Variables (R : rcfType) (n : nat).
Implicit Types (A B : 'M[R]_n) (x v : 'cV[R]_n).

(** equal except in the last diagonal entry *)
Definition eqoff A B : Prop := forall i j : 'I_n, (i.+1 < n)%N || (j.+1 < n)%N -> A i j = B i j.
Lemma eqoff_refl A : eqoff A A. Proof. by []. Qed.
Lemma eqoff_trans A B C : eqoff A B -> eqoff B C -> eqoff A C.
Proof. by move=> H1 H2 i j ij; rewrite H1 // H2. Qed.
Lemma eqoffDr A B C : eqoff A B -> eqoff (A + C) (B + C).
Proof. by move=> H i j ij; rewrite !mxE H. Qed.
(** no zero on the diagonal except possibly in the last place *)
Definition inner A : Prop := forall i : 'I_n, (i.+1 < n)%N -> A i i != 0.

Lemma nat_if k (P Q : Prop) : (k = 0%N -> P) -> Q -> if k is 0%N then P else Q.
Proof. by case: k => // H _; apply: H. Qed.
Lemma foldr_consE S T (f : S -> T -> res S) s (y : T) l : foldr_res f s (y :: l) = (s' <-- f s y ;; foldr_res f s' l).
Proof. by []. Qed.

(** replace one diagonal entry by 1 *)
Definition put1 (k : 'I_n) A : 'M[R]_n := \matrix_(i, j) if (i == k) && (j == k) then 1 else A i j.
Lemma put1_unit k A : upper A -> (forall i, i != k -> A i i != 0) -> upper (put1 k A) /\ forall i, put1 k A i i != 0.
Proof.
move=> HA Hd; split=> [i j ij|i]; rewrite mxE.
  case: eqP => [ei|_] /=; last exact: HA.
  case: eqP => [ej|_] /=; last exact: HA.
  by move: ij; rewrite ei ej ltnn.
by have [_|ik] := eqVneq i k; rewrite ?oner_neq0 // Hd.
Qed.
Lemma put1_mul k A v : A *m v = put1 k A *m v + ((A k k - 1) * v k 0) *: delta_mx k 0.
Proof.
apply/matrixP=> i j; rewrite (ord1 j) [LHS]mxE [RHS]mxE [X in _ = _ + X]mxE [X in _ = X + _]mxE [delta_mx _ _ _ _]mxE eqxx andbT.
have [->|ik] := eqVneq i k.
  rewrite mulr1 (bigD1 k) //= [in RHS](bigD1 k) //= [put1 _ _ _ _]mxE !eqxx /= mul1r.
  have -> : \sum_(l < n | l != k) put1 k A k l * v l 0 = \sum_(l < n | l != k) A k l * v l 0.
    by apply: eq_bigr => l lk; rewrite !mxE (negbTE lk) andbF.
  by rewrite mulrBl mul1r addrAC [v k 0 + _]addrC subrK.
by rewrite mulr0 addr0; apply: eq_bigr => l _; rewrite !mxE (negbTE ik).
Qed.

(** a direction in which only coordinates up to [k] move *)
Lemma pivot_dir k A : upper A -> (forall i, i != k -> A i i != 0) ->
  exists2 v : 'cV[R]_n, A *m v = A k k *: delta_mx k 0 & (forall j : 'I_n, (k < j)%N -> v j 0 = 0) /\ v k 0 = 1.
Proof.
move=> HA Hd; have [U1 D1] := put1_unit HA Hd; have [v Ev [v0 vk]] := upper_e k U1 D1.
have vk1 : v k 0 = 1 by rewrite vk mxE !eqxx invr1.
exists v; last by split.
by rewrite (put1_mul k) Ev vk1 mulr1 -{1}[delta_mx k 0]scale1r -scalerDl addrC subrK.
Qed.

Lemma pivot_ge0 (k : 'I_n) sg A x : upper A -> (forall i, i != k -> A i i != 0) ->
  psd (A^T *m A + sg *: (rest k x *m (rest k x)^T)) -> 0 <= A k k ^+ 2 + sg * x k 0 ^+ 2.
Proof.
move=> HA Hd HB; have [v Ev [v0 vk]] := pivot_dir HA Hd.
have := psd_ge0 v HB; rewrite qfD qfZ.
have -> : qf (A^T *m A) v = A k k ^+ 2.
  have -> : A^T *m A = A^T *m 1%:M *m A^T^T by rewrite mulmx1 trmxK.
  rewrite qf_congr trmxK Ev sqn_sum (bigD1 k) //= big1.
    by rewrite !mxE !eqxx mulr1 addr0.
  by move=> i ik; rewrite !mxE (negbTE ik) mulr0 expr0n.
have -> : qf (rest k x *m (rest k x)^T) v = x k 0 ^+ 2; last by [].
rewrite -{1}[rest k x]mulmx1 qf_congr sqn_sum big_ord1 mxE (bigD1 k) //= big1.
  by rewrite addr0 !mxE leqnn vk mulr1.
move=> i ik; rewrite !mxE; case: (leqP k i) => [ki|]; last by rewrite mul0r.
by rewrite v0 ?mulr0 // ltn_neqAle ki andbT eq_sym (inj_eq val_inj).
Qed.

(** ** one column *)
Section Last.
Variables (k : 'I_n) (sg : R) (A : 'M[R]_n) (x : 'cV[R]_n).
Hypotheses (HA : upper A) (Hk : (k.+1 < n)%N = false).
Lemma is_last (i : 'I_n) : (i.+1 < n)%N = (i != k).
Proof.
have kn : n = k.+1 by apply/eqP; rewrite eqn_leq ltn_ord andbT leqNgt Hk.
by rewrite [X in (_ < X)%N]kn ltnS ltn_neqAle -ltnS -[X in (_ < X)%N]kn ltn_ord andbT -(inj_eq val_inj).
Qed.
Lemma last_gt (j : 'I_n) : (k < j)%N = false.
Proof.
have kn : n = k.+1 by apply/eqP; rewrite eqn_leq ltn_ord andbT leqNgt Hk.
by apply/negbTE; rewrite -leqNgt -ltnS -[X in (_ < X)%N]kn.
Qed.

Let r2 := A k k ^+ 2 + sg * x k 0 ^+ 2.
Lemma cu_last : exists A1 x1, [/\ cu_inner sg (A, x) k = Ok (A1, x1), upper A1,
  forall i, i != k -> A1 i i = A i i, eqoff (A1^T *m A1) (A^T *m A + sg *: (rest k x *m (rest k x)^T)) &
  0 <= r2 -> A1^T *m A1 = A^T *m A + sg *: (rest k x *m (rest k x)^T)].
Proof.
rewrite /cu_inner Hk /= mgetE mgetv -/r2; set r := if _ then _ else _; set A1 := \matrix_(i, j) _.
have EA i j : A1 i j = if (i == k) && (j == k) then r else A i j.
  by rewrite mxE -!(inj_eq val_inj) last_gt andbF.
have E1 (i j : 'I_n) : (A1^T *m A1) i j = (A^T *m A) i j + if (i == k) && (j == k) then r ^+ 2 - A k k ^+ 2 else 0.
  rewrite !mxE; have B (M : 'M[R]_n) : \sum_l M^T i l * M l j = \sum_(l | l != k) M l i * M l j + M k i * M k j.
    by rewrite (bigD1 k) //= mxE addrC; congr (_ + _); apply: eq_bigr => l _; rewrite mxE.
  rewrite !B -addrA; congr (_ + _).
    by apply: eq_bigr => l lk; rewrite !EA (negbTE lk).
  rewrite !EA !eqxx !andTb; have [->|ik] := eqVneq i k.
    have [->|jk] := eqVneq j k; first by rewrite /= -!expr2 addrC subrK.
    have jlt : (j < k)%N by rewrite ltn_neqAle (inj_eq val_inj) jk leqNgt last_gt.
    by rewrite HA // !mulr0 add0r.
  have ilt : (i < k)%N by rewrite ltn_neqAle (inj_eq val_inj) ik leqNgt last_gt.
  by rewrite HA // !mul0r add0r.
have E2 (i j : 'I_n) : (rest k x *m (rest k x)^T) i j = if (i == k) && (j == k) then x k 0 ^+ 2 else 0.
  rewrite mxE big_ord1 !mxE; have [->|ik] := eqVneq i k.
    have [->|jk] := eqVneq j k; first by rewrite leqnn -expr2.
    have jlt : (j < k)%N by rewrite ltn_neqAle (inj_eq val_inj) jk leqNgt last_gt.
    have -> : (k <= j)%N = false by rewrite leqNgt jlt.
    by rewrite mulr0.
  have ilt : (i < k)%N by rewrite ltn_neqAle (inj_eq val_inj) ik leqNgt last_gt.
  have -> : (k <= i)%N = false by rewrite leqNgt ilt.
  by rewrite mul0r.
exists A1; eexists; split; first by [].
- move=> i j ij; rewrite EA; have [ei|_] := eqVneq i k; last exact: HA.
  have [ej|_] := eqVneq j k; last exact: HA.
  by move: ij; rewrite ei ej ltnn.
- by move=> i ik; rewrite EA (negbTE ik).
- move=> i j; rewrite !is_last => ij; rewrite E1 [RHS]mxE; congr (_ + _); rewrite mxE E2.
  by case: (eqVneq i k) ij => _; case: (eqVneq j k) => _ // _; rewrite mulr0.
- move=> r20; apply/matrixP=> i j; rewrite E1 [RHS]mxE; congr (_ + _); rewrite mxE E2.
  case: ifP => _; last by rewrite mulr0.
  by rewrite /r ltNge r20 /= sqr_sqrtr // /r2 addrC addKr.
Qed.
End Last.

Lemma cu_ok (k : 'I_n) sg A x A1 x1 : upper A -> cu_inner sg (A, x) k = Ok (A1, x1) -> (k.+1 < n)%N ->
  [/\ upper A1, A1 k k != 0, forall i, i != k -> A1 i i = A i i &
  A1^T *m A1 + sg *: (rest k.+1 x1 *m (rest k.+1 x1)^T) = A^T *m A + sg *: (rest k x *m (rest k x)^T)].
Proof.
move=> HA E kn.
have [a0 r0] : A k k != 0 /\ 0 < A k k ^+ 2 + sg * x k 0 ^+ 2.
  move: E; rewrite /cu_inner kn mgetE mgetv andTb.
  case: (eqVneq (A k k) 0) => // a0; rewrite orFb; case: ltrP => [_|H]; first by rewrite eqxx.
  rewrite sqrtr_eq0; case: lerP => // H'.
have [A' [x' [E' U D G]]] := cu_step HA a0 r0.
move: E; rewrite E' => [] [<- <-]; split=> //.
- by rewrite D eqxx sqrtr_eq0 -ltNge.
- by move=> i ik; rewrite D (negbTE ik).
Qed.

Lemma cu_vec_ok sg A x A' x' : upper A -> foldr_res (@cu_inner R n sg) (A, x) (iota 0 n) = Ok (A', x') ->
  [/\ upper A', inner A', eqoff (A'^T *m A') (A^T *m A + sg *: (x *m x^T)) &
      psd (A^T *m A + sg *: (x *m x^T)) -> A'^T *m A' = A^T *m A + sg *: (x *m x^T)].
Proof.
move=> HA; set B := _ + _.
have E0 : rest 0 x = x by apply/matrixP=> i j; rewrite (ord1 j) mxE.
have G d k A1 x1 : (k + d = n)%N -> upper A1 -> (forall i : 'I_n, (i < k)%N -> (i.+1 < n)%N -> A1 i i != 0) ->
    (if d is 0%N then eqoff (A1^T *m A1) B /\ (psd B -> A1^T *m A1 = B) else A1^T *m A1 + sg *: (rest k x1 *m (rest k x1)^T) = B) ->
    foldr_res (@cu_inner R n sg) (A1, x1) (iota k d) = Ok (A', x') ->
    [/\ upper A', inner A', eqoff (A'^T *m A') B & psd B -> A'^T *m A' = B].
  elim: d k A1 x1 => [|d IH] k A1 x1 kd H1 H2 H3.
    rewrite addn0 in kd; move=> [<- _]; case: H3 => H3 H4; split=> // i; apply: H2; by rewrite kd.
  have kn : (k < n)%N by rewrite -kd -[X in (X < _)%N]addn0 ltn_add2l.
  rewrite [iota _ _]/= foldr_consE -[cu_inner _ _ _]/(cu_inner sg (A1, x1) (Ordinal kn)).
  case E: (cu_inner _ _ _) => [[A2 x2]|//]; rewrite bO.
  have eqk (i : 'I_n) : (i != Ordinal kn) = (i != k :> nat) by [].
  case kl: (k.+1 < n)%N.
    have [U2 D2 D3 G2] := cu_ok H1 E kl.
    have Hd2 (i : 'I_n) : (i < k.+1)%N -> (i.+1 < n)%N -> A2 i i != 0.
      rewrite ltnS leq_eqVlt => /orP[/eqP e _|ik il].
        by have -> : i = Ordinal kn by [apply/val_inj]; exact: D2.
      by rewrite D3 ?H2 // eqk (ltn_eqF ik).
    apply: IH; [by rewrite addSnnS|exact: U2|exact: Hd2|].
    case: d kd => [|d] kd; first by have := kl; rewrite -[X in (_ < X)%N]kd addn1 ltnn.
    by rewrite G2.
  have d0 : d = 0%N by case: d {IH H3} kd => // d kd; move: kl; rewrite -kd addnS ltnS addnS ltnS leq_addr.
  subst d; have [A3 [x3 [E3 U3 D3 G3 P3]]] := cu_last sg x1 H1 (kl : ((Ordinal kn).+1 < n)%N = false).
  move: E; rewrite E3 => [] [<- _]; rewrite H3 in G3 P3; move=> [<- _].
  have oth i : i != Ordinal kn -> A1 i i != 0.
    move=> ik; have := ik; rewrite -(is_last (k := Ordinal kn) kl) => il; apply: H2 => //.
    by rewrite ltn_neqAle -ltnS -[X in (_ < X)%N](addn1 k) kd ltn_ord andbT.
  split=> //.
    by move=> i il; have := il; rewrite (is_last (k := Ordinal kn) kl) => ik; rewrite D3 ?oth.
  by move=> HB; apply: P3; apply: pivot_ge0 => //=; rewrite H3.
apply: (G n 0%N) => //; apply: nat_if; last by rewrite E0.
move=> n0; have E (M N : 'M[R]_n) : M = N by apply/matrixP=> i; have := ltn_ord i; rewrite [X in (_ < X)%N]n0.
by split; [rewrite (E (_ *m _) B)|move=> _; exact: E].
Qed.

(** ** all vectors *)
Lemma cu_rows_ok sg (v : nat) (X : 'M[R]_(v, n)) A A' i d : upper A -> sg < 0 ->
  foldr_res (@cu_outer R n sg v X) A (iota i d) = Ok A' ->
  let B := A^T *m A + sg *: \sum_(i <= l < i + d) (xrow X l *m (xrow X l)^T) in
  [/\ upper A', (0 < d)%N -> inner A', eqoff (A'^T *m A') B & psd B -> A'^T *m A' = B].
Proof.
move=> + s0; elim: d i A => [|d IH] i A HA /=.
  by move=> [<-]; rewrite addn0 big_geq // scaler0 addr0.
rewrite {1}/cu_outer -/(xrow X i); case E: (foldr_res _ _ _) => [[A1 x1]|//]; rewrite bO bO => E2.
have [U1 I1 G1 P1] := cu_vec_ok HA E; have [U2 I2 G2 P2] := IH _ _ U1 E2.
rewrite big_ltn; last by rewrite addnS ltnS leq_addr.
rewrite -addSnnS scalerDr addrA; split=> //.
- move=> _; case: d {IH} E2 I2 G2 P2 => [|d] E2 I2 G2 P2; last exact: I2.
  by case: E2 => <-.
- by apply: eqoff_trans G2 _; apply: eqoffDr.
- move=> HB; have HB1 : psd (A^T *m A + sg *: (xrow X i *m (xrow X i)^T)).
    have -> : A^T *m A + sg *: (xrow X i *m (xrow X i)^T) =
      A^T *m A + sg *: (xrow X i *m (xrow X i)^T) + sg *: (\sum_(i.+1 <= l < i.+1 + d) xrow X l *m (xrow X l)^T)
      + (- sg) *: (\sum_(i.+1 <= l < i.+1 + d) xrow X l *m (xrow X l)^T) by rewrite scaleNr addrK.
    apply: psdD => //; apply: psdZ; first by rewrite oppr_ge0 ltW.
    by apply: psd_sum => l _; exact: psd_gram.
  have E1 := P1 HB1; rewrite -E1; apply: P2; rewrite E1; exact: HB.
Qed.

Lemma downdate_ok (v : nat) (X : 'M[R]_(v, n)) A r : upper A -> cholupdate (A2 A) (A2 X) (-1) = Ok r ->
  exists2 F : 'M[R]_n, r = A2 F & let B := A^T *m A - X^T *m X in
    [/\ upper F, (0 < v)%N -> inner F, eqoff (F^T *m F) B & psd B -> F^T *m F = B].
Proof.
move=> HA; rewrite cholupdateE; case E: (foldr_res _ _ _) => [F|//]; rewrite bO => [] [<-].
have s0 : Num.sg (-1) < 0 :> R by rewrite sgrN sgr1 ltrN10.
exists F => //; have := cu_rows_ok HA s0 E; rewrite add0n xrow_sum normrN1 sqrtr1 scale1r sgrN sgr1 scaleN1r.
exact.
Qed.

Lemma cu_inner_err sg (s : 'M[R]_n * 'cV[R]_n) k e : cu_inner sg s k = Err e -> e = NotANumber.
Proof. by case: s => A x; rewrite /cu_inner; case: ifP => // _ []. Qed.
Lemma foldr_err S T (f : S -> T -> res S) e0 : (forall s (y : T) e, f s y = Err e -> e = e0) ->
  forall l s e, foldr_res f s l = Err e -> e = e0.
Proof.
move=> H; elim=> [//|x l IH] s e; rewrite foldr_consE; case E: (f s x) => [s'|e']; rewrite ?bO; first exact: IH.
by move=> [<-]; apply: H E.
Qed.
Lemma cholupdate_err (v : nat) (X : 'M[R]_(v, n)) A w e : cholupdate (A2 A) (A2 X) w = Err e -> e = NotANumber.
Proof.
rewrite cholupdateE; case E: (foldr_res _ _ _) => [//|e'] [<-].
apply: (foldr_err _ E) => s x e0; rewrite /cu_outer.
case E1: (foldr_res _ _ _) => [[]//|e1] [<-].
apply: (foldr_err _ E1) => s1 x1 e2; exact: cu_inner_err.
Qed.

(** ** no factor of a matrix of low rank *)
Lemma inner_kernel F v : (0 < n)%N -> upper F -> inner F -> (forall i : 'I_n, (i.+1 < n)%N = false -> v i 0 = 0) -> F *m v = 0 -> v = 0.
Proof.
move=> n0 HF HI v0 E; have kn : (n.-1 < n)%N by rewrite prednK.
pose k := Ordinal kn; have kl : (k.+1 < n)%N = false by rewrite /k /= prednK // ltnn.
have Hd i : i != k -> F i i != 0 by rewrite -(is_last kl); exact: HI.
have [U1 D1] := put1_unit HF Hd; have := put1_mul k F v.
rewrite E (v0 k kl) mulr0 scale0r addr0 => /esym E1.
by rewrite -[v](mulKmx (upper_unit U1 D1)) E1 mulmx0.
Qed.
Lemma eqoff_qf A B v : eqoff A B -> (forall i : 'I_n, (i.+1 < n)%N = false -> v i 0 = 0) -> qf A v = qf B v.
Proof.
move=> H v0; rewrite /qf /bf /sc !mxE; apply: eq_bigr => j _; rewrite !mxE !big_distrl /=; apply: eq_bigr => i _.
case ij: ((i.+1 < n)%N || (j.+1 < n)%N); first by rewrite H.
by move/norP: ij => [ij _]; rewrite !mxE v0 ?mul0r //; apply/negbTE.
Qed.
End Rank.

Section Low.
Variable R : rcfType.
Lemma low_rank0 k m (U : 'M[R]_(k, m)) : (m < k)%N -> exists2 w : 'cV[R]_k, w != 0 & U^T *m w = 0.
Proof.
move=> mk; have : kermx U != 0.
  by rewrite -mxrank_eq0 mxrank_ker subn_eq0 -ltnNge; apply: leq_ltn_trans (rank_leq_col _) _.
case/rowV0Pn => w /sub_kermxP Ew w0; exists w^T.
  by apply: contraNneq w0 => E; rewrite -[w]trmxK E trmx0.
by rewrite -trmx_mul Ew trmx0.
Qed.
Lemma low_rank n m (U : 'M[R]_(n, m)) : (m.+1 < n)%N ->
  exists v : 'cV[R]_n, [/\ v != 0, forall i : 'I_n, (i.+1 < n)%N = false -> v i 0 = 0 & U^T *m v = 0].
Proof.
move=> mn; have [k En] : exists k, n = (k + 1)%N by exists n.-1; rewrite addn1 prednK //; apply: leq_trans mn.
subst n; rewrite addn1 ltnS in mn; have [w w0 E] := low_rank0 (usubmx U) mn.
exists (col_mx w 0); split.
- by apply: contraNneq w0 => /eqP; rewrite col_mx_eq0 => /andP[].
- move=> i il; rewrite -[i]splitK; case: split_ordP => j ij /=.
    by move: il; rewrite ij /= [X in (_ < X)%N]addn1 ltnS ltn_ord.
  by rewrite col_mxEd mxE.
- by rewrite -{1}[U]vsubmxK tr_col_mx mul_row_col E mulmx0 addr0.
Qed.

(** a downdate of [A] by all rows of [S] cannot succeed when [A'A - S'S] differs
    from a matrix of low rank only in its last diagonal entry *)
Lemma downdate_fails n m (A S : 'M[R]_n) (U : 'M[R]_(n, m)) : upper A -> (m.+1 < n)%N ->
  eqoff (S^T *m S) (A^T *m A - U *m U^T) -> cholupdate (A2 A) (A2 S) (-1) = Err NotANumber.
Proof.
move=> HA mn HS; case E: (cholupdate _ _ _) => [r|e]; last by rewrite (cholupdate_err E).
have n0 : (0 < n)%N by apply: leq_trans mn.
have [F _ [HF HI HG _]] := downdate_ok HA E; have [v [v0 vl Uv]] := low_rank U mn.
case/negP: v0; apply/eqP; apply: (inner_kernel n0 HF (HI n0) vl).
have Q0 : qf (F^T *m F) v = 0.
  rewrite (eqoff_qf HG vl) qfD qfN (eqoff_qf HS vl) qfD qfN opprB addrC subrK.
  by rewrite -{1}[U]mulmx1 qf_congr Uv qf0.
move: Q0; have -> : F^T *m F = F^T *m 1%:M *m F^T^T by rewrite mulmx1 trmxK.
rewrite qf_congr trmxK; apply: contra_eq => Fv; rewrite gt_eqF //.
by have [_ H] := pd1 R n; apply: H.
Qed.
End Low.
