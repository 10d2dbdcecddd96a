(** Rank-k updates of a triangular factor. *)
From Coq Require Import String List.
From mathcomp Require Import all_ssreflect all_algebra.
From mathcomp Require Import ring.
From Verif Require Import Prelude Zmod LinAlg Numpy NumpyFacts Standard Sqrt SqrtFacts SqrtUnscented.
Import GRing.Theory Num.Theory Order.Theory.

Set Implicit Arguments.
Unset Strict Implicit.
Unset Printing Implicit Defensive.
Local Open Scope ring_scope.

#[global] Arguments cu_inner : simpl never.
#[global] Arguments cu_outer : simpl never.
#[global] Arguments cholupdate : simpl never.

(** Specification: upper triangular, nothing below the diagonal *)
Definition upper (R : rcfType) n (A : 'M[R]_n) : Prop := forall i j : 'I_n, (j < i)%N -> A i j = 0.
(** [F] is the upper Cholesky factor of [P] *)
Definition is_chol (R : rcfType) n (P F : 'M[R]_n) : Prop :=
  [/\ upper F, forall i, 0 < F i i & F^T *m F = P].

Section Cu.
Variables (R : rcfType) (n : nat).
Implicit Types (A : 'M[R]_n) (x : 'cV[R]_n).

Lemma mgetv x (i : 'I_n) : mget x i 0 = x i 0. Proof. exact: (mgetE x i ord0). Qed.

(** the part of [x] not yet consumed *)
Definition rest k x : 'cV[R]_n := \col_j if (k <= j)%N then x j 0 else 0.

Section Step.
Variables (k : 'I_n) (sg : R) (A : 'M[R]_n) (x : 'cV[R]_n).
Let a := A k k.
Let r2 := a ^+ 2 + sg * x k 0 ^+ 2.
Let r := Num.sqrt r2.
Hypothesis (HA : upper A) (a0 : a != 0) (r20 : 0 < r2).
Let c := r / a.
Let s := x k 0 / a.
Let A' : 'M[R]_n := \matrix_(i, j)
  if (i == k :> nat) && (j == k :> nat) then r
  else if (i == k :> nat) && (k < j)%N then (A i j + sg * s * x j 0) / c else A i j.
Let x' : 'cV[R]_n := \col_j if (k < j)%N then c * x j 0 - s * mget A' k j else x j 0.

Lemma cu_stepE : cu_inner sg (A, x) k = Ok (A', x').
Proof.
rewrite /cu_inner mgetE mgetv -/a -/r2 ltNge (ltW r20) /= -/r.
by rewrite (negbTE a0) sqrtr_eq0 leNgt r20 /= andbF.
Qed.

Lemma r0 : r != 0. Proof. by rewrite sqrtr_eq0 leNgt r20. Qed.
Lemma rr : r ^+ 2 = r2. Proof. by rewrite sqr_sqrtr // ltW. Qed.

Lemma cu_upper : upper A'.
Proof.
move=> i j ji; rewrite mxE; case: (eqVneq (i : nat) k) => [e|ne] /=; last exact: HA.
by rewrite -e (ltn_eqF ji) ltnNge (ltnW ji) /=; apply: HA.
Qed.
Lemma cu_diag i : A' i i = if i == k then r else A i i.
Proof.
rewrite mxE -(inj_eq val_inj); case: (eqVneq (i : nat) k) => //= e.
Qed.

Lemma cu_pair i j : A' k i * A' k j + sg * rest k.+1 x' i 0 * rest k.+1 x' j 0 =
  A k i * A k j + sg * rest k x i 0 * rest k x j 0.
Proof.
have E l : A' k l = if (l < k)%N then 0 else if l == k then r else (A k l + sg * s * x l 0) / c.
  rewrite mxE eqxx /=; case: (ltngtP l k) => [lk|kl|e].
  - exact: HA.
  - by rewrite -(inj_eq val_inj) /= (gtn_eqF kl).
  - by rewrite -(inj_eq val_inj) /= e eqxx.
have EA l : A k l = if (l < k)%N then 0 else if l == k then a else A k l.
  case: (ltngtP l k) => [lk|kl|e]; first exact: HA.
  - by rewrite -(inj_eq val_inj) /= (gtn_eqF kl).
  - by have -> : l = k by [apply/val_inj]; rewrite eqxx.
have EX l : rest k.+1 x' l 0 = if (k < l)%N then c * x l 0 - s * A' k l else 0.
  by rewrite mxE; case: (ltnP k l) => // kl; rewrite mxE kl mgetE.
have ER l : rest k x l 0 = if (k <= l)%N then x l 0 else 0 by rewrite mxE.
have cc : c ^+ 2 = 1 + sg * s ^+ 2.
  by rewrite /c /s !expr_div_n rr /r2; field.
have c0 : c != 0 by rewrite mulf_neq0 ?invr_eq0 ?r0.
have ca : c * a = r by rewrite /c divfK.
have sa : s * a = x k 0 by rewrite /s divfK.
rewrite !EX !ER !E; rewrite [A k i]EA [A k j]EA.
case: (ltngtP i k) => [ik|ki|ei]; case: (ltngtP j k) => [jk|kj|ej] //=;
  rewrite ?(mul0r, mulr0, addr0) //.
- rewrite -!(inj_eq val_inj) /= ?(gtn_eqF ki) ?(gtn_eqF kj).
  move: (A k i) (A k j) (x i 0) (x j 0) => p q y z.
  have -> : sg * y * z = sg * (c ^+ 2 - sg * s ^+ 2) * y * z by rewrite cc addrK mulr1.
  move: cc c0; move: c s sg => C S0 G H C0.
  have -> : (p + G * S0 * y) / C * ((q + G * S0 * z) / C) =
    (p + G * S0 * y) * (q + G * S0 * z) * (C ^+ 2 - G * S0 ^+ 2) / C ^+ 2.
    by rewrite H addrK mulr1 -H; field.
  by field.
- have -> : j = k by apply/val_inj.
  rewrite -!(inj_eq val_inj) /= (gtn_eqF ki) eqxx -ca -sa.
  move: (A k i) (x i 0) => p y; field.
  by [].
- have -> : i = k by apply/val_inj.
  rewrite -!(inj_eq val_inj) /= (gtn_eqF kj) eqxx -ca -sa.
  move: (A k j) (x j 0) => p y; field.
  by [].
- have -> : i = k by apply/val_inj.
  have -> : j = k by apply/val_inj.
  by rewrite eqxx -!expr2 rr /r2 mulrA.
Qed.

Lemma cu_gram : A'^T *m A' + sg *: (rest k.+1 x' *m (rest k.+1 x')^T) =
  A^T *m A + sg *: (rest k x *m (rest k x)^T).
Proof.
apply/matrixP=> i j.
have G (B : 'M[R]_n) (v : 'cV[R]_n) : (B^T *m B + sg *: (v *m v^T)) i j =
   \sum_(l | l != k) B l i * B l j + (B k i * B k j + sg * v i 0 * v j 0).
  rewrite !mxE big_ord1 (bigD1 k) //= !mxE mulrA -addrA addrCA; congr (_ + _).
  by apply: eq_bigr => l _; rewrite !mxE.
rewrite !G cu_pair; congr (_ + _); apply: eq_bigr => l lk.
by rewrite !mxE (negbTE (lk : (l : nat) != k)) /=.
Qed.
Lemma cu_step : exists A1 x1, [/\ cu_inner sg (A, x) k = Ok (A1, x1), upper A1,
  forall i, A1 i i = if i == k then r else A i i &
  A1^T *m A1 + sg *: (rest k.+1 x1 *m (rest k.+1 x1)^T) = A^T *m A + sg *: (rest k x *m (rest k x)^T)].
Proof. exists A', x'; split; [exact: cu_stepE|exact: cu_upper|exact: cu_diag|exact: cu_gram]. Qed.
End Step.

(** the pivot stays positive *)
Lemma upper_det A : upper A -> \det A = \prod_i A i i.
Proof.
move=> HA; rewrite -det_tr det_trig; first by apply: eq_bigr => i _; rewrite mxE.
by apply/is_trig_mxP => i j ij; rewrite mxE; apply: HA.
Qed.
Lemma upper_unit A : upper A -> (forall i, A i i != 0) -> A \in unitmx.
Proof.
move=> HA Hd; rewrite unitmxE unitfE upper_det //; apply/prodf_neq0 => i _; exact: Hd.
Qed.
Lemma upper_e A (k : 'I_n) : upper A -> (forall i, A i i != 0) ->
  exists2 v : 'cV[R]_n, A *m v = delta_mx k 0 & (forall j : 'I_n, (k < j)%N -> v j 0 = 0) /\ v k 0 = (A k k)^-1.
Proof.
move=> HA Hd; have uA := upper_unit HA Hd.
pose v : 'cV[R]_n := invmx A *m delta_mx k 0.
have Ev : A *m v = delta_mx k 0 by rewrite mulKVmx.
move: v Ev => v Ev {uA}.
have top d : forall j : 'I_n, (n - j <= d)%N -> (k < j)%N -> v j 0 = 0.
  elim: d => [|d IH] j; first by rewrite leqn0 subn_eq0 leqNgt ltn_ord.
  move=> Hj kj; have /matrixP/(_ j 0) := Ev; rewrite !mxE eqxx andbT -(inj_eq val_inj) (gtn_eqF kj).
  rewrite (bigD1 j) //= big1 ?addr0.
    by move/eqP; rewrite mulf_eq0 (negbTE (Hd j)) /= => /eqP.
  move=> i ij; case: (ltngtP i j) => [lt|gt|e].
  - by rewrite HA ?mul0r.
  - rewrite IH ?mulr0 ?(ltn_trans kj gt) //.
    by rewrite -ltnS (leq_trans _ Hj) // ltn_sub2l.
  - by case/negP: ij; apply/eqP/val_inj.
exists v => //; split=> [j kj|]; first exact: (top n j (leq_subr _ _) kj).
have /matrixP/(_ k 0) := Ev; rewrite !mxE !eqxx (bigD1 k) //= big1 ?addr0.
  by move=> E; apply: (mulfI (Hd k)); rewrite E mulfV.
move=> i ik; case: (ltngtP i k) => [lt|gt|e]; first by rewrite HA ?mul0r.
- by rewrite (top n i (leq_subr _ _) gt) mulr0.
- by case/negP: ik; apply/eqP/val_inj.
Qed.

Lemma pivot (k : 'I_n) sg A x : upper A -> (forall i, A i i != 0) ->
  pd (A^T *m A + sg *: (rest k x *m (rest k x)^T)) -> 0 < A k k ^+ 2 + sg * x k 0 ^+ 2.
Proof.
move=> HA Hd HB; have [v Ev [v0 vk]] := upper_e k HA Hd.
have vn : v != 0.
  by apply/eqP=> E; move: vk; rewrite E mxE => /eqP; rewrite eq_sym invr_eq0 (negbTE (Hd k)).
have := HB.2 v vn; rewrite qfD qfZ.
have -> : qf (A^T *m A) v = 1.
  have -> : A^T *m A = A^T *m 1%:M *m A^T^T by rewrite mulmx1 trmxK.
  rewrite qf_congr trmxK Ev sqn_sum (bigD1 k) //= big1.
    by rewrite mxE !eqxx expr1n addr0.
  by move=> i ik; rewrite mxE (negbTE ik) expr0n.
have -> : qf (rest k x *m (rest k x)^T) v = (x k 0 / A k k) ^+ 2.
  rewrite -{1}[rest k x]mulmx1 qf_congr sqn_sum big_ord1 mxE (bigD1 k) //= big1.
    by rewrite addr0 !mxE leqnn vk.
  move=> i ik; rewrite !mxE; case: (leqP k i) => [ki|]; last by rewrite mul0r.
  by rewrite v0 ?mulr0 // ltn_neqAle ki andbT eq_sym (inj_eq val_inj).
move=> H; have a0 : 0 < A k k ^+ 2 by rewrite lt0r sqr_ge0 sqrf_eq0 Hd.
have -> : A k k ^+ 2 + sg * x k 0 ^+ 2 = A k k ^+ 2 * (1 + sg * (x k 0 / A k k) ^+ 2).
  by rewrite expr_div_n; field; exact: Hd.
exact: mulr_gt0.
Qed.

(** one vector *)
Lemma cu_vec sg A x : upper A -> (forall i, A i i != 0) -> pd (A^T *m A + sg *: (x *m x^T)) ->
  exists2 A', (exists x', foldr_res (@cu_inner R n sg) (A, x) (iota 0 n) = Ok (A', x')) &
    is_chol (A^T *m A + sg *: (x *m x^T)) A'.
Proof.
move=> HA Hd HB; set B := _ + _ in HB *.
have E0 : rest 0 x = x by apply/matrixP=> i j; rewrite (ord1 j) mxE.
have G d k A1 x1 : (k + d = n)%N -> upper A1 -> (forall i : 'I_n, if (i < k)%N then 0 < A1 i i else A1 i i != 0) ->
    A1^T *m A1 + sg *: (rest k x1 *m (rest k x1)^T) = B ->
    exists2 A', (exists x', foldr_res (@cu_inner R n sg) (A1, x1) (iota k d) = Ok (A', x')) & is_chol B A'.
  elim: d k A1 x1 => [|d IH] k A1 x1 kd H1 H2 H3.
    exists A1; first by exists x1.
    rewrite addn0 in kd; split=> // [i|]; first by have := H2 i; rewrite kd ltn_ord.
    rewrite -H3; have -> : rest k x1 = 0 by apply/matrixP=> i j; rewrite !mxE leqNgt kd ltn_ord.
    by rewrite mul0mx scaler0 addr0.
  have kn : (k < n)%N by rewrite -kd -[X in (X < _)%N]addn0 ltn_add2l.
  have H2' i : A1 i i != 0 by have := H2 i; case: ifP => // _ /lt0r_neq0.
  have Pk : 0 < A1 (Ordinal kn) (Ordinal kn) ^+ 2 + sg * x1 (Ordinal kn) 0 ^+ 2.
    by apply: pivot => //=; rewrite H3.
  have [A2 [x2 [E2 U2 D2 G2]]] := cu_step H1 (H2' _) Pk.
  rewrite [iota _ _]/= [foldr_res _ _ _]/= -[cu_inner _ _ _]/(cu_inner sg (A1, x1) (Ordinal kn)) E2 bO.
  apply: IH; [by rewrite addSnnS|exact: U2| |by rewrite G2].
  move=> i; rewrite D2 ltnS leq_eqVlt -(inj_eq val_inj) /=.
  case: (eqVneq (i : nat) k) => [_|_] /=; first by rewrite sqrtr_gt0.
  exact: H2.
apply: (G n 0%N) => //; first by rewrite E0.
Qed.

Lemma upper_pd A : upper A -> (forall i, A i i != 0) -> pd (A^T *m A).
Proof.
move=> HA Hd; apply: psd_unit_pd; first exact: psd_gramT.
by rewrite unitmx_mul unitmx_tr upper_unit.
Qed.
Lemma is_chol_pd A P : is_chol P A -> pd P.
Proof. by case=> HA Hd <-; apply: upper_pd => // i; rewrite gt_eqF. Qed.

(** all vectors *)
Definition xrow v (X : 'M[R]_(v, n)) i : 'cV[R]_n := \col_j mget X i j.
Lemma cu_rows sg v (X : 'M[R]_(v, n)) A i d : upper A -> (forall l, A l l != 0) ->
  pd (A^T *m A + sg *: \sum_(i <= l < i + d) (xrow X l *m (xrow X l)^T)) ->
  exists2 A', foldr_res (@cu_outer R n sg v X) A (iota i d) = Ok A' &
    if d is 0 then A' = A else
    is_chol (A^T *m A + sg *: \sum_(i <= l < i + d) (xrow X l *m (xrow X l)^T)) A'.
Proof.
elim: d i A => [|d IH] i A HA Hd HB; first by exists A.
rewrite /=; move: HB; rewrite big_ltn; last by rewrite addnS ltnS leq_addr.
rewrite -addSnnS scalerDr addrA => HB.
have HB1 : pd (A^T *m A + sg *: (xrow X i *m (xrow X i)^T)).
  case: (lerP 0 sg) => [s0|s0].
    by apply: pdDr; [exact: upper_pd|apply: psdZ => //; exact: psd_gram].
  have -> : A^T *m A + sg *: (xrow X i *m (xrow X i)^T) =
    A^T *m A + sg *: (xrow X i *m (xrow X i)^T) + sg *: (\sum_(i.+1 <= l < i.+1 + d) xrow X l *m (xrow X l)^T)
    + (- sg) *: (\sum_(i.+1 <= l < i.+1 + d) xrow X l *m (xrow X l)^T) by rewrite scaleNr addrK.
  apply: pdDr => //; apply: psdZ; first by rewrite oppr_ge0 ltW.
  by apply: psd_sum => l _; exact: psd_gram.
have [A1 [x' E1] C1] := cu_vec HA Hd HB1.
rewrite {1}/cu_outer -/(xrow X i) E1 /=; case: (C1) => U1 D1 G1.
have D1' l : A1 l l != 0 by rewrite gt_eqF.
rewrite -G1 in HB *; have [A2 E2 H2] := IH i.+1 A1 U1 D1' HB.
exists A2 => //; case: d {IH HB E2} H2 => [->|d //].
by rewrite addn0 big_geq // scaler0 addr0 G1.
Qed.

Lemma xrow_sum v (X : 'M[R]_(v, n)) : \sum_(0 <= l < v) (xrow X l *m (xrow X l)^T) = X^T *m X.
Proof.
rewrite big_mkord; apply/matrixP=> a b; rewrite summxE mxE; apply: eq_bigr => l _.
by rewrite !mxE big_ord1 !mxE !mgetE.
Qed.

Lemma cholupdateE v (X : 'M[R]_(v, n)) A w :
  cholupdate (A2 A) (A2 X) w =
  (A' <-- foldr_res (@cu_outer R n (Num.sg w) v (Num.sqrt `|w| *: X)) A (iota 0 v) ;; Ok (A2 A')).
Proof. by rewrite /cholupdate; case: eqP => // e; rewrite castmx_id. Qed.

Lemma cholupdate_ok v (X : 'M[R]_(v, n)) A w : upper A -> (forall i, A i i != 0) ->
  pd (A^T *m A + w *: (X^T *m X)) ->
  exists2 F, cholupdate (A2 A) (A2 X) w = Ok (A2 F) &
    (if v is 0 then F = A else is_chol (A^T *m A + w *: (X^T *m X)) F).
Proof.
move=> HA Hd HB; rewrite cholupdateE.
have E : w *: (X^T *m X) = Num.sg w *: \sum_(0 <= l < 0 + v)
    (xrow (Num.sqrt `|w| *: X) l *m (xrow (Num.sqrt `|w| *: X) l)^T).
  rewrite add0n xrow_sum linearZ /= [(_ *: X)^T]linearZ /= -scalemxAl !scalerA; congr (_ *: _).
  by rewrite -expr2 sqr_sqrtr ?normr_ge0 // -numEsg.
rewrite E in HB *; have [F E1 H] := cu_rows HA Hd HB.
by exists F; rewrite ?E1.
Qed.
Lemma cholupdate_chol v (X : 'M[R]_(v, n)) A w : upper A -> (forall i, 0 < A i i) ->
  pd (A^T *m A + w *: (X^T *m X)) ->
  exists2 F, cholupdate (A2 A) (A2 X) w = Ok (A2 F) & is_chol (A^T *m A + w *: (X^T *m X)) F.
Proof.
move=> HA Hd HB; have Hd' i : A i i != 0 by rewrite gt_eqF.
have [F E H] := cholupdate_ok HA Hd' HB; exists F => //.
case: v X {HB E} H => [|v] X //= ->; split=> //.
have -> : X^T *m X = 0 by apply/matrixP=> i j; rewrite !mxE big_ord0.
by rewrite scaler0 addr0.
Qed.
End Cu.
