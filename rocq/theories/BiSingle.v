(** The rank-one measurement update on UDU' factors. *)
From Coq Require Import String List.
From mathcomp Require Import all_ssreflect all_algebra.
From mathcomp Require Import ring.
From Verif Require Import Prelude Zmod LinAlg Numpy NumpyFacts Standard Sqrt SqrtFacts Bierman BiUdu.
Import GRing.Theory Num.Theory Order.Theory.

Set Implicit Arguments.
Unset Strict Implicit.
Unset Printing Implicit Defensive.
Local Open Scope ring_scope.

(** Specification of the exact scalar update of a covariance *)
Definition rank1_cov (R : rcfType) n (P : 'M[R]_n) (h : 'cV[R]_n) (r : R) : 'M[R]_n :=
  P - (qf P h + r)^-1 *: (P *m h *m (P *m h)^T).
Definition rank1_gain (R : rcfType) n (P : 'M[R]_n) (h : 'cV[R]_n) (r : R) : 'cV[R]_n :=
  (qf P h + r)^-1 *: (P *m h).

Section Single.
Variables (R : rcfType) (n : nat).
Variables (U : 'M[R]_n) (D h : 'cV[R]_n) (r : R).
Hypotheses (UU : unit_upper U) (D0 : forall i, 0 <= D i 0) (r0 : 0 < r).
Let f := U^T *m h.
Let g := diag_mx D^T *m f.

Lemma below_rec (V : zmodType) (F : 'I_n -> V) (j : 'I_n) :
  \sum_(l < n | (l < j.+1)%N) F l = \sum_(l < n | (l < j)%N) F l + F j.
Proof.
rewrite (bigD1 j) //= addrC; congr (_ + _); apply: eq_bigl => l.
by rewrite ltnS ltn_neqAle andbC.
Qed.
Lemma below_0 (V : zmodType) (F : 'I_n -> V) : \sum_(l < n | (l < 0)%N) F l = 0.
Proof. by rewrite big1. Qed.

Lemma below_n (V : zmodType) (F : 'I_n -> V) : \sum_(l < n | (l < n)%N) F l = \sum_l F l.
Proof. by apply: eq_bigl => l; rewrite ltn_ord. Qed.

Definition sG (j : nat) : R := r + \sum_(l < n | (l < j)%N) g l 0 * f l 0.
Definition sK (j : nat) : 'cV[R]_n := \sum_(l < n | (l < j)%N) g l 0 *: col l U.

Lemma gE l : g l 0 = D l 0 * f l 0.
Proof.
rewrite /g mxE (bigD1 l) //= big1 ?addr0; last first.
  by move=> i ne; rewrite !mxE eq_sym (negbTE ne) mulr0n mul0r.
by rewrite !mxE eqxx mulr1n.
Qed.
Lemma sG0 : sG 0 = r. Proof. by rewrite /sG below_0 addr0. Qed.
Lemma sGS (j : 'I_n) : sG j.+1 = sG j + g j 0 * f j 0.
Proof. by rewrite /sG below_rec addrA. Qed.
Lemma sG_gt0 j : 0 < sG j.
Proof.
apply: ltr_paddr => //; apply: sumr_ge0 => l _; rewrite gE -mulrA mulr_ge0 //.
by rewrite -expr2 sqr_ge0.
Qed.
Lemma sK0 : sK 0 = 0. Proof. exact: below_0. Qed.
Lemma sKS (j : 'I_n) : sK j.+1 = sK j + g j 0 *: col j U.
Proof. exact: below_rec. Qed.

Lemma gcolE l a c : (c *: col l U) a 0 = c * U a l.
Proof. by rewrite mxE [X in _ * X = _]mxE. Qed.
Lemma sKSa (j : 'I_n) a : sK j.+1 a 0 = sK j a 0 + D j 0 * f j 0 * U a j.
Proof. by rewrite sKS -gE mxE [X in _ + X = _]mxE [X in _ + _ * X = _]mxE. Qed.

Lemma colgetE (M : 'M[R]_n) (j : 'I_n) : colget M j = col j M.
Proof. by apply/matrixP => a b; rewrite !mxE mgetO. Qed.
Lemma vgetE (v : 'cV[R]_n) (j : 'I_n) : vget v j = v j 0.
Proof. exact: (mgetE v j ord0). Qed.

(** the loop state after the columns up to [q] *)
Definition st_at (q : nat) : single_st R n :=
  SingleSt (\col_a if (a <= q)%N then sG a.+1 else 0)
           (\matrix_(a, b) if (b <= q)%N then U a b - f b 0 / sG b * sK b a 0 else 0)
           (\col_a if (a <= q)%N then D a 0 * sG a / sG a.+1 else 0)
           (sK q.+1).

Lemma single_ext (s t : single_st R n) :
  s_gam s = s_gam t -> s_U s = s_U t -> s_D s = s_D t -> s_k s = s_k t -> s = t.
Proof. by case: s t => [? ? ? ?] [? ? ? ?] /= -> -> -> ->. Qed.

Lemma le_ext (V : Type) (q : nat) (a : 'I_n) (x y z : V) : (a = q.+1 :> nat -> x = y) ->
  (if (a == q.+1 :> nat) then x else if (a <= q)%N then y else z) = if (a <= q.+1)%N then y else z.
Proof.
move=> H; rewrite (leq_eqVlt a q.+1) ltnS.
by case: (eqVneq (a : nat) q.+1) => [e|ne] //; apply: H.
Qed.

Lemma step_ok q : (q.+1 < n)%N -> single_step U D f g (st_at q) q.+1 = st_at q.+1.
Proof.
move=> lt; pose j := Ordinal lt; pose i := Ordinal (ltnW lt).
have vj v : vget v q.+1 = v j 0 := vgetE v j.
have vi v : vget v q = v i 0 := vgetE v i.
have cj M : colget M q.+1 = col j M := colgetE M j.
rewrite /single_step [q.+1.-1]/=.
have Egi : vget (s_gam (st_at q)) q = sG j by rewrite vi mxE leqnn.
have Egam : vset (s_gam (st_at q)) q.+1 (vget (s_gam (st_at q)) q + vget g q.+1 * vget f q.+1) =
            s_gam (st_at q.+1).
  rewrite Egi !vj -(sGS j); apply/matrixP => a b; rewrite !mxE.
  by apply: le_ext => e; rewrite e.
rewrite Egam.
have -> : vget (s_gam (st_at q.+1)) q = sG j by rewrite vi mxE leqnSn.
have -> : vget (s_gam (st_at q.+1)) q.+1 = sG j.+1 by rewrite vj mxE leqnn.
apply: single_ext => //=.
- rewrite cj vj; apply/matrixP => a b; rewrite !mxE.
  by apply: le_ext => e; rewrite (_ : b = j) //; exact: val_inj.
- rewrite vj; apply/matrixP => a b; rewrite !mxE.
  by apply: le_ext => e; rewrite (_ : a = j) //; exact: val_inj.
- by rewrite cj vj -(sKS j).
Qed.

Lemma col0_e (n0 : (0 < n)%N) a : U a (Ordinal n0) = (a == Ordinal n0)%:R.
Proof.
case: UU => U1 U0; case: (eqVneq a (Ordinal n0)) => [->|ne]; first by rewrite U1.
by rewrite U0 //= lt0n.
Qed.

Lemma init_st (n0 : (0 < n)%N) :
  SingleSt (vset 0 0 (r + vget g 0 * vget f 0)) (mset 0 0 0 1)
    (vset 0 0 (vget D 0 * r / vget (vset (0 : 'cV[R]_n) 0 (r + vget g 0 * vget f 0)) 0))
    (vset 0 0 (vget g 0)) = st_at 0.
Proof.
pose o := Ordinal n0; have vo v : vget v 0 = v o 0 := vgetE v o.
have Eg : r + vget g 0 * vget f 0 = sG 1.
  by rewrite !vo -[1%N]/(o.+1) sGS sG0.
have lo (a : 'I_n) : (a <= 0)%N = (a == 0 :> nat)%N by rewrite leqn0.
apply: single_ext => /=; rewrite ?Eg.
- by apply/matrixP => a b; rewrite !mxE lo; case: eqP => // ->.
- apply/matrixP => a b; rewrite !mxE lo andbC; case: (eqVneq (b : nat) 0%N) => //= e.
  rewrite e sK0 mxE mulr0 subr0 (_ : b = o); last exact: val_inj.
  by rewrite col0_e -val_eqE /=; case: eqP.
- rewrite !vo; apply/matrixP => a b; rewrite !mxE lo; case: (eqVneq (a : nat) 0%N) => //= e.
  rewrite (_ : a = o); last exact: val_inj.
  by rewrite /= sG0.
- rewrite -[1%N]/(o.+1) sKS sK0 add0r vo; apply/matrixP => a b.
  rewrite [in LHS]mxE [in RHS]mxE [X in _ = _ * X]mxE (col0_e n0) -val_eqE /= mxE.
  by case: eqP; rewrite ?mulr1 ?mulr0 ?mxE.
Qed.

Lemma fold_ok (n0 : (0 < n)%N) q : (q < n)%N ->
  foldl (single_step U D f g) (st_at 0) (iota 1 q) = st_at q.
Proof.
elim: q => [|q IH] lt //; rewrite -{1}(addn1 q) iotaD foldl_cat IH; last exact: ltnW.
by rewrite /= add1n step_ok.
Qed.

Let P : 'M[R]_n := U *m diag_mx D^T *m U^T.
Lemma Ph : P *m h = sK n.
Proof.
rewrite /P -2!mulmxA -/f -/g; apply/matrixP => a b; rewrite mxE summxE (ord1 b).
rewrite [in RHS](eq_bigl xpredT) => [|l]; last by rewrite ltn_ord.
by apply: eq_bigr => l _; rewrite !mxE mulrC.
Qed.
Lemma hPh : qf P h + r = sG n.
Proof.
rewrite /qf /bf /sG addrC; congr (_ + _).
rewrite /P (_ : h^T *m _ *m h = f^T *m g); last by rewrite /f /g trmx_mul trmxK !mulmxA.
rewrite /sc mxE [in RHS](eq_bigl xpredT) => [|l]; last by rewrite ltn_ord.
by apply: eq_bigr => l _; rewrite mxE mulrC.
Qed.
Lemma alphaE : (f^T *m g) 0 0 + r = sG n.
Proof.
by rewrite -hPh /qf /bf /P (_ : h^T *m _ *m h = f^T *m g) // /f /g trmx_mul trmxK !mulmxA.
Qed.

(** sum of the updated outer products *)
Lemma telescope j a b : (j <= n)%N ->
  \sum_(l < n | (l < j)%N) (D l 0 * sG l / sG l.+1) * (U a l - f l 0 / sG l * sK l a 0)
                              * (U b l - f l 0 / sG l * sK l b 0) =
  \sum_(l < n | (l < j)%N) D l 0 * U a l * U b l - (sG j)^-1 * (sK j a 0 * sK j b 0).
Proof.
elim: j => [|j IH] lt; first by rewrite !below_0 sK0 !mxE !mulr0 subr0.
pose i := Ordinal lt; have ei : j = i by [].
rewrite ei !below_rec -ei (IH (ltnW lt)) ei !sKSa sGS gE.
have : sG i + D i 0 * f i 0 * f i 0 != 0 by rewrite -gE -sGS gt_eqF ?sG_gt0.
have : sG i != 0 by rewrite gt_eqF ?sG_gt0.
move: (sG i) (D i 0) (f i 0) (U a i) (U b i) (sK i a 0) (sK i b 0) => x y z u v p q n1 n2.
move: (\sum_(l < n | _) _) => s; field.
by rewrite n1 n2.
Qed.

Lemma core_single (n0 : (0 < n)%N) : let st := (single_core U D h r).1 in let alpha := (single_core U D h r).2 in
  [/\ forall i, s_gam st i 0 != 0, alpha = qf P h + r, 0 < alpha, s_k st = P *m h &
      is_udu (rank1_cov P h r) (s_U st) (s_D st)].
Proof.
rewrite /single_core -/f -/g (init_st n0) (fold_ok n0) ?prednK // /fst /snd alphaE.
have le (a : 'I_n) : (a <= n.-1)%N by rewrite -ltnS prednK.
split.
- by move=> i; rewrite mxE le gt_eqF ?sG_gt0.
- by rewrite hPh.
- exact: sG_gt0.
- by rewrite /= prednK // Ph.
split.
- case: UU => U1 U0; split=> [i|i j ji] /=; rewrite mxE le.
    rewrite U1 (_ : sK i i 0 = 0) ?mulr0 ?subr0 //.
    by rewrite /sK summxE big1 // => l li; rewrite gcolE U0 ?mulr0.
  rewrite U0 // (_ : sK j i 0 = 0) ?mulr0 ?subr0 //.
  by rewrite /sK summxE big1 // => l li; rewrite gcolE U0 ?mulr0 // (ltn_trans li).
- move=> i /=; rewrite mxE le; apply: divr_ge0; last exact/ltW/sG_gt0.
  by apply: mulr_ge0 => //; exact/ltW/sG_gt0.
rewrite /rank1_cov hPh Ph /P !usumE; apply/matrixP => a b; rewrite !mxE.
rewrite big_ord_recl big_ord0 addr0 [(sK n)^T _ _]mxE.
have := telescope a b (leqnn n).
rewrite !below_n => <-.
by apply: eq_bigr => l _; rewrite !mxE !le.
Qed.
End Single.

Section Api.
Variables (R : rcfType) (n : nat).
Lemma single_ok (P U : 'M[R]_n) (D h : 'cV[R]_n) (r : R) : (0 < n)%N -> is_udu P U D -> 0 < r ->
  exists U' D', bi_single (A2 U, A1 D) (A1 h) r = Ok ((A2 U', A1 D'), A1 (rank1_gain P h r)) /\
                is_udu (rank1_cov P h r) U' D'.
Proof.
move=> n0 [UU D0 EP] r0; have [] := core_single h UU D0 r0 n0.
rewrite /bi_single; lazy beta iota delta [fst snd]; case: eqP => // e1.
rewrite ?castmx_id (gtn_eqF n0); case: (single_core U D h r) => st alpha.
rewrite EP /fst /snd => H1 E2 H2 E3 H3.
have -> : [exists i, s_gam st i 0 == 0] = false.
  by apply/existsP => -[i]; rewrite (negbTE (H1 i)).
rewrite (gt_eqF H2) /=; exists (s_U st), (s_D st); split=> //.
by rewrite E2 E3.
Qed.
End Api.
