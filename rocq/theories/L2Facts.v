(** Covariance algebra. *)
From mathcomp Require Import all_ssreflect all_algebra.
From mathcomp Require Import ring.
From Verif Require Import Zmod LinAlg Numpy Model SpecL2.
Import GRing.Theory Num.Theory.

Set Implicit Arguments.
Unset Strict Implicit.
Unset Printing Implicit Defensive.
Local Open Scope ring_scope.

Section Alg.
Variables (R : rcfType) (Sp : l2space R).
Notation Omega := (Om Sp).

(** random vectors with their integrability proof *)
Record RV n := MkRV { rvf :> Omega -> 'cV[R]_n; rvP : rvec rvf }.

Lemma L2_add (f g : Omega -> R) : L2 f -> L2 g -> L2 (fun w => f w + g w).
Proof. by move=> Hf Hg; apply: L2_ext (L2_lin 1 Hf Hg) => w; rewrite mul1r. Qed.
Lemma L2_scale a (f : Omega -> R) : L2 f -> L2 (fun w => a * f w).
Proof. by move=> Hf; apply: L2_ext (L2_lin a Hf (L2_const Sp 0)) => w; rewrite addr0. Qed.
Lemma L2_sum (I : Type) (r : seq I) (P : I -> bool) (f : I -> Omega -> R) :
  (forall i, P i -> L2 (f i)) -> L2 (fun w => \sum_(i <- r | P i) f i w).
Proof.
move=> H; elim: r => [|i r IH].
  by apply: L2_ext (L2_const Sp 0) => w; rewrite big_nil.
case Pi: (P i).
  by apply: L2_ext (L2_add (H i Pi) IH) => w; rewrite big_cons Pi.
by apply: L2_ext IH => w; rewrite big_cons Pi.
Qed.

Lemma Ex_mulC (f g : Omega -> R) : Ex (fun w => f w * g w) = Ex (fun w => g w * f w).
Proof. by apply: Ex_ext => w; rewrite mulrC. Qed.
Lemma Ex_addl (f g h : Omega -> R) : L2 f -> L2 g -> L2 h ->
  Ex (fun w => (f w + g w) * h w) = Ex (fun w => f w * h w) + Ex (fun w => g w * h w).
Proof.
move=> Hf Hg Hh; rewrite -[X in _ = X + _]mul1r -Ex_lin //.
by apply: Ex_ext => w; rewrite mul1r.
Qed.
Lemma Ex_0 (h : Omega -> R) : L2 h -> Ex (fun w => 0 * h w) = 0.
Proof.
move=> Hh; have := Ex_lin (-1) Hh Hh Hh.
rewrite (_ : Ex (fun w => (-1 * h w + h w) * h w) = Ex (fun w => 0 * h w)); last first.
  by apply: Ex_ext => w; rewrite mulN1r addNr.
by move=> ->; rewrite mulN1r addNr.
Qed.
Lemma Ex_scalel a (f h : Omega -> R) : L2 f -> L2 h ->
  Ex (fun w => (a * f w) * h w) = a * Ex (fun w => f w * h w).
Proof.
move=> Hf Hh; have H0 := Ex_0 Hh.
have := Ex_lin a Hf (L2_const Sp 0) Hh; rewrite H0 addr0 => <-.
by apply: Ex_ext => w; rewrite addr0.
Qed.
Lemma Ex_suml (I : Type) (r : seq I) (P : I -> bool) (f : I -> Omega -> R) (h : Omega -> R) :
  (forall i, P i -> L2 (f i)) -> L2 h ->
  Ex (fun w => (\sum_(i <- r | P i) f i w) * h w) = \sum_(i <- r | P i) Ex (fun w => f i w * h w).
Proof.
move=> Hf Hh; elim: r => [|i r IH].
  rewrite big_nil -[RHS](Ex_0 Hh); apply: Ex_ext => w; by rewrite big_nil.
rewrite big_cons; case Pi: (P i).
  rewrite -IH -(Ex_addl (Hf i Pi) (L2_sum r Hf) Hh).
  by apply: Ex_ext => w; rewrite big_cons Pi.
by rewrite -IH; apply: Ex_ext => w; rewrite big_cons Pi.
Qed.

Lemma rv_const_subproof n (c : 'cV[R]_n) : rvec (fun _ : Omega => c).
Proof. by move=> i; exact: L2_const. Qed.
Definition rvc n c : RV n := MkRV (@rv_const_subproof n c).
Lemma rv_add_subproof n (X Y : RV n) : rvec (fun w => X w + Y w).
Proof. by move=> i; apply: L2_ext (L2_add (rvP X i) (rvP Y i)) => w; rewrite mxE. Qed.
Definition rva n (X Y : RV n) : RV n := MkRV (rv_add_subproof X Y).
Lemma rv_mul_subproof n p (A : 'M[R]_(p, n)) (X : RV n) : rvec (fun w => A *m X w).
Proof.
move=> i; apply: L2_ext (L2_sum (index_enum _) (P := xpredT) (f := fun j w => A i j * X w j 0) _).
  by move=> w; rewrite mxE.
by move=> j _; apply: L2_scale; exact: rvP.
Qed.
Definition rvm n p (A : 'M[R]_(p, n)) (X : RV n) : RV p := MkRV (rv_mul_subproof A X).
Definition rvo n (X : RV n) : RV n := rvm (- 1%:M) X.
Definition rvs n (X Y : RV n) : RV n := rva X (rvo Y).
Lemma rvsE n (X Y : RV n) w : rvs X Y w = X w - Y w.
Proof. by rewrite /= mulNmx mul1mx. Qed.

Lemma mom_ext n p (X X' : Omega -> 'cV[R]_n) (Y Y' : Omega -> 'cV[R]_p) :
  X =1 X' -> Y =1 Y' -> mom X Y = mom X' Y'.
Proof.
by move=> H H'; apply/matrixP=> i j; rewrite !mxE; apply: Ex_ext => w; rewrite H H'.
Qed.
Lemma mean_ext n (X X' : Omega -> 'cV[R]_n) : X =1 X' -> mean X = mean X'.
Proof. by move=> H; apply/matrixP=> i j; rewrite !mxE; apply: Ex_ext => w; rewrite H. Qed.
Lemma cov_ext n p (X X' : Omega -> 'cV[R]_n) (Y Y' : Omega -> 'cV[R]_p) :
  X =1 X' -> Y =1 Y' -> cov X Y = cov X' Y'.
Proof.
move=> H H'; apply: mom_ext => w; rewrite ?H ?H'; congr (_ - _); exact: mean_ext.
Qed.
Lemma rvec_ext n (X X' : Omega -> 'cV[R]_n) : X =1 X' -> rvec X -> rvec X'.
Proof. by move=> H HX i; apply: L2_ext (HX i) => w; rewrite H. Qed.

Lemma mom_tr n p (X : Omega -> 'cV[R]_n) (Y : Omega -> 'cV[R]_p) : (mom X Y)^T = mom Y X.
Proof. by apply/matrixP=> i j; rewrite !mxE Ex_mulC. Qed.
Lemma momDl n p (X X' : RV n) (Y : RV p) : mom (rva X X') Y = mom X Y + mom X' Y.
Proof.
apply/matrixP=> i j; rewrite !mxE -Ex_addl; try exact: rvP.
by apply: Ex_ext => w; rewrite mxE.
Qed.
Lemma momDr n p (X : RV n) (Y Y' : RV p) : mom X (rva Y Y') = mom X Y + mom X Y'.
Proof. by rewrite -mom_tr momDl linearD /= !mom_tr. Qed.
Lemma momMl n p q (A : 'M[R]_(q, n)) (X : RV n) (Y : RV p) : mom (rvm A X) Y = A *m mom X Y.
Proof.
apply/matrixP=> i j; rewrite !mxE.
transitivity (Ex (fun w => (\sum_k A i k * X w k 0) * Y w j 0)).
  by apply: Ex_ext => w; rewrite mxE.
rewrite Ex_suml; last exact: rvP; last by move=> k _; apply: L2_scale; exact: rvP.
by apply: eq_bigr => k _; rewrite mxE Ex_scalel //; exact: rvP.
Qed.
Lemma momMr n p q (A : 'M[R]_(q, p)) (X : RV n) (Y : RV p) : mom X (rvm A Y) = mom X Y *m A^T.
Proof. by rewrite -mom_tr momMl trmx_mul mom_tr. Qed.

Definition one1 : RV 1 := rvc 1%:M.
Lemma mean_mom n (X : RV n) : mean X = mom X one1.
Proof.
apply/matrixP=> i j; rewrite !mxE; apply: Ex_ext => w.
by rewrite !mxE (ord1 j) eqxx mulr1.
Qed.
Lemma mom_const1 n (c : 'cV[R]_n) : mom (rvc c) one1 = c.
Proof.
rewrite (_ : mom (rvc c) one1 = mom (rvm c one1) one1); last first.
  by apply: mom_ext => w //=; rewrite mulmx1.
rewrite momMl (_ : mom one1 one1 = 1%:M) ?mulmx1 //.
apply/matrixP=> i j; rewrite [RHS]mxE [LHS]mxE (ord1 i) (ord1 j) /= -[RHS](Ex_one Sp).
by apply: Ex_ext => w; rewrite /= mxE mulr1.
Qed.
Lemma mean_c n (c : 'cV[R]_n) : mean (rvc c) = c.
Proof. by rewrite mean_mom mom_const1. Qed.
Lemma meanD n (X Y : RV n) : mean (rva X Y) = mean X + mean Y.
Proof. by rewrite !mean_mom momDl. Qed.
Lemma meanM n p (A : 'M[R]_(p, n)) (X : RV n) : mean (rvm A X) = A *m mean X.
Proof. by rewrite !mean_mom momMl. Qed.
Lemma meanN n (X : RV n) : mean (rvo X) = - mean X.
Proof. by rewrite meanM mulNmx mul1mx. Qed.
Lemma meanB n (X Y : RV n) : mean (rvs X Y) = mean X - mean Y.
Proof. by rewrite meanD meanN. Qed.

Lemma mom_cc n p (X : RV n) (c : 'cV[R]_p) : mom X (rvc c) = mean X *m c^T.
Proof.
rewrite mean_mom -momMr; apply: mom_ext => w //=; by rewrite mulmx1.
Qed.

Lemma covE n p (X : RV n) (Y : RV p) : cov X Y = mom X Y - mean X *m (mean Y)^T.
Proof.
rewrite /cov (@mom_ext _ _ _ (rvs X (rvc (mean X))) _ (rvs Y (rvc (mean Y)))).
- rewrite /rvs momDl !momDr !(momMl, momMr) mom_cc.
  rewrite (_ : mom (rvc (mean X)) Y = mean X *m (mean Y)^T); last first.
    by rewrite -mom_tr mom_cc trmx_mul trmxK.
  rewrite mom_cc mean_c; mx.
- by move=> w; rewrite rvsE.
- by move=> w; rewrite rvsE.
Qed.

Lemma cov_tr n p (X : Omega -> 'cV[R]_n) (Y : Omega -> 'cV[R]_p) : (cov X Y)^T = cov Y X.
Proof. exact: mom_tr. Qed.
Lemma covDl n p (X X' : RV n) (Y : RV p) : cov (rva X X') Y = cov X Y + cov X' Y.
Proof. rewrite !covE momDl meanD; mx. Qed.
Lemma covDr n p (X : RV n) (Y Y' : RV p) : cov X (rva Y Y') = cov X Y + cov X Y'.
Proof. by rewrite -cov_tr covDl linearD /= !cov_tr. Qed.
Lemma covMl n p q (A : 'M[R]_(q, n)) (X : RV n) (Y : RV p) : cov (rvm A X) Y = A *m cov X Y.
Proof. rewrite !covE momMl meanM; mx. Qed.
Lemma covMr n p q (A : 'M[R]_(q, p)) (X : RV n) (Y : RV p) : cov X (rvm A Y) = cov X Y *m A^T.
Proof. by rewrite -cov_tr covMl trmx_mul cov_tr. Qed.
Lemma covNl n p (X : RV n) (Y : RV p) : cov (rvo X) Y = - cov X Y.
Proof. by rewrite covMl mulNmx mul1mx. Qed.
Lemma covNr n p (X : RV n) (Y : RV p) : cov X (rvo Y) = - cov X Y.
Proof. by rewrite covMr linearN /= trmx1 mulmxN mulmx1. Qed.
Lemma covBl n p (X X' : RV n) (Y : RV p) : cov (rvs X X') Y = cov X Y - cov X' Y.
Proof. by rewrite covDl covNl. Qed.
Lemma covBr n p (X : RV n) (Y Y' : RV p) : cov X (rvs Y Y') = cov X Y - cov X Y'.
Proof. by rewrite covDr covNr. Qed.
Lemma covcr n p (X : RV n) (c : 'cV[R]_p) : cov X (rvc c) = 0.
Proof. by rewrite covE mom_cc mean_c subrr. Qed.
Lemma covcl n p (c : 'cV[R]_n) (Y : RV p) : cov (rvc c) Y = 0.
Proof. by rewrite -cov_tr covcr trmx0. Qed.

Lemma mom_psd n (X : RV n) : psd (mom X X).
Proof.
split; first exact: mom_tr.
move=> v; rewrite /qf /bf.
have -> : v^T *m mom X X *m v = mom (rvm v^T X) (rvm v^T X) by rewrite momMl momMr trmxK mulmxA.
rewrite /sc mxE; apply: Ex_pos; exact: rvP.
Qed.
Lemma cov_psd n (X : RV n) : psd (cov X X).
Proof.
rewrite /cov (@mom_ext _ _ _ (rvs X (rvc (mean X))) _ (rvs X (rvc (mean X)))).
- exact: mom_psd.
- by move=> w; rewrite rvsE.
- by move=> w; rewrite rvsE.
Qed.
Lemma mom_cov n (X : RV n) : mom X X = cov X X + mean X *m (mean X)^T.
Proof. by rewrite covE subrK. Qed.

(** ** Affine functions of the observations *)
Section Aff.
Variables (m : nat) (z : nat -> Omega -> 'cV[R]_m) (mis : nat -> bool).

Definition aff n k (X : Omega -> 'cV[R]_n) : Prop :=
  exists c L, forall om, X om = affine_est z mis k c L om.

Lemma affine_est_rv n k (c : 'cV[R]_n) L :
  (forall s, (s < k)%N -> ~~ mis s -> rvec (z s)) -> rvec (affine_est z mis k c L).
Proof.
move=> Hz; elim: k Hz => [|k IH] Hz.
  by apply: (@rvec_ext _ (rvc c)) (rvP _) => w; rewrite /affine_est big_ord0 addr0.
have Hk : rvec (affine_est z mis k c L) by apply: IH => s sk; apply: Hz; exact: ltnW.
case Hm: (mis k).
  by apply: rvec_ext Hk => w; rewrite /affine_est [in RHS]big_mkcond big_ord_recr /= Hm addr0 -big_mkcond.
pose Z := MkRV (Hz k (ltnSn k) (negbT Hm)).
apply: (@rvec_ext _ (rva (MkRV Hk) (rvm (L k) Z))) (rvP _) => w.
by rewrite /affine_est /= [in RHS]big_mkcond big_ord_recr /= Hm -big_mkcond addrA.
Qed.

Lemma affc n k (c : 'cV[R]_n) : aff k (fun _ => c).
Proof.
exists c, (fun _ => 0) => om; rewrite /affine_est big1 ?addr0 // => s _.
by rewrite mul0mx.
Qed.
Lemma affD n k (X Y : Omega -> 'cV[R]_n) : aff k X -> aff k Y -> aff k (fun w => X w + Y w).
Proof.
move=> [c [L HX]] [c' [L' HY]]; exists (c + c'), (fun s => L s + L' s) => om.
rewrite HX HY /affine_est addrACA -big_split /=; congr (_ + _).
by apply: eq_bigr => s _; rewrite mulmxDl.
Qed.
Lemma affM n p k (A : 'M[R]_(p, n)) (X : Omega -> 'cV[R]_n) : aff k X -> aff k (fun w => A *m X w).
Proof.
move=> [c [L HX]]; exists (A *m c), (fun s => A *m L s) => om.
rewrite HX /affine_est mulmxDr mulmx_sumr; congr (_ + _).
by apply: eq_bigr => s _; rewrite mulmxA.
Qed.
Lemma affN n k (X : Omega -> 'cV[R]_n) : aff k X -> aff k (fun w => - X w).
Proof.
move=> /(affM (- 1%:M)) [c [L HX]]; exists c, L => om.
by rewrite -HX mulNmx mul1mx.
Qed.
Lemma affB n k (X Y : Omega -> 'cV[R]_n) : aff k X -> aff k Y -> aff k (fun w => X w - Y w).
Proof. by move=> HX HY; apply: affD => //; apply: affN. Qed.
Lemma aff_ext n k (X Y : Omega -> 'cV[R]_n) : X =1 Y -> aff k X -> aff k Y.
Proof. by move=> H [c [L HX]]; exists c, L => om; rewrite -H. Qed.
Lemma affS n k (X : Omega -> 'cV[R]_n) : aff k X -> aff k.+1 X.
Proof.
move=> [c [L HX]]; exists c, (fun s => if s == k then 0 else L s) => om.
rewrite HX /affine_est; congr (_ + _).
rewrite [RHS]big_mkcond big_ord_recr /= eqxx mul0mx if_same addr0 -big_mkcond.
by apply: eq_bigr => s _; rewrite ltn_eqF.
Qed.
Lemma aff_le n j k (X : Omega -> 'cV[R]_n) : (j <= k)%N -> aff j X -> aff k X.
Proof. by elim: k => [|k IH]; [case: j|rewrite leq_eqVlt => /orP[/eqP ->|/IH H /H /affS]]. Qed.
Lemma aff_z k s : (s < k)%N -> ~~ mis s -> aff k (z s).
Proof.
move=> sk Hm; exists 0, (fun r => if r == s then 1%:M else 0) => om.
rewrite /affine_est add0r (bigD1 (Ordinal sk)) //= eqxx mul1mx big1 ?addr0 //.
move=> r /andP[_]; rewrite -val_eqE /= => /negbTE ->; by rewrite mul0mx.
Qed.

(** orthogonality to the observations implies orthogonality to affine functions *)
Lemma aff_orth n p k (e : RV n) (X : RV p) :
  (forall s, (s < k)%N -> ~~ mis s -> rvec (z s)) ->
  (forall s, (s < k)%N -> ~~ mis s -> cov e (z s) = 0) ->
  aff k X -> cov e X = 0.
Proof.
move=> Hz He [c [L HX]].
rewrite (@cov_ext _ _ e e X (affine_est z mis k c L)) // => {X HX}.
elim: k Hz He => [|k IH] Hz He.
  rewrite (@cov_ext _ _ e e _ (rvc c)) ?covcr // => w.
  by rewrite /affine_est big_ord0 addr0.
have Hz' : forall s, (s < k)%N -> ~~ mis s -> rvec (z s).
  by move=> s sk; apply: Hz; exact: ltnW.
have IH' : cov e (affine_est z mis k c L) = 0.
  by apply: IH => // s sk; apply: He; exact: ltnW.
case Hm: (mis k).
  rewrite (@cov_ext _ _ e e _ (affine_est z mis k c L)) // => w.
  by rewrite /affine_est [in LHS]big_mkcond big_ord_recr /= Hm addr0 -big_mkcond.
have Hk : rvec (affine_est z mis k c L) by exact: affine_est_rv.
pose Z := MkRV (Hz k (ltnSn k) (negbT Hm)).
rewrite (@cov_ext _ _ e e _ (rva (MkRV Hk) (rvm (L k) Z))) //.
  rewrite covDr covMr IH' add0r.
  by rewrite (_ : cov e Z = 0) ?mul0mx //; apply: He; rewrite ?Hm.
move=> w; rewrite /affine_est /= [in LHS]big_mkcond big_ord_recr /= Hm -big_mkcond addrA.
by [].
Qed.

(** zero-mean orthogonal error implies optimality *)
Lemma blue_intro n k (X : RV n) (Xh : RV n) (P : 'M[R]_n) :
  (forall s, (s < k)%N -> ~~ mis s -> rvec (z s)) ->
  aff k Xh -> mean (rvs X Xh) = 0 ->
  (forall s, (s < k)%N -> ~~ mis s -> cov (rvs X Xh) (z s) = 0) ->
  cov (rvs X Xh) (rvs X Xh) = P ->
  blue X z mis k Xh P.
Proof.
move=> Hz Ha Hm Ho Hc.
have E : rvs X Xh =1 (fun om => X om - Xh om) by move=> w; rewrite rvsE.
split.
- exact: Ha.
- by rewrite -(mean_ext E).
- by move=> s sk ms; rewrite -(cov_ext E (fun=> erefl)); exact: Ho.
- by rewrite -(cov_ext E E).
- move=> c L.
  pose Y := MkRV (affine_est_rv c L Hz).
  pose D := rvs Xh Y.
  have E2 : rva (rvs X Xh) D =1 (fun om => X om - Y om).
    by move=> w; rewrite /= !mulNmx !mul1mx addrA subrK.
  rewrite -(mom_ext E2 E2) (momDl (rvs X Xh) D) (momDr (rvs X Xh)) (momDr D).
  have HD : mom (rvs X Xh) D = 0.
    have : cov (rvs X Xh) D = 0.
      apply: (aff_orth Hz) => //; apply: aff_ext (affB Ha _).
        by move=> w; rewrite [RHS]rvsE; congr (_ - _).
      by exists c, L.
    by rewrite covE Hm mul0mx subr0.
  rewrite HD -(mom_tr (rvs X Xh) D) HD trmx0 addr0 add0r.
  rewrite mom_cov Hc Hm mul0mx addr0 /lep.
  by rewrite addrAC subrr add0r; exact: mom_psd.
Qed.
End Aff.
End Alg.
