(** Every model with positive semidefinite covariances is realised by random
    vectors on a finite probability space. *)
From mathcomp Require Import all_ssreflect all_algebra.
From mathcomp Require Import ring.
From Verif Require Import Zmod LinAlg Numpy Model SpecL2 L2Facts.
Import GRing.Theory Num.Theory Order.Theory.

Set Implicit Arguments.
Unset Strict Implicit.
Unset Printing Implicit Defensive.
Local Open Scope ring_scope.

Section Sqrt.
Variable R : rcfType.

Lemma psd_sqrt n (P : 'M[R]_n) : psd P -> exists L : 'M[R]_n, P = L *m L^T.
Proof.
elim: n P => [|n IH] P HP.
  by exists 0; rewrite [P]flatmx0 [RHS]flatmx0.
pose A : 'M[R]_(1 + n) := P.
pose a : R := A 0 0.
pose c : 'cV[R]_n := dlsubmx A.
have SA : A^T = A by case: HP.
have cT : ursubmx A = c^T by rewrite /c trmx_dlsub SA.
have aE : ulsubmx A = a%:M.
  by rewrite [LHS]mx11_scalar; congr (_%:M); rewrite !mxE; congr (A _ _); apply/val_inj.
have a0 : 0 <= a.
  have := psd_ge0 (delta_mx 0 0) HP; rewrite /qf /bf /sc trmx_delta.
  by rewrite -rowE -colE !mxE.
pose B : 'M[R]_(1 + n) := block_mx 1%:M 0 (- (a^-1 *: c)) 1%:M.
have HB : psd (B *m A *m B^T) by exact: psd_congr.
have Hc0 : a = 0 -> c = 0.
  move=> az; have H : P *m delta_mx 0 0 = 0 :> 'cV_n.+1.
    by apply: (psd_qf0 HP); rewrite /qf /bf /sc trmx_delta -rowE -colE !mxE.
  apply/matrixP=> i j; rewrite (ord1 j) !mxE.
  have := congr1 (fun M : 'cV_n.+1 => M (rshift 1 i) 0) H; rewrite -colE !mxE => <-.
  by congr (A _ _); apply/val_inj.
have AE : A = block_mx a%:M c^T c (drsubmx A) by rewrite -[LHS]submxK aE cT.
have acK : a *: (a^-1 *: c) = c.
  case: (eqVneq a 0) => [az|an]; first by rewrite (Hc0 az) !scaler0.
  by rewrite scalerA divff // scale1r.
have E : B *m A *m B^T = block_mx a%:M 0 0 (drsubmx A - a^-1 *: (c *m c^T)).
  rewrite [in LHS]AE /B tr_block_mx !mulmx_block /= !trmx1 !trmx0 !mul1mx !mulmx1 !mul0mx !mulmx0.
  rewrite ?addr0 ?add0r ?[(- _)^T]linearN /= ?mulmxN ?mulNmx.
  have e1 : a^-1 *: c *m a%:M = c by rewrite mul_mx_scalar acK.
  have e2 : a%:M *m (a^-1 *: c)^T = c^T by rewrite mul_scalar_mx -linearZ /= acK.
  by rewrite e1 e2 !addNr mul0mx oppr0 add0r -scalemxAl addrC.
have HD : psd (drsubmx A - a^-1 *: (c *m c^T)).
  pose J : 'M[R]_(n, 1 + n) := row_mx 0 1%:M.
  have := psd_congr J HB; rewrite E /J mul_row_block tr_row_mx mul_row_col.
  by rewrite !mul0mx !mul1mx !add0r trmx1 mulmx1 trmx0 mulmx0 add0r.
have [L HL] := IH _ HD.
pose s := Num.sqrt a.
pose L' : 'M[R]_(1 + n) := block_mx s%:M 0 (s *: (a^-1 *: c)) L.
suff HE : A = L' *m L'^T by exists (L' : 'M_n.+1).
rewrite AE /L' tr_block_mx mulmx_block.
rewrite trmx0 !mul0mx !mulmx0 !addr0 tr_scalar_mx.
have ss : s * s = a by rewrite -expr2 sqr_sqrtr.
have e1 : (s%:M : 'M[R]_1) *m s%:M = a%:M by rewrite mul_scalar_mx scale_scalar_mx ss.
have e2 : s *: (a^-1 *: c) *m (s%:M : 'M[R]_1) = c by rewrite mul_mx_scalar scalerA ss acK.
have e3 : (s%:M : 'M[R]_1) *m (s *: (a^-1 *: c))^T = c^T.
  by rewrite -[in LHS](tr_scalar_mx 1 s) -trmx_mul e2.
rewrite e1 e2 e3; congr block_mx.
have e4 : s *: (a^-1 *: c) *m (s *: (a^-1 *: c))^T = a^-1 *: (c *m c^T).
  have -> : (s *: (a^-1 *: c))^T = s *: (a^-1 *: c)^T by rewrite linearZ.
  rewrite -scalemxAr -scalemxAl scalerA ss scalemxAl acK.
  have -> : (a^-1 *: c)^T = a^-1 *: c^T by rewrite linearZ.
  by rewrite -scalemxAr.
rewrite e4 -HL; zmod.
Qed.
End Sqrt.

(** ** A finite space with any number of uncorrelated standardised variables *)
Section Space.
Variables (R : rcfType) (I : finType).
Let W : finType := [finType of option I * bool].
Let N : R := #|{: option I}|%:R.
Let pr (_ : W) : R := (2%:R * N)^-1.

Lemma N_gt0 : 0 < N.
Proof. by rewrite ltr0n card_option. Qed.
Lemma N2_neq0 : 2%:R * N != 0.
Proof. by apply: mulf_neq0; [rewrite pnatr_eq0|rewrite (gt_eqF N_gt0)]. Qed.
Lemma pr_ge0 w : 0 <= pr w.
Proof. by rewrite invr_ge0 mulr_ge0 ?ler0n // ltW // N_gt0. Qed.
Lemma pr_sum : \sum_w pr w = 1.
Proof.
rewrite /pr sumr_const.
have -> : #|xpredT : ssrbool.pred W| = (2 * #|{: option I}|)%N.
  by rewrite mulnC -card_bool -card_prod; apply: eq_card.
rewrite -[LHS]mulr_natl natrM -/N.
by rewrite divff // N2_neq0.
Qed.
Definition sgn_space : l2space R := fin_space pr_ge0 pr_sum.

(** the uncorrelated variables *)
Definition base (i : I) (w : Om sgn_space) : R :=
  if w.1 == Some i then (if w.2 then 1 else -1) * Num.sqrt N else 0.

Lemma base_rv p (F : Om sgn_space -> 'cV[R]_p) : rvec F.
Proof. by []. Qed.

Lemma Ex_pair f : Ex (l := sgn_space) f =
  (2%:R * N)^-1 * \sum_(o : option I) (f (o, true) + f (o, false)).
Proof.
rewrite /= /fin_Ex /pr -big_distrr /=; congr (_ * _).
transitivity (\sum_(p : option I * bool) f (p.1, p.2)); first by apply: eq_bigr => -[].
rewrite -(pair_bigA _ (fun o b => f (o, b))) /=; apply: eq_bigr => o _.
by rewrite (bigD1 true) //= (bigD1 false) //= big1 ?addr0 // => [[]].
Qed.
Lemma Ex_base i : Ex (base i) = 0.
Proof.
rewrite Ex_pair big1 ?mulr0 // => o _; rewrite /base /=.
by case: (o == _); [rewrite mulN1r mul1r addrN|rewrite addr0].
Qed.
Lemma Ex_base2 i j : Ex (fun w => base i w * base j w) = (i == j)%:R.
Proof.
rewrite Ex_pair (bigD1 (Some i)) //= big1 ?addr0; last first.
  move=> o /negbTE Ho; by rewrite /base /= Ho !mul0r addr0.
rewrite /base /= eqxx; case: (eqVneq i j) => [->|ij]; last first.
  rewrite (_ : Some i == Some j = false); last by apply/eqP => -[e]; rewrite e eqxx in ij.
  by rewrite !mulr0 addr0 mulr0.
rewrite eqxx !mul1r !mulN1r mulrNN -expr2 sqr_sqrtr ?(ltW N_gt0) //.
by rewrite -[N + N]mulr2n -[N *+ 2]mulr_natl mulVf // N2_neq0.
Qed.

(** vector of variables selected by an injective naming *)
Definition bvec k (f : 'I_k -> I) : RV sgn_space k :=
  MkRV (base_rv (fun w => \col_i base (f i) w)).
Lemma mean_bvec k (f : 'I_k -> I) : mean (bvec f) = 0.
Proof.
apply/matrixP=> i j; rewrite !mxE -[RHS](Ex_base (f i)).
by apply: Ex_ext => w; rewrite /= mxE.
Qed.
Lemma cov_bvec k l (f : 'I_k -> I) (g : 'I_l -> I) :
  cov (bvec f) (bvec g) = \matrix_(i, j) (f i == g j)%:R.
Proof.
rewrite covE !mean_bvec mul0mx subr0; apply/matrixP=> i j; rewrite !mxE -Ex_base2.
by apply: Ex_ext => w; rewrite /= !mxE.
Qed.
End Space.

Section Realise.
Variables (R : rcfType) (n m : nat) (M : lgm R n m) (T : nat).

Let I : finType := [finType of ('I_n + ('I_T * 'I_n + 'I_T * 'I_m))%type].
Hypothesis HM : psd_model M T.

Theorem model_exists : exists (Sp : l2space R) x z w v, @obeys R Sp n m M T x z w v.
Proof.
case: HM => HP HQ HR.
have [L0 E0] := psd_sqrt HP.
have HQ' : forall t, exists L : 'M[R]_n, (t < T.-1)%N -> mQ M t = L *m L^T.
  move=> t; case tT: (t < T.-1)%N; last by exists 0.
  by have [L E] := psd_sqrt (HQ t tT); exists L.
have HR' : forall t, exists L : 'M[R]_m, (t < T)%N -> mR M t = L *m L^T.
  move=> t; case tT: (t < T)%N; last by exists 0.
  by have [L E] := psd_sqrt (HR t tT); exists L.
have [LQ EQ] := fin_all_exists (fun t : 'I_T => HQ' t).
have [LR ER] := fin_all_exists (fun t : 'I_T => HR' t).
pose Sp := sgn_space R I.
pose b0 : RV Sp n := @bvec R I n (fun i => inl i).
pose bw (t : 'I_T) : RV Sp n := @bvec R I n (fun i => inr (inl (t, i))).
pose bv (t : 'I_T) : RV Sp m := @bvec R I m (fun i => inr (inr (t, i))).
pose X0 : RV Sp n := rva (rvm L0 b0) (rvc Sp (mmu M)).
pose W t : RV Sp n := if insub t is Some i then rvm (LQ i) (bw i) else rvc Sp 0.
pose V t : RV Sp m := if insub t is Some i then rvm (LR i) (bv i) else rvc Sp 0.
pose X := fix X t : RV Sp n :=
  if t is t'.+1 then rva (rva (rvm (mA M t') (X t')) (rvc Sp (mb M t'))) (W t') else X0.
pose Z t := rva (rva (rvm (mC M t) (X t)) (rvc Sp (md M t))) (V t).
have T1 t : (t < T.-1)%N -> (t < T)%N by move=> H; apply: leq_trans H (leq_pred _).
have WE t (tT : (t < T)%N) : W t = rvm (LQ (Ordinal tT)) (bw (Ordinal tT)).
  by rewrite /W insubT.
have VE t (tT : (t < T)%N) : V t = rvm (LR (Ordinal tT)) (bv (Ordinal tT)).
  by rewrite /V insubT.
have c1 k (f : 'I_k -> I) : injective f -> cov (@bvec R I k f) (@bvec R I k f) = 1%:M.
  by move=> fi; rewrite cov_bvec; apply/matrixP=> i j; rewrite !mxE (inj_eq fi).
have c0 k l (f : 'I_k -> I) (g : 'I_l -> I) : (forall i j, f i <> g j) -> cov (@bvec R I k f) (@bvec R I l g) = 0.
  by move=> fg; rewrite cov_bvec; apply/matrixP=> i j; rewrite !mxE; case: eqP => // /fg.
exists Sp, (fun t => X t), (fun t => Z t), (fun t => W t), (fun t => V t); split.
- exact: rvP.
- by move=> t _; exact: rvP.
- by move=> t _; exact: rvP.
- by rewrite meanD meanM mean_bvec mulmx0 add0r mean_c.
- rewrite covDl !covDr !covcr !covcl !addr0 covMl covMr c1 ?mul1mx ?E0 //.
  by move=> i j [].
- by move=> t /T1 tT; rewrite WE meanM mean_bvec mulmx0.
- move=> t tT; rewrite (WE t (T1 t tT)) covMl covMr c1 ?mul1mx ?(EQ (Ordinal (T1 t tT))) //.
  by move=> i j [].
- by move=> t tT; rewrite VE meanM mean_bvec mulmx0.
- move=> t tT; rewrite (VE t tT) covMl covMr c1 ?mul1mx ?(ER (Ordinal tT)) //.
  by move=> i j [].
- move=> s t /T1 sT /T1 tT st; rewrite !WE covMl covMr c0 ?mul0mx ?mulmx0 //.
  by move=> i j [] /st.
- move=> s t sT tT st; rewrite !VE covMl covMr c0 ?mul0mx ?mulmx0 //.
  by move=> i j [] /st.
- by move=> s t /T1 sT tT; rewrite WE VE covMl covMr c0 ?mul0mx ?mulmx0.
- by move=> t /T1 tT; rewrite WE covDl covcl addr0 covMl covMr c0 ?mul0mx ?mulmx0.
- by move=> t tT; rewrite VE covDl covcl addr0 covMl covMr c0 ?mul0mx ?mulmx0.
- by [].
- by [].
Qed.
End Realise.
