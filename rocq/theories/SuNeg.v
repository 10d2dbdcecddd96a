(** Where the square-root unscented filter differs from the plain one. *)
From Coq Require Import String List.
From mathcomp Require Import all_ssreflect all_algebra.
From mathcomp Require Import ring.
From Verif Require Import Prelude Zmod LinAlg Numpy NumpyFacts Sklearn Standard Model KfSpec StandardInit StandardFacts Rng Sqrt SqrtFacts Unscented UscSpec UscFacts UscRefine UscLoop
  UscInit UscMain UscPsd UscNeg SqrtUnscented CuFacts SuTri SuFacts SuStep SuMain Examples ExamplesEm UscProps ExamplesUsc.
Import GRing.Theory Num.Theory Order.Theory.

Set Implicit Arguments.
Unset Strict Implicit.
Unset Printing Implicit Defensive.
Local Open Scope ring_scope.

#[local] Arguments fun_at : simpl never.
#[local] Arguments wdef : simpl never.
#[local] Arguments spts : simpl never.
#[local] Arguments ucorr : simpl never.

Section Neg.
Variable R : rcfType.

(** a normal triangular matrix is diagonal *)
Lemma normal_diag n (U : 'M[R]_n) : upper U -> U *m U^T = U^T *m U -> is_diag_mx (U^T *m U).
Proof.
move=> HU E.
have D (i : 'I_n) : forall j : 'I_n, (i < j)%N -> U i j = 0.
  have [d] := ubnP (i : nat); elim: d i => // d IH i Hi.
  have := congr1 (fun M : 'M_n => M i i) E; rewrite /= gramE // big1 ?add0r; last first.
    by move=> l li; rewrite (IH l (leq_trans li _)) ?mul0r.
  rewrite mxE (bigD1 i) //= mxE => /(canRL (addKr _)); rewrite addNr => H.
  have /psumr_eq0P H' : forall j : 'I_n, j != i -> 0 <= U i j * U^T j i by move=> j _; rewrite mxE -expr2 sqr_ge0.
  move=> j ij; have := H' H j; rewrite mxE -expr2 => /(_ _)/eqP; rewrite sqrf_eq0 => H2.
  by apply/eqP/H2; rewrite -(inj_eq val_inj) (gtn_eqF ij).
apply/is_diag_mxP=> i j ij; rewrite gramE // big1 ?add0r; last by move=> l li; rewrite (D l i li) mul0r.
by case: (ltngtP i j) ij => // [H _|H _]; [rewrite (D i j H)|rewrite (HU i j H)]; rewrite mulr0.
Qed.

Section Two.
Variable qr : qr_fun R.
Hypothesis Hqr : qr_valid qr.
Variables (n m : nat) (o : ukf R) (f : nat -> 'cV[R]_n -> 'cV[R]_n) (g : nat -> 'cV[R]_n -> 'cV[R]_m).
Variables (Q : 'M[R]_n) (Rn : 'M[R]_m) (mu0 : 'cV[R]_n) (P0 : 'M[R]_n).
Hypothesis HM : aukf_model o 2 f g Q Rn mu0 P0.
Hypotheses (HR : pd Rn) (HP : pd P0) (HQ : pd Q).
Variables (z0 z1 : orow R m).
Hypotheses (M0 : missing z0) (M1 : missing z1).
Variables (Q2 F : 'M[R]_n).
Hypotheses (EQ2 : is_chol Q Q2) (EF : is_chol P0 F).
Notation w := (wdef R n).
Notation Y := (fmap (f 0%N) (sigma_rows mu0 F^T 3%:R)).

Lemma sgn_two (S : 'M[R]_n) : regular S -> S^T *m S = P0 ->
  let Y' := fmap (f 0%N) (sigma_rows mu0 S^T 3%:R) in
  wmean Y' w = wmean Y w /\
  wcross (wabs w) (cen Y' (wmean Y' w)) (cen Y' (wmean Y' w)) = wcross (wabs w) (cen Y (wmean Y w)) (cen Y (wmean Y w)).
Proof.
move=> rS ES Y'; have E : S^T *m S = F^T *m F by rewrite ES; case: EF.
have rF := is_chol_regular EF.
have E1 : wmean Y' w = wmean Y w := @sgn_mean R n S F mu0 rS rF E w (@wdef_sym R n) n (f 0%N).
have sw : sym_w (wabs w) by move=> i; rewrite ![wabs _ _ _]mxE (@wdef_sym R n).
have E2 := @sgn_cross R n S F mu0 rS rF E (wabs w) sw n n (f 0%N) (f 0%N) (wmean Y w) (wmean Y w).
by rewrite E1; split; [exact: erefl|exact: E2].
Qed.

Lemma su_step1 (S2 : 'M[R]_n) (R2 : 'M[R]_m) : regular S2 -> S2^T *m S2 = P0 ->
  exists2 V : 'M[R]_n, su_step qr (uinit_value (@add_default R) o) (A2 Q2) (A2 R2) n 1 (Some (A1 mu0, A2 S2)) (A1 z1.1, missing z1) =
    Ok (A1 (wmean Y w), A2 V) & V^T *m V = wcross (wabs w) (cen Y (wmean Y w)) (cen Y (wmean Y w)) + Q2 *m Q2^T.
Proof.
move=> rS ES.
have [G' EG' HG'] := um_G HM (@dflt1 R n m) (isT : (1 < 2)%N).
have [H EH HH] := um_F HM (@dflt1 R n n) (isT : (0 < 1)%N).
rewrite /su_step bO su_m2pE bO [1.-1]/= EH bO.
have [V -> [HV EV]] := su_utE Hqr (sigma_rows mu0 S2^T 3%:R) w w Q2 HH.
rewrite bO su_m2pE bO EG' bO.
have [V' E' _] := su_filter_correctE Hqr (sigma_rows (wmean (fmap (f 0%N) (sigma_rows mu0 S2^T 3%:R)) w) V^T 3%:R) w
   (wmean (fmap (f 0%N) (sigma_rows mu0 S2^T 3%:R)) w) V R2 z1.1 (missing z1) HG'.
rewrite bO {}E' /su_correct M1 [~~ _]/= bO assign1E bO assign2E bO.
have [W1 W2] := sgn_two rS ES; rewrite {}W2 in EV; rewrite {}W1.
by exists V; [exact: erefl|exact: EV].
Qed.
Lemma su_two : sukf_filter qr o (O2 m [:: z0; z1]) =
  Ok [:: (A1 mu0, A2 P0); (A1 (wmean Y w), A2 (wcross (wabs w) (cen Y (wmean Y w)) (cen Y (wmean Y w)) + Q2 *m Q2^T))].
Proof.
rewrite /sukf_filter parse_keep // (um_init _ HM) bO /su_filter_ (um_EQ _ HM) (um_ER _ HM) [shape_m1 _]/= bO.
have [Q2' -> HQ2'] := cholupperE HQ; have [R2 -> HR2] := cholupperE HR; rewrite bO bO (upper_uniq HQ2' EQ2).
rewrite uloop_cons.
have [G EG HG] := um_G HM (@dflt1 R n m) (isT : (0 < 2)%N).
have [s [x [E1 -> [S2 Ex [rS ES]]]]] := su_firstE Hqr Q2 (um_E0 _ HM) (um_EP _ HM) HR HP HR2 EG HG (or_introl M0).
have Es : s = (mu0, P0).
  move: E1; rewrite /add_first (sptsE mu0 EF) /cut M0 [omap _ _]/= => [] [<-].
  by rewrite /ucorr /wcov !wdef_mean wdef_cov trmxK; case: EF => _ _ ->.
rewrite {}Es in Ex ES *; rewrite {}Ex bO uloop_cons [fst (mu0, P0)]/= [snd (mu0, P0)]/= in ES *.
have [V E2 EV] := su_step1 R2 rS ES.
rewrite {}E2 bO.
rewrite /su_covariances mapr_cons /su_gram [snd _]/= tr2 bO dot22 bO bO mapr_cons [snd _]/= tr2 bO dot22 bO bO EV ES.
exact: erefl.
Qed.

Lemma au_two : pd (wcov Y w w + Q) -> aukf_filter o (O2 m [:: z0; z1]) =
  Ok [:: (A1 mu0, A2 P0); (A1 (wmean Y w), A2 (wcov Y w w + Q))].
Proof.
move=> HY; rewrite (aukf_filterE HM) // -[iota 0 2]/[:: 0%N; 1%N].
have E0 : add_filt Q Rn mu0 P0 f g (stream [:: z0; z1]) 0 = Some (mu0, P0).
  rewrite -[LHS]/(add_first Rn mu0 P0 g (cut z0)) /add_first (sptsE mu0 EF) /cut M0 [omap _ _]/=.
  by rewrite /ucorr /wcov !wdef_mean wdef_cov trmxK; case: EF => _ _ ->.
have E1 : add_filt Q Rn mu0 P0 f g (stream [:: z0; z1]) 1 = Some (wmean Y w, wcov Y w w + Q).
  rewrite /add_filt (ufold_next E0) -[stream _ _]/(cut z1) /cut M1 /add_next /add_pred [fst _]/= [snd _]/= (sptsE mu0 EF) [omap _ _]/= [obind _ _]/=.
  by rewrite /add_corr [fst _]/= [snd _]/=; have [P ->] := spts_pd (wmean Y w) HY.
by rewrite mapr_cons E0 [lift_o _]/= bO mapr_cons E1 [lift_o _]/= bO.
Qed.

(** ** every non-diagonal transition covariance *)
Lemma nondiag_wrong : tame (f 0%N) -> ~~ is_diag_mx Q ->
  exists r0 (mu : 'cV[R]_n) (S S' : 'M[R]_n), [/\ sukf_filter qr o (O2 m [:: z0; z1]) = Ok [:: r0; (A1 mu, A2 S)],
    aukf_filter o (O2 m [:: z0; z1]) = Ok [:: r0; (A1 mu, A2 S')] & S <> S'].
Proof.
move=> Hf dQ; have HY : pd (wcov Y w w + Q).
  by rewrite (tame_abs mu0 F^T Hf); apply: pdD; [apply: wcross_psd; exact: wabs_ge0|exact: HQ].
do 4 eexists; split; [exact: su_two|exact: (au_two HY)|].
rewrite -(tame_abs mu0 F^T Hf) => /addrI H; have [U1 U2 U3] := EQ2.
by case/negP: dQ; rewrite -U3; apply: normal_diag => //; rewrite H.
Qed.
End Two.

(** ** negative weights: every state dimension above three *)
Section Bump.
Variables (n m : nat) (n3 : (3 < n)%N).
Let w0 : R := (3%:R - n%:R) / 3%:R.
Let q : R := 1 - w0 * (1 - w0).
Definition bump_f : nat -> 'cV[R]_n -> 'cV[R]_n := fun _ => bump 0 (delta_mx (Ordinal (leq_ltn_trans (leq0n 3) n3)) 0).
Definition bump_g : nat -> 'cV[R]_n -> 'cV[R]_m := fun _ _ => 0.
Definition bump_o : ukf R := @ukf_of R n m _ _ (@pyf1 R n n) (@pyf1 R n m) 2 bump_f bump_g (q%:M) 1%:M 0 1%:M None.
Lemma bump_model : aukf_model bump_o 2 bump_f bump_g q%:M 1%:M 0 1%:M. Proof. exact: aukf_of_model. Qed.
Lemma w0_lt0 : w0 < 0.
Proof. by rewrite /w0 pmulr_llt0 ?invr_gt0 ?ltr0n // subr_lt0 ltr_nat. Qed.
Lemma q_gt0 : 0 < q.
Proof.
rewrite /q subr_gt0; apply: le_lt_trans (w0_neg n3 erefl) _.
by apply: (lt_trans (y := 0)); rewrite ?ltr01 // oppr_lt0 divr_gt0 ?ltr0n.
Qed.
Lemma is_chol_scalar (c : R) : 0 < c -> is_chol (c%:M : 'M[R]_n) (Num.sqrt c)%:M.
Proof.
move=> c0; split.
- by move=> i j ij; rewrite mxE -(inj_eq val_inj) (gtn_eqF ij) mulr0n.
- by move=> i; rewrite mxE eqxx mulr1n sqrtr_gt0.
- by rewrite tr_scalar_mx -scalar_mxM -expr2 sqr_sqrtr ?ltW.
Qed.
Lemma is_chol_1 : is_chol (1%:M : 'M[R]_n) 1%:M.
Proof. by have := is_chol_scalar ltr01; rewrite sqrtr1. Qed.
Lemma negative_weight_wrong (qr : qr_fun R) (z0 z1 : orow R m) : qr_valid qr -> missing z0 -> missing z1 ->
  exists r0 (mu : 'cV[R]_n) (S S' : 'M[R]_n), [/\ sukf_filter qr bump_o (O2 m [:: z0; z1]) = Ok [:: r0; (A1 mu, A2 S)],
    aukf_filter bump_o (O2 m [:: z0; z1]) = Ok [:: r0; (A1 mu, A2 S')] & S <> S'].
Proof.
move=> Hqr M0 M1; have HQ2 := is_chol_scalar q_gt0; have HF := is_chol_1.
pose i0 : 'I_n := Ordinal (leq_ltn_trans (leq0n 3) n3).
pose P : 'M[R]_((n + n).+1, n) := sigma_rows 0 (1%:M : 'M[R]_n)^T 3%:R.
have SS : (1%:M : 'M[R]_n)^T = 1%:M by rewrite trmx1.
have EC : wcov (fmap (bump_f 0) P) (wdef R n) (wdef R n) = (w0 * (1 - w0)) *: (delta_mx i0 i0).
  rewrite (bump_cov _ SS (sptsE 0 HF)); congr (_ *: _).
  by apply/matrixP=> i j; rewrite !mxE big_ord1 !mxE !eqxx !andbT -natrM mulnb.
have HY : pd (wcov (fmap (bump_f 0) P) (wdef R n) (wdef R n) + q%:M).
  rewrite EC; have -> : (w0 * (1 - w0)) *: delta_mx i0 i0 + q%:M = (1%:M : 'M[R]_n) + (q - 1) *: (1%:M - delta_mx i0 i0).
    apply/matrixP=> i j; rewrite !mxE /q; case: (i == j); case: (i == i0); case: (j == i0); rewrite /= ?mulr1n ?mulr0n; ring.
  apply: pdDr; first exact: pd1.
  have -> : (1%:M - delta_mx i0 i0 : 'M[R]_n) = (1%:M - delta_mx i0 i0)^T *m (1%:M - delta_mx i0 i0).
    have -> : (1%:M - delta_mx i0 i0 : 'M[R]_n)^T = 1%:M - delta_mx i0 i0.
      by apply/matrixP=> i j; rewrite !mxE eq_sym andbC.
    by rewrite mulmxBl !mulmxBr !mulmx1 !mul1mx mul_delta_mx subrr subr0.
  apply: psdZ; last exact: psd_gramT.
  rewrite /q; have -> : 1 - w0 * (1 - w0) - 1 = - w0 * (1 - w0) by ring.
  have N0 := w0_lt0; rewrite mulr_ge0 ?oppr_ge0 ?subr_ge0 ?ltW //; exact: lt_trans N0 ltr01.
do 4 eexists; split.
- exact: (su_two Hqr bump_model (pd1 _ _) (pd1 _ _) (is_chol_pd HQ2) M0 M1 HQ2 HF).
- exact: (au_two bump_model M0 M1 HF HY).
rewrite (diag_chol _ HQ2); last by apply/is_diag_mxP=> i j ij; rewrite mxE -(inj_eq val_inj) (negbTE ij) mulr0n.
move/addIr; set Y := fmap _ _ => E; have := congr1 (fun M : 'M_n => M i0 i0) E; rewrite /wcov /= !wcrossE => /eqP.
rewrite -subr_eq0 -sumrB => /eqP.
have Em : wmean Y (wdef R n) i0 0 = w0.
  have -> : Y = \matrix_(i, j) ((i == ord0)%:R * (delta_mx i0 0 : 'cV[R]_n) j 0).
    apply/matrixP=> i j; rewrite !mxE /bump_f /bump (spts_central SS (sptsE 0 HF)) (fun_if (fun v : 'cV_n => v j 0)) !mxE.
    by case: (i == ord0); rewrite ?mul1r ?mul0r.
  rewrite (ind_mean _ (wdef R n)) !mxE !eqxx mulr1.
  rewrite big_ord_recl eqxx mul1r big1 ?addr0 => [|i _]; last by rewrite eq_sym (negbTE (neq_lift _ _)) mul0r.
  by rewrite mxE.
have E0 : Y ord0 i0 = 1.
  have C := spts_central SS (sptsE 0 HF) ord0.
  by rewrite mxE /bump_f /bump C eqxx mxE !eqxx.
pose c k := cen Y (wmean Y (wdef R n)) k i0.
have Ec : c ord0 = 1 - w0 by rewrite /c cenE E0 Em.
move=> H; suff : 0 < \sum_k (wabs (wdef R n) k 0 * (c k * c k) - wdef R n k 0 * (c k * c k)) by rewrite H ltxx.
rewrite big_ord_recl /= ltr_paddr //.
  by apply: sumr_ge0 => k _; rewrite -mulrBl mulr_ge0 ?subr_ge0 ?mxE ?ler_norm // -expr2 sqr_ge0.
rewrite -mulrBl Ec mxE; have -> : wdef R n ord0 0 = w0 by rewrite mxE.
have N0 := w0_lt0; rewrite ltr0_norm // -expr2 pmulr_rgt0; last by rewrite -opprD oppr_gt0 (lt_trans (y := w0)) // gtr_addl.
by rewrite exprn_gt0 // subr_gt0; exact: lt_trans N0 ltr01.
Qed.
End Bump.
End Neg.
