(** Unscented covariances that are not positive semidefinite. *)
From Coq Require Import String List.
From mathcomp Require Import all_ssreflect all_algebra.
From mathcomp Require Import ring.
From Verif Require Import Prelude Zmod LinAlg Numpy NumpyFacts Sklearn Standard Model KfSpec StandardInit StandardFacts
  EmSpec EmChain KfGlue Rng Unscented UscSpec UscFacts UscRefine UscLoop UscInit UscMain UscLinear UscOnline UscShape UscProps UscPsd.
Import GRing.Theory Num.Theory Order.Theory.

Set Implicit Arguments.
Unset Strict Implicit.
Unset Printing Implicit Defensive.
Local Open Scope ring_scope.

Section Neg.
Variable R : rcfType.

Section Ind.
Variables (k p : nat) (b : 'I_k -> bool) (w : 'cV[R]_k) (a : 'cV[R]_p).
Hypothesis w1 : \sum_i w i 0 = 1.
Let Y : 'M[R]_(k, p) := \matrix_(i, j) ((b i)%:R * a j 0).
Let W := \sum_i (b i)%:R * w i 0.
Lemma ind_mean : wmean Y w = W *: a.
Proof.
apply/matrixP=> j q; rewrite (ord1 q) !mxE /W mulr_suml; apply: eq_bigr => i _.
by rewrite !mxE mulrAC.
Qed.
Lemma ind_cov : wcov Y w w = (W * (1 - W)) *: (a *m a^T).
Proof.
apply/matrixP=> c d; rewrite /wcov ind_mean wcrossE !mxE big_ord1 mxE.
rewrite (eq_bigr (fun i => (((b i)%:R * w i 0) * (1 - 2%:R * W) + W * W * w i 0) * (a c 0 * a d 0))).
  by rewrite -mulr_suml big_split /= -mulr_suml -/W -mulr_sumr w1; congr (_ * _); ring.
move=> i _; rewrite !mxE !big_ord1 !mxE.
by case: (b i); rewrite /=; ring.
Qed.
End Ind.

Lemma wdef_sum n : \sum_i wdef R n i 0 = 1.
Proof.
have -> : wdef R n = sigma_weights n (1 - n%:R / 3%:R) 3%:R by rewrite /wdef mulrBl divff ?pnatr_eq0.
by apply: wt_sum; rewrite ltr0n.
Qed.

(** only the central sigma point equals the mean *)
Lemma spts_central n (mu : 'cV[R]_n) (S : 'M[R]_n) P : S^T = S -> spts mu S = Some P ->
  forall i, ((row i P)^T == mu) = (i == ord0).
Proof.
move=> SS; rewrite /spts SS; case E: (chol S) => [L|] //= [<-] i.
have [_ _ Ld] := chol_spec SS E.
have s3 : 0 < Num.sqrt 3%:R :> R by rewrite sqrtr_gt0 ltr0n.
case: (unliftP ord0 i) => [j|] ->; last by rewrite eqxx; apply/eqP/matrixP => a q; rewrite (ord1 q) !mxE.
rewrite [RHS]eq_sym (negbTE (neq_lift ord0 j)); apply/eqP; rewrite -(splitK j); case: (split j) => l /= H.
- have := congr1 (fun v : 'cV_n => v l 0) H; rewrite /= 2!mxE (row_pos mu L 3%:R l l).
  move=> /(canRL (addKr _)); rewrite addNr => /eqP; rewrite mulf_eq0 => /orP[] /eqP H0.
  + by have := Ld l; rewrite H0 ltxx.
  + by move: s3; rewrite H0 ltxx.
- have := congr1 (fun v : 'cV_n => v l 0) H; rewrite /= 2!mxE (row_neg mu L 3%:R l l).
  move=> /(canRL (addKr _)); rewrite addNr => /eqP; rewrite oppr_eq0 mulf_eq0 => /orP[] /eqP H0.
  + by have := Ld l; rewrite H0 ltxx.
  + by move: s3; rewrite H0 ltxx.
Qed.

(** a function equal to [a] at [mu] and zero elsewhere *)
Definition bump n p (mu : 'cV[R]_n) (a : 'cV[R]_p) : 'cV[R]_n -> 'cV[R]_p := fun x => if x == mu then a else 0.
Lemma bump_cov n p (mu : 'cV[R]_n) (S : 'M[R]_n) P (a : 'cV[R]_p) : S^T = S -> spts mu S = Some P ->
  let w0 := (3%:R - n%:R) / 3%:R in
  wcov (fmap (bump mu a) P) (wdef R n) (wdef R n) = (w0 * (1 - w0)) *: (a *m a^T).
Proof.
move=> SS EP w0.
have -> : fmap (bump mu a) P = \matrix_(i, j) ((i == ord0)%:R * a j 0).
  apply/matrixP=> i j; rewrite !mxE /bump (spts_central SS EP) (fun_if (fun v : 'cV_p => v j 0)) mxE.
  by case: (i == ord0); rewrite ?mul1r ?mul0r.
rewrite (ind_cov _ _ (wdef_sum n)); have -> // : \sum_i (i == ord0)%:R * wdef R n i 0 = w0.
rewrite big_ord_recl eqxx mul1r big1 ?addr0 => [|i _]; last by rewrite eq_sym (negbTE (neq_lift _ _)) mul0r.
by rewrite mxE.
Qed.
Lemma w0_neg n (w0 : R) : (3 < n)%N -> w0 = (3%:R - n%:R) / 3%:R -> w0 * (1 - w0) <= - (4%:R / 9%:R).
Proof.
move=> n3 Ew; have H : w0 <= - 3%:R^-1.
  by rewrite -mulN1r Ew ler_pmul2r ?invr_gt0 ?ltr0n // ler_subl_addr addrC ler_subr_addr -(natrD R 3 1) ler_nat.
have -> : - (4%:R / 9%:R) = - 3%:R^-1 * (1 + 3%:R^-1) :> R by field; rewrite ?pnatr_eq0.
rewrite ler_oppr in H; rewrite -{1}(opprK w0); move: (- w0) H => v H; rewrite !mulNr ler_opp2; apply: ler_pmul => //.
- by rewrite invr_ge0 ler0n.
- by rewrite addr_ge0 ?ler01 // invr_ge0 ler0n.
- by rewrite ler_add2l.
Qed.
Lemma not_pd_diag n (A : 'M[R]_n) i : A i i <= 0 -> ~ pd A.
Proof.
move=> H [_ /(_ (delta_mx i 0))]; rewrite /qf /bf /sc.
have -> : ((delta_mx i 0)^T *m A *m delta_mx i 0 : 'M[R]_1) 0 0 = A i i.
  by rewrite trmx_delta -rowE -colE !mxE.
rewrite ltNge H; have NZ : delta_mx i 0 != 0 :> 'cV[R]_n.
  by apply/eqP => /matrixP /(_ i 0); rewrite !mxE !eqxx => /eqP; rewrite oner_eq0.
by move/(_ NZ).
Qed.

(** ** the transform itself, every state dimension above three *)
Lemma ut_negative n (mu : 'cV[R]_n) (S : 'M[R]_n) : (3 < n)%N -> pd S ->
  exists (F : pyfun R) (f : 'cV[R]_n -> 'cV[R]_1) pts pts' (m' v : R),
    [/\ fun1 F f, moments2points (A1 mu, A2 S) None None None = Ok pts,
        unscented_transform pts (Some F) None None = Ok (pts', (A1 (m'%:M : 'cV_1), A2 (v%:M : 'M_1))) & v < 0].
Proof.
move=> n3 HS; have [P EP] := spts_pd mu HS.
exists (pyf1 (bump mu 1%:M)), (bump mu 1%:M).
pose w0 : R := (3%:R - n%:R) / 3%:R.
have E := ut1E P (wdef R n) (wdef R n) None (pyf1E (bump mu (1%:M : 'cV[R]_1))).
exists (SigmaPoints (A2 P) (A1 (wdef R n)) (A1 (wdef R n))).
exists (SigmaPoints (A2 (fmap (bump mu (1%:M : 'cV[R]_1)) P)) (A1 (wdef R n)) (A1 (wdef R n))).
exists (wmean (fmap (bump mu (1%:M : 'cV[R]_1)) P) (wdef R n) 0 0), (w0 * (1 - w0)); split.
- exact: pyf1E.
- by rewrite m2p_defE EP.
- rewrite E /onoise /= addr0 (bump_cov _ (pd_sym HS) EP) trmx1 mulmx1 scalemx1 -/w0.
  by move: (wmean _ _) => q; rewrite {1}[q]mx11_scalar.
- by apply: le_lt_trans (w0_neg n3 erefl) _; rewrite oppr_lt0 divr_gt0 ?ltr0n.
Qed.

(** ** AdditiveUnscentedKalmanFilter *)
Lemma stream_missing m (zs : seq (orow R m)) t : all (@missing R m) zs -> stream zs t = None.
Proof.
rewrite /stream; elim: zs t => [|z zs IH] [|t] //= /andP[Hz Hzs]; first by rewrite Hz.
exact: IH.
Qed.
Lemma aukf_negative n m : (3 < n)%N -> exists (f : 'cV[R]_n -> 'cV[R]_n), forall (o : ukf R) (g : nat -> 'cV[R]_n -> 'cV[R]_m) zs,
  aukf_model o 2 (fun _ => f) g 1%:M 1%:M 0 1%:M -> size zs = 2%N -> all (@missing R m) zs ->
  aukf_filter o (O2 m zs) = Err LinAlgError.
Proof.
case: n => [//|n] n3; pose a : 'cV[R]_n.+1 := 3%:R *: delta_mx ord0 0; exists (bump 0 a) => o g zs HM Hsz Hm.
rewrite (aukf_filterE HM Hsz); last by rewrite /keeps Hsz.
rewrite /= /add_filt /= !stream_missing //.
have H1 : pd (1%:M : 'M[R]_n.+1) by exact: pd1.
have [P EP] := spts_pd (0 : 'cV[R]_n.+1) H1; have HS := spts_sigma (pd_sym H1) EP.
rewrite /add_first EP /=; rewrite /add_next /add_pred /= (sg_mean HS) (sg_self HS) EP /= (bump_cov _ (pd_sym H1) EP).
set w0 := _ / _; set V := _ + 1%:M; rewrite /add_corr /= spts_not_pd //.
  by rewrite /V linearD /= trmx1 linearZ /= trmx_mul trmxK.
apply: (@not_pd_diag _ V ord0); rewrite !mxE big_ord1 !mxE !eqxx !mulr1.
have := w0_neg n3 (erefl w0); move: (w0 * _) => q Hq.
have -> : (0 : R) = - (4%:R / 9%:R) * 9%:R + 4%:R by field; rewrite ?pnatr_eq0.
apply: ler_add; last by rewrite (ler_nat R 1 4).
have -> : 3%:R * 3%:R = 9%:R :> R by rewrite -natrM.
by rewrite ler_pmul2r ?ltr0n.
Qed.

(** ** UnscentedKalmanFilter *)
Definition bump2 n p (a : 'cV[R]_p) : 'cV[R]_n -> 'cV[R]_n -> 'cV[R]_p := fun x w => if (x == 0) && (w == 0) then a else 0.

Section Aug.
Variables (n m : nat) (Q P0 : 'M[R]_n) (Rn : 'M[R]_m).
Let N := (n + (n + m))%N.
Let S : 'M[R]_N := block_mx P0 0 0 (block_mx Q 0 0 Rn).
Hypothesis HS : pd S.
Variable P : 'M[R]_((N + N).+1, N).
Hypothesis EP : spts (0 : 'cV[R]_N) S = Some P.

(** the noise-only points: row [i] has zero state and transition noise *)
Definition quiet (i : 'I_((N + N).+1)) : bool := ((row i (px P))^T == 0) && ((row i (pw P))^T == 0).
Lemma quietE i : quiet i = [forall j : 'I_N, (j < n + n)%N ==> (P i j == 0)].
Proof.
apply/andP/forallP => [[/eqP H1 /eqP H2] j|H].
- apply/implyP => jn; rewrite -(splitK j) in jn *; case: (split j) jn => l /= ln.
  + by have := congr1 (fun v : 'cV_n => v l 0) H1; rewrite /= !mxE => ->.
  + rewrite ltn_add2l in ln; have -> : rshift n l = rshift n (lshift m (Ordinal ln)) by apply/val_inj.
    by have := congr1 (fun v : 'cV_n => v (Ordinal ln) 0) H2; rewrite /= !mxE => ->.
- split; apply/eqP/matrixP => l q; rewrite !mxE; apply/eqP.
  + by apply: (implyP (H _)); apply: leq_trans (ltn_ord l) (leq_addr _ _).
  + by apply: (implyP (H _)); rewrite /= ltn_add2l.
Qed.
Lemma quiet_weight : \sum_i (quiet i)%:R * wdef R N i 0 = (3%:R - (n + n)%:R) / 3%:R.
Proof.
move: EP; rewrite /spts (pd_sym HS); case E: (chol S) => [L|] //= [PE].
have [_ LT Ld] := chol_spec (pd_sym HS) E.
have s3 : 0 < Num.sqrt 3%:R :> R by rewrite sqrtr_gt0 ltr0n.
have Q0 : quiet ord0.
  by rewrite quietE; apply/forallP => j; apply/implyP => _; rewrite -PE row_0 mxE.
have Qp l : quiet (pos l) = (n + n <= l)%N.
  rewrite quietE; apply/forallP/idP => [/(_ l)|H j].
  - rewrite -PE row_pos mxE add0r mulf_eq0 (gt_eqF (Ld l)) (gt_eqF s3) /= implybF -leqNgt //.
  - by apply/implyP => jn; rewrite -PE row_pos mxE add0r LT ?mul0r //; exact: leq_trans jn H.
have Qn l : quiet (neg l) = (n + n <= l)%N.
  rewrite quietE; apply/forallP/idP => [/(_ l)|H j].
  - rewrite -PE row_neg mxE add0r oppr_eq0 mulf_eq0 (gt_eqF (Ld l)) (gt_eqF s3) /= implybF -leqNgt //.
  - by apply/implyP => jn; rewrite -PE row_neg mxE add0r LT ?mul0r ?oppr0 //; exact: leq_trans jn H.
rewrite sum_pts Q0 mul1r wt_0.
rewrite (eq_bigr (fun l : 'I_N => ((n + n <= l)%N)%:R * 3%:R^-1)); last first.
  move=> l _; rewrite Qp Qn wt_pos wt_neg -mulrDr; congr (_ * _); exact: half2 (ltr0Sn _ _).
rewrite -mulr_suml -natr_sum.
have -> : (\sum_(l < N) (n + n <= l))%N = m.
  rewrite /N addnA big_split_ord /= big1 => [|i _]; last by rewrite leqNgt ltn_ord.
  by rewrite add0n (eq_bigr (fun=> 1%N)) ?sum_nat_const ?card_ord ?muln1 // => i _; rewrite leq_addr.
by rewrite /N addnA natrD; field; rewrite ?pnatr_eq0.
Qed.
Lemma bump2_cov p (a : 'cV[R]_p) : let w0 := (3%:R - (n + n)%:R) / 3%:R in
  wcov (fmap2 (bump2 a) (px P) (pw P)) (wdef R N) (wdef R N) = (w0 * (1 - w0)) *: (a *m a^T).
Proof.
move=> w0; have -> : fmap2 (bump2 a) (px P) (pw P) = \matrix_(i, j) ((quiet i)%:R * a j 0).
  apply/matrixP=> i j; rewrite !mxE /bump2 -/(quiet i) (fun_if (fun v : 'cV_p => v j 0)) mxE.
  by case: (quiet i); rewrite ?mul1r ?mul0r.
by rewrite (ind_cov _ _ (wdef_sum _)) quiet_weight.
Qed.
End Aug.

Lemma ukf_negative n m : (1 < n)%N -> exists (f : 'cV[R]_n -> 'cV[R]_n -> 'cV[R]_n),
  forall (o : ukf R) (g : nat -> 'cV[R]_n -> 'cV[R]_m -> 'cV[R]_m) zs,
  ukf_model o 3 (fun _ => f) g 1%:M 1%:M 0 1%:M -> size zs = 3%N -> all (@missing R m) zs ->
  ukf_filter o (O2 m zs) = Err LinAlgError.
Proof.
case: n => [//|n] n1; pose a : 'cV[R]_n.+1 := 3%:R *: delta_mx ord0 0; exists (bump2 a) => o g zs HM Hsz Hm.
rewrite (ukf_filterE HM Hsz); last by rewrite /keeps Hsz.
rewrite /= /aug_filt /= !stream_missing //.
have H1 : pd (1%:M : 'M[R]_n.+1) by exact: pd1.
have Hm1 : pd (1%:M : 'M[R]_m) by exact: pd1.
have [P EP HS] := @aug_pts_sigma R n.+1 m 1%:M 1%:M H1 Hm1 (0, 1%:M) H1.
rewrite /aug_first EP /= /aug_next.
have -> : (wmean (px P) (wdef R _), wcov (px P) (wdef R _) (wdef R _)) = (0 : 'cV[R]_n.+1, 1%:M : 'M[R]_n.+1).
  rewrite /px lsub_aff (aff_wmean HS) (aff_wcov HS); congr (_, _).
    by rewrite mul_row_col mul1mx mul0mx !addr0.
  by rewrite mul_row_block tr_row_mx !(mul1mx, mul0mx, mulmx0, addr0, add0r) mul_row_col trmx1 trmx0 mulmx0 mulmx1 addr0.
rewrite EP /= /aug_corr /=.
set X := fmap2 _ _ _; set V := wcov X _ _; set mX := wmean X _.
have EP0 : spts (0 : 'cV[R]_(n.+1 + (n.+1 + m))) (block_mx 1%:M 0 0 (block_mx 1%:M 0 0 1%:M)) = Some P.
  by move: EP; rewrite /aug_pts /= !col_mx0.
have HB : pd (block_mx 1%:M 0 0 (block_mx 1%:M 0 0 1%:M) : 'M[R]_(n.+1 + (n.+1 + m))) by apply: pd_diag => //; exact: pd_diag.
have EV := bump2_cov HB EP0 a; rewrite -/X -/V in EV.
rewrite [aug_pts _ _ (mX, V)]/aug_pts spts_not_pd //.
  by rewrite !tr_block_mx !trmx0 !trmx1 EV linearZ /= trmx_mul trmxK.
apply: (@not_pd_diag _ _ (lshift _ ord0)); rewrite block_mxEul EV /a !mxE big_ord1 !mxE !eqxx !mulr1.
set w0 := _ / _; have Hn : (3 < n.+1 + n.+1)%N by move: n1; case: (n) => // k _; rewrite !addSn !addnS.
have Hq := w0_neg Hn (erefl w0); apply: mulr_le0_ge0; last by rewrite mulr_ge0 ?ler0n.
by apply: le_trans Hq _; rewrite oppr_le0 divr_ge0 ?ler0n.
Qed.
End Neg.
