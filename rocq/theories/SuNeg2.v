(** Two observed components: the square-root unscented filter uses the wrong gain. *)
From Coq Require Import String List.
From mathcomp Require Import all_ssreflect all_algebra.
From mathcomp Require Import ring.
From Verif Require Import Prelude Zmod LinAlg Numpy NumpyFacts Sklearn Standard Model KfSpec StandardInit StandardFacts Rng Sqrt SqrtFacts Unscented UscSpec UscFacts UscRefine UscLoop
  UscInit UscMain UscPsd UscNeg SqrtUnscented CuFacts SuTri SuFacts SuStep SuMain SuNeg Examples ExamplesEm UscProps ExamplesUsc.
Import GRing.Theory Num.Theory Order.Theory.

Set Implicit Arguments.
Unset Strict Implicit.
Unset Printing Implicit Defensive.
Local Open Scope ring_scope.

#[local] Arguments fun_at : simpl never.
#[local] Arguments wdef : simpl never.
#[local] Arguments spts : simpl never.
#[local] Arguments ucorr : simpl never.

Section Neg2.
Variable R : rcfType.

Lemma gain_arith (a b d k1 k2 : R) : a * a = 16%:R -> a * b = 4%:R -> b * b + d * d = 5%:R ->
  k1 * (a * a + b * b) + k2 * (b * d) = 2%:R -> k1 * (b * d) + k2 * (d * d) = 2%:R -> k1 * 32%:R <> 1.
Proof.
move=> Ha Hab Hbd H1 H2 H.
have n16 : 16%:R != 0 :> R by rewrite pnatr_eq0.
have Hb : b * b = 1.
  apply: (mulfI n16); rewrite mulr1 -{1}Ha.
  have -> : a * a * (b * b) = (a * b) * (a * b) by ring.
  by rewrite Hab -natrM.
have Hd : d * d = 4%:R by apply: (addrI (b * b)); rewrite Hbd Hb; ring.
have He : (b * d) * (b * d) = 4%:R.
  have -> : (b * d) * (b * d) = (b * b) * (d * d) by ring.
  by rewrite Hb Hd mul1r.
move: (b * d) He H1 H2 => e He; rewrite Ha Hb Hd => H1 H2.
have E1 : k2 * e = 2%:R - k1 * (16%:R + 1) by rewrite -H1; ring.
have E2 : k1 * 4%:R + 4%:R * (k2 * e) = 2%:R * e by rewrite -{1}He -H2; ring.
rewrite E1 in E2.
have E3 : 6%:R = 2%:R * e :> R.
  rewrite -E2; have -> : k1 * 4%:R + 4%:R * (2%:R - k1 * (16%:R + 1)) = 8%:R - 2%:R * (k1 * 32%:R) by ring.
  by rewrite H; ring.
have E4 : e = 3%:R.
  by apply: (mulfI (_ : 2%:R != 0)); rewrite ?pnatr_eq0 // -E3 -natrM.
by move: He; rewrite E4 -natrM => /eqP; rewrite eqr_nat.
Qed.

Lemma foldr_cons (A B : Type) (f : A -> B -> res A) a x l : foldr_res f a (x :: l) = (a' <-- f a x ;; foldr_res f a' l).
Proof. by []. Qed.
Lemma cu_n1 v (A : 'M[R]_1) (X : 'M[R]_(v, 1)) w : exists F : 'M[R]_1, cholupdate (A2 A) (A2 X) w = Ok (A2 F).
Proof.
rewrite cholupdateE; elim: (iota 0 v) A => [|i l IH] A; first by exists A.
have [F EF] : exists F : 'M[R]_1, cu_outer (Num.sg w) (Num.sqrt `|w| *: X) A i = Ok F.
  by rewrite /cu_outer [iota 0 1]/= [foldr_res _ _ _]/= /cu_inner /= ; eexists.
by have [F2 E2] := IH F; exists F2; rewrite -E2 foldr_cons EF.
Qed.

Definition two_f : nat -> 'cV[R]_1 -> 'cV[R]_1 := fun _ x => x.
Definition two_g : nat -> 'cV[R]_1 -> 'cV[R]_2 := fun _ x => (const_mx 2%:R : 'M[R]_(2, 1)) *m x + 0.
Definition two_R : 'M[R]_2 := diag_mx (\row_j if j == 0 then 12%:R else 1).
Definition two_o : ukf R := @ukf_of R 1 2 _ _ (@pyf1 R 1 1) (@pyf1 R 1 2) 2 two_f two_g 1%:M two_R 0 1%:M None.
Lemma two_model : aukf_model two_o 2 two_f two_g 1%:M two_R 0 1%:M. Proof. exact: aukf_of_model. Qed.
Definition two_z : 'cV[R]_2 := \col_j if j == 0 then 32%:R else 0.
Definition two_zs : seq (orow R 2) := [:: mk_row false two_z; mk_row true 0].

Lemma two_R_pd : pd two_R.
Proof.
rewrite /two_R; have -> : diag_mx (\row_j if j == 0 then 12%:R else 1) = 1%:M + diag_mx (\row_j (if (j : 'I_2) == 0 then 11%:R else 0 : R)).
  apply/matrixP=> i j; rewrite !mxE; case: (i == 0); case: (i == j); rewrite ?mulr0n ?mulr1n ?addr0 //; ring.
apply: pdDr; first exact: pd1.
have -> : (\row_j (if (j : 'I_2) == 0 then 11%:R else 0 : R)) = (\col_j (if (j : 'I_2) == 0 then 11%:R else 0 : R))^T.
  by apply/matrixP=> i j; rewrite !mxE.
by apply: diag_ge0 => i; rewrite mxE; case: (i == 0); rewrite ?ler0n.
Qed.

Let w := wdef R 1.
Let P := sigma_rows (0 : 'cV[R]_1) (1%:M : 'M[R]_1)^T 3%:R.
Let Z := fmap (two_g 0) P.
Lemma two_sig : is_sigma P w w 0 1%:M.
Proof. exact: spts_sigma (trmx1 _ _) (sptsE 0 (is_chol_1 R 1)). Qed.
Lemma two_moments : [/\ wmean Z w = 0, wcov Z w w = const_mx 4%:R & wcross w (cen P 0) (cen Z (wmean Z w)) = const_mx 2%:R].
Proof.
have H := two_sig; have EZ : Z = aff_rows P (const_mx 2%:R) 0 by rewrite /Z /two_g fmap_affine.
have EM : wmean Z w = (const_mx 2%:R : 'M[R]_(2, 1)) *m 0 + 0 by rewrite EZ aff_mean ?(sg_one H) // (sg_mean H).
have EM0 : wmean Z w = 0 by rewrite EM mulmx0 addr0.
have EC : cen Z (wmean Z w) = cen P 0 *m (const_mx 2%:R : 'M[R]_(2, 1))^T by rewrite EM EZ aff_cen.
have S1 := sg_cov H.
split=> //.
  rewrite /wcov EC wcross_mul S1 mulmx1; apply/matrixP=> i j; rewrite !mxE big_ord1 !mxE -natrM //.
by rewrite EC -[X in wcross w X _]mulmx1 wcross_mul S1 trmx1 !mul1mx trmx_const.
Qed.

Lemma su_step_missing (qr : qr_fun R) n m (p : uparams R) (Q2 : 'M[R]_n) (R2 : 'M[R]_m) t H G (f : 'cV[R]_n -> 'cV[R]_n) (g : 'cV[R]_n -> 'cV[R]_m)
    (mu : 'cV[R]_n) (S2 : 'M[R]_n) (z : orow R m) : qr_valid qr ->
  fun_at (u_f p) t = Ok H -> fun1 H f -> fun_at (u_g p) t.+1 = Ok G -> fun1 G g -> missing z ->
  exists (mu' : 'cV[R]_n) (V : 'M[R]_n), su_step qr p (A2 Q2) (A2 R2) n t.+1 (Some (A1 mu, A2 S2)) (A1 z.1, missing z) = Ok (A1 mu', A2 V).
Proof.
move=> Hqr EH HH EG HG M1; rewrite /su_step bO su_m2pE bO [_.-1]/= EH bO.
have [V -> [HV EV]] := su_utE Hqr (sigma_rows mu S2^T 3%:R) (wdef R n) (wdef R n) Q2 HH.
rewrite bO su_m2pE bO EG bO bO.
have [V' E' _] := su_filter_correctE Hqr (sigma_rows (wmean (fmap f (sigma_rows mu S2^T 3%:R)) (wdef R n)) V^T 3%:R) (wdef R n)
   (wmean (fmap f (sigma_rows mu S2^T 3%:R)) (wdef R n)) V R2 z.1 (missing z) HG.
by rewrite {}E' /su_correct M1 [~~ _]/= bO assign1E bO assign2E bO; do 2 eexists.
Qed.

(** the gain equations *)
Lemma two_gain_sqrt (V : 'M[R]_2) : upper V -> V^T *m V = const_mx 4%:R + two_R ->
  ((const_mx 2%:R : 'M[R]_(1, 2)) *m invmx (V *m V^T) *m (two_z - 0)) 0 0 <> 1.
Proof.
move=> HV E; have HW : pd (V^T *m V).
  rewrite E; apply: pdD; last exact: two_R_pd.
  have -> : const_mx 4%:R = (const_mx 2%:R : 'M[R]_(1, 2))^T *m const_mx 2%:R :> 'M[R]_2; last exact: psd_gramT.
  by apply/matrixP=> i j; rewrite !mxE big_ord1 !mxE -natrM.
have uV : V *m V^T \in unitmx.
  by have := pd_unit HW; rewrite unitmx_mul unitmx_tr andbb => H; rewrite unitmx_mul unitmx_tr H.
set K := _ *m invmx _; have EK : K *m (V *m V^T) = const_mx 2%:R by rewrite mulmxKV.
move: K EK => K EK.
have -> : (K *m (two_z - 0)) 0 0 = K 0 0 * 32%:R.
  by rewrite subr0 !mxE !big_ord_recl big_ord0 !mxE /= mulr0 !addr0.
have V10 : V 1 0 = 0 by exact: HV.
have G (i j : 'I_2) : V 0 i * V 0 j + V 1 i * V 1 j = 4%:R + two_R i j.
  have := congr1 (fun M : 'M_2 => M i j) E; rewrite /= mxE !big_ord_recl big_ord0 addr0 !mxE.
  by have -> : lift ord0 ord0 = 1 :> 'I_2 by apply/val_inj.
have H (j : 'I_2) : K 0 0 * (V 0 0 * V j 0 + V 0 1 * V j 1) + K 0 1 * (V 1 0 * V j 0 + V 1 1 * V j 1) = 2%:R.
  have := congr1 (fun M : 'M_(1, 2) => M 0 j) EK; rewrite /= mxE !big_ord_recl big_ord0 addr0 !mxE.
  rewrite !big_ord_recl !big_ord0 !addr0 !mxE.
  by have -> : lift ord0 ord0 = 1 :> 'I_2 by apply/val_inj.
apply: (@gain_arith (V 0 0) (V 0 1) (V 1 1) (K 0 0) (K 0 1)).
- by have := G 0 0; rewrite V10 mul0r addr0 => ->; rewrite !mxE /=; ring.
- by have := G 0 1; rewrite V10 mul0r addr0 => ->; rewrite !mxE /=; ring.
- by have := G 1 1; move=> ->; rewrite !mxE /=; ring.
- by have := H 0; rewrite V10 mul0r add0r [V 1 1 * _]mulrC.
- by have := H 1; rewrite V10 !mulr0 !add0r.
Qed.
Lemma two_gain_plain : ((const_mx 2%:R : 'M[R]_(1, 2)) *m pinv (const_mx 4%:R + two_R) *m (two_z - 0)) 0 0 = 1.
Proof.
have HW : pd (const_mx 4%:R + two_R).
  apply: pdD; last exact: two_R_pd.
  have -> : const_mx 4%:R = (const_mx 2%:R : 'M[R]_(1, 2))^T *m const_mx 2%:R :> 'M[R]_2; last exact: psd_gramT.
  by apply/matrixP=> i j; rewrite !mxE big_ord1 !mxE -natrM.
rewrite pinv_unit ?pd_unit //; set K := _ *m invmx _.
have EK : K *m (const_mx 4%:R + two_R) = const_mx 2%:R by rewrite mulmxKV ?pd_unit.
move: K EK => K EK.
have -> : (K *m (two_z - 0)) 0 0 = K 0 0 * 32%:R.
  by rewrite subr0 !mxE !big_ord_recl big_ord0 !mxE /= mulr0 !addr0.
have H (j : 'I_2) : K 0 0 * (4%:R + two_R 0 j) + K 0 1 * (4%:R + two_R 1 j) = 2%:R.
  have := congr1 (fun M : 'M_(1, 2) => M 0 j) EK; rewrite /= mxE !big_ord_recl big_ord0 addr0 !mxE.
  by have -> : lift ord0 ord0 = 1 :> 'I_2 by apply/val_inj.
have := H 0; have := H 1; rewrite !mxE /= ?mulr0n ?mulr1n => H1 H0.
move: (K 0 0) (K 0 1) H0 H1 => a b H0 H1.
have -> : a * 32%:R = 2%:R^-1 * (5%:R * (a * (4%:R + 12%:R) + b * (4%:R + 0)) - 4%:R * (a * (4%:R + 0) + b * (4%:R + 1))) by field.
by rewrite H0 H1; field.
Qed.

Lemma two_wrong (qr : qr_fun R) : qr_valid qr ->
  exists (mu mu' : 'cV[R]_1) c c' rows rows', [/\ sukf_filter qr two_o (O2 2 two_zs) = Ok ((A1 mu, c) :: rows),
    aukf_filter two_o (O2 2 two_zs) = Ok ((A1 mu', c') :: rows') & mu <> mu'].
Proof.
move=> Hqr; have HM := two_model.
have [G EG HG] := um_G HM (@dflt1 R 1 2) (isT : (0 < 2)%N).
have [G' EG' HG'] := um_G HM (@dflt1 R 1 2) (isT : (1 < 2)%N).
have [H EH HH] := um_F HM (@dflt1 R 1 1) (isT : (0 < 1)%N).
have HF := is_chol_1 R 1; have [M1 M2 M3] := two_moments.
have tg : tame (two_g 0) by left.
have dR : is_diag_mx two_R by apply/is_diag_mxP=> i j ij; rewrite mxE -(inj_eq val_inj) (negbTE ij) mulr0n.
pose ps := uinit_value (@add_default R) two_o.
have S0 (R2 : 'M[R]_2) : is_chol two_R R2 ->
  exists (V : 'M[R]_2) (F' : 'M[R]_1), [/\ upper V, V^T *m V = const_mx 4%:R + two_R &
   su_step qr ps (A2 (1%:M : 'M[R]_1)) (A2 R2) 1 0 None (A1 two_z, false) = Ok (A1 (0 + (const_mx 2%:R : 'M[R]_(1, 2)) *m invmx (V *m V^T) *m (two_z - 0)), A2 F')].
  move=> HR2; rewrite /su_step (um_E0 _ HM) (um_EP _ HM); have [F1 -> HF1] := cholupperE (pd1 R 1); rewrite (upper_uniq HF1 HF) bO bO su_m2pE bO.
  have [V0 -> _] := p2m_self Hqr 0 (is_chol_regular HF); rewrite bO EG bO.
  have [V -> [HV EV]] := su_filter_correctE Hqr P w 0 V0 R2 two_z false HG.
  rewrite -(tame_abs 0 (1%:M : 'M[R]_1)^T tg) (diag_chol dR HR2) in EV.
  rewrite -/P -/Z -/w M2 in EV.
  have uV : V \in unitmx.
    have HW : pd (V^T *m V).
      rewrite EV; apply: pdD; last exact: two_R_pd.
      by rewrite -M2; apply: wcov_psd => i; exact: wdef_ge0.
    by have := pd_unit HW; rewrite unitmx_mul => /andP[].
  rewrite -/Z M3 M1 su_correctE //; have [F' ->] := cu_n1 V0 ((const_mx 2%:R : 'M[R]_(1, 2)) *m invmx (V *m V^T) *m V)^T (-1).
  by exists V, F'; split; [exact: HV|exact: EV|rewrite bO bO assign1E bO assign2E bO].
have [R2 ER2 HR2] := cholupperE two_R_pd; have [V [F' [HV EV ES]]] := S0 R2 HR2.
have MI0 : missing (mk_row false two_z) = false by exact: missing_row.
have MI1 : missing (mk_row true (0 : 'cV[R]_2)) by rewrite missing_row.
have [mu1 [V1 E1]] := su_step_missing 1%:M R2 (0 + (const_mx 2%:R : 'M[R]_(1, 2)) *m invmx (V *m V^T) *m (two_z - 0)) F' Hqr EH HH EG' HG' MI1.
have EL : su_filter_ qr ps two_zs = Ok [:: (A1 (0 + (const_mx 2%:R : 'M[R]_(1, 2)) *m invmx (V *m V^T) *m (two_z - 0)), A2 F'); (A1 mu1, A2 V1)].
  rewrite /su_filter_ (um_EQ _ HM) (um_ER _ HM) [shape_m1 _]/= bO.
  have [F1 -> HF1] := cholupperE (pd1 R 1); rewrite (upper_uniq HF1 HF) bO ER2 bO uloop_cons MI0 [fst _]/= ES bO uloop_cons E1.
  exact: erefl.
have EA : exists s1, add_filt 1%:M two_R 0 1%:M two_f two_g (stream two_zs) 1 = Some s1.
  by have [s1 -> _] := add_filt_pd 0 two_f two_g (isT : (1 <= 3)%N) (pd1 R 1) two_R_pd (pd1 R 1) (stream two_zs) 1; exists s1.
have [s1 Es1] := EA.
have E0 : add_filt 1%:M two_R 0 1%:M two_f two_g (stream two_zs) 0 =
   Some (0 + (const_mx 2%:R : 'M[R]_(1, 2)) *m pinv (const_mx 4%:R + two_R) *m (two_z - 0),
     1%:M - (const_mx 2%:R : 'M[R]_(1, 2)) *m pinv (const_mx 4%:R + two_R) *m (const_mx 2%:R : 'M[R]_(1, 2))^T).
  rewrite -[LHS]/(add_first two_R 0 1%:M two_g (cut (mk_row false two_z))) /add_first (sptsE 0 HF) /cut MI0 [omap _ _]/=.
  by rewrite /ucorr -/P -/Z [fst _]/= [snd _]/= (sg_mean two_sig) M3 M2 M1 (sg_self two_sig).
exists (0 + (const_mx 2%:R : 'M[R]_(1, 2)) *m invmx (V *m V^T) *m (two_z - 0)).
exists (0 + (const_mx 2%:R : 'M[R]_(1, 2)) *m pinv (const_mx 4%:R + two_R) *m (two_z - 0)).
exists (A2 (F'^T *m F')), (A2 (1%:M - (const_mx 2%:R : 'M[R]_(1, 2)) *m pinv (const_mx 4%:R + two_R) *m (const_mx 2%:R : 'M[R]_(1, 2))^T)).
exists [:: (A1 mu1, A2 (V1^T *m V1))], [:: lift_s s1]; split.
- rewrite /sukf_filter parse_keep // (um_init _ HM) bO -/ps EL bO /su_covariances mapr_cons /su_gram [snd _]/= tr2 bO dot22 bO bO mapr_cons [snd _]/= tr2 bO dot22 bO bO.
  exact: erefl.
- by rewrite (aukf_filterE HM) // -[iota 0 2]/[:: 0%N; 1%N] mapr_cons E0 [lift_o _]/= bO mapr_cons Es1 [lift_o _]/= bO.
move/(congr1 (fun M : 'M_1 => M 0 0)); rewrite !add0r two_gain_plain; exact: two_gain_sqrt.
Qed.
End Neg2.
