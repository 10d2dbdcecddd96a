(** Counterexamples to properties stated more broadly than they hold, and the
    rejection of an invalid [random_state] by UnscentedKalmanFilter.  Proofs
    only; nothing here models code. *)
From Coq Require Import String List.
From mathcomp Require Import all_ssreflect all_algebra.
From mathcomp Require Import ring.
From Verif Require Import Prelude Zmod LinAlg Numpy NumpyFacts Sklearn Standard Model KfSpec StandardInit StandardFacts KfModelFacts KfGlue
  Rng Sqrt SqrtFacts Cholesky ChMain Bierman BiFacts BiUdu BiMain EmSpec Unscented UscSpec UscFacts UscRefine UscLoop UscInit UscMain UscPsd UscNeg UscShape
  SqrtUnscented CuFacts SuTri SuFacts SuStep SuMain SuStruct SuNeg SuNeg2 Examples ExamplesEm UscProps ExamplesUsc UscSampleSpec UscSample.
Import GRing.Theory Num.Theory Order.Theory.

Set Implicit Arguments.
Unset Strict Implicit.
Unset Printing Implicit Defensive.
Local Open Scope ring_scope.

#[local] Arguments fun_at : simpl never.
#[local] Arguments wdef : simpl never.
#[local] Arguments spts : simpl never.
#[local] Arguments ucorr : simpl never.

Section Rejects.
Variables (R : rcfType) (G : Type) (rl : rng_lib R G).
Lemma ukf_rejects n m (o : ukf R) T T' f g (Q : 'M[R]_n) (V : 'M[R]_m) mu0 P0 x0 w : ukf_model o T f g Q V mu0 P0 ->
  ukf_sample rl o T' x0 (Some RsOther) w = (w, Err AttributeError) /\
  forall z : int, ~~ ((0 <= z) && (z < 2%:R ^+ 32)) -> ukf_sample rl o T' x0 (Some (RsSeed z)) w = (w, Err ValueError).
Proof.
move=> HM; apply: (@usample_rejects _ _ _ _ _ _ _ _ _ _ n m (um_init _ HM)).
  by rewrite (um_EQ _ HM).
by rewrite (um_ER _ HM).
Qed.
End Rejects.

(** ** One column given to filters of two-dimensional observations *)
Section Width.
Variable R : rcfType.

Lemma one_column_accepted_aug : exists (o : ukf R) (zs : seq (orow R 1)),
  [/\ o_m o = 2%N, has (fun z : orow R 1 => ~~ missing z) zs & is_ok (ukf_filter o (O2 1 zs))].
Proof.
exists (aug_o R), (nseq 3 (mk_row false 0)); split=> //; first by rewrite /= missing_row.
rewrite (ukf_widen (aug_o_model R)) //.
set zs := [seq _ | _ <- _]; have Hsz : size zs = 3%N by [].
have EQ : forall t, (t < 3.-1)%N -> mQ (em_M R) t = proj R + 1%:M by [].
have ER : forall t, (t < 3)%N -> mR (em_M R) t = 1%:M by [].
by have [_ _ []] := ukf_is_kf EQ ER (em_o_model R) Hsz erefl (aug_o_model R) (pp_pd R) (pp_pd R) (pd1 R 2).
Qed.

Lemma two_runs (qr : qr_fun R) (r0 r1 : orow R 2) : qr_valid qr -> missing r0 = false -> missing r1 ->
  is_ok (sukf_filter qr (two_o R) (O2 2 [:: r0; r1])).
Proof.
move=> Hqr MI0 MI1; have HM := two_model R.
have [G EG HG] := um_G HM (@dflt1 R 1 2) (isT : (0 < 2)%N).
have [G' EG' HG'] := um_G HM (@dflt1 R 1 2) (isT : (1 < 2)%N).
have [H EH HH] := um_F HM (@dflt1 R 1 1) (isT : (0 < 1)%N).
have HF := is_chol_1 R 1.
have dR : is_diag_mx (two_R R) by apply/is_diag_mxP=> i j ij; rewrite mxE -(inj_eq val_inj) (negbTE ij) mulr0n.
pose ps := uinit_value (@add_default R) (two_o R).
have S0 (R2 : 'M[R]_2) : is_chol (two_R R) R2 ->
  exists (v : 'cV[R]_1) (F' : 'M[R]_1),
   su_step qr ps (A2 (1%:M : 'M[R]_1)) (A2 R2) 1 0 None (A1 r0.1, false) = Ok (A1 v, A2 F').
  move=> HR2; rewrite /su_step (um_E0 _ HM) (um_EP _ HM); have [F1 -> HF1] := cholupperE (pd1 R 1); rewrite (upper_uniq HF1 HF) bO bO su_m2pE bO.
  have [V0 -> _] := p2m_self Hqr 0 (is_chol_regular HF); rewrite bO EG bO.
  have [V -> [HV EV]] := su_filter_correctE Hqr (sigma_rows 0 (1%:M : 'M[R]_1)^T 3%:R) (wdef R 1) 0 V0 R2 r0.1 false HG.
  have uV : V \in unitmx.
    have HW : pd (V^T *m V).
      rewrite EV (diag_chol dR HR2); apply: pdD; last exact: two_R_pd.
      by apply: wcross_psd; exact: wabs_ge0.
    by have := pd_unit HW; rewrite unitmx_mul => /andP[].
  rewrite su_correctE //; set C := wcross _ _ _; have [F' ->] := cu_n1 V0 (C *m invmx (V *m V^T) *m V)^T (-1).
  by do 2 eexists; rewrite bO bO assign1E bO assign2E bO; exact: erefl.
have [R2 ER2 HR2] := cholupperE (two_R_pd R); have [v [F' ES]] := S0 R2 HR2.
have [mu1 [V1 E1]] := su_step_missing 1%:M R2 v F' Hqr EH HH EG' HG' MI1.
have EL : su_filter_ qr ps [:: r0; r1] = Ok [:: (A1 v, A2 F'); (A1 mu1, A2 V1)].
  rewrite /su_filter_ (um_EQ _ HM) (um_ER _ HM) [shape_m1 _]/= bO.
  have [F1 -> HF1] := cholupperE (pd1 R 1); rewrite (upper_uniq HF1 HF) bO ER2 bO uloop_cons MI0 [fst _]/= ES bO uloop_cons E1.
  exact: erefl.
rewrite /sukf_filter parse_keep // (um_init _ HM) bO EL bO.
by rewrite /su_covariances mapr_cons /su_gram [snd _]/= tr2 bO dot22 bO bO mapr_cons [snd _]/= tr2 bO dot22 bO.
Qed.

Lemma one_column_accepted_sqrt (qr : qr_fun R) : qr_valid qr -> exists (o : ukf R) (zs : seq (orow R 1)),
  [/\ o_m o = 2%N, has (fun z : orow R 1 => ~~ missing z) zs & is_ok (sukf_filter qr o (O2 1 zs))].
Proof.
move=> Hqr; exists (two_o R), [:: mk_row false 0; mk_row true 0]; split; [exact: erefl|by rewrite /= missing_row|].
rewrite (sukf_widen Hqr (two_model R) (two_R_pd R) (pd1 R 1) (pd1 R 1)) //.
by apply: two_runs => //; rewrite missing_widen // missing_row.
Qed.
End Width.

(** ** Recoding the observations when the noise is singular *)
Section Recode.
Variable R : rcfType.
Lemma pinv_rank1 (c : 'cV[R]_2) (s : R) : c^T *m c = s%:M -> s != 0 -> pinv (c *m c^T) = (s^-1 ^+ 2) *: (c *m c^T).
Proof.
move=> E s0; have Q : c *m c^T *m (c *m c^T) = s *: (c *m c^T).
  by rewrite mulmxA -(mulmxA c) E mul_mx_scalar scalemxAl.
have sT : (c *m c^T)^T = c *m c^T by rewrite trmx_mul trmxK.
apply/esym/pinv_uniq.
- rewrite -scalemxAr -scalemxAl Q -scalemxAl Q !scalerA; have -> : s^-1 ^+ 2 * s * s = 1 by rewrite expr2; field.
  exact: scale1r.
- rewrite -scalemxAl Q scalerA -scalemxAr -scalemxAl Q !scalerA; congr (_ *: _).
  by rewrite expr2; field.
- by rewrite -scalemxAr linearZ /= Q linearZ /= sT.
- by rewrite -scalemxAl linearZ /= Q linearZ /= sT.
Qed.

(** one scalar state observed twice without noise *)
Definition rec_c : 'cV[R]_2 := const_mx 1.
Definition rec_z : 'cV[R]_2 := \col_j (nat_of_ord j)%:R.
Definition rec_N : 'M[R]_2 := diag_mx (\row_j if j == 0 then 2%:R else 1).
Definition rec_M : lgm R 1 2 := LGM (fun _ => 1%:M) (fun _ => 0) (fun _ => 0) (fun _ => rec_c) (fun _ => 0) (fun _ => 0) 0 1%:M.
Definition rec_zs : seq (orow R 2) := [:: mk_row false rec_z; mk_row true 0].
Definition rec_o : kf R := obj_of rec_M 2 true.
Definition rec_o' : kf R := obj_of (recode_model rec_M rec_N 0) 2 true.

Lemma rec_mean (M : lgm R 1 2) (zs : seq (orow R 2)) (s : R) : mmu M = 0 -> mP M = 1%:M -> mR M 0 = 0 -> md M 0 = 0 ->
  stream zs 0 = Some rec_z -> (mC M 0)^T *m mC M 0 = s%:M -> s != 0 -> (mC M 0)^T *m rec_z = 1%:M ->
  (filt M (stream zs) 0).1 = s^-1%:M.
Proof.
move=> E1 E2 E3 E4 Ez Es s0 Ec; rewrite /filt /= /correct Ez /= E1 E2 E4 /gain /innov_cov E3 !mul1mx addr0 mulmx0 addr0 subr0 add0r.
rewrite (pinv_rank1 Es s0) -scalemxAr -scalemxAl mulmxA Es -mulmxA Ec mulmx1 scale_scalar_mx.
by congr (_%:M); field.
Qed.
Lemma recode_singular : exists (M : lgm R 1 2) (N : 'M[R]_2) (o o' : kf R) (zs zs' : seq (orow R 2)) rows rows',
  [/\ psd_model M 2 /\ N \in unitmx, kf_model o 2 M /\ kf_model o' 2 (recode_model M N 0), size zs = 2%N /\ recoded N 0 zs zs' &
      [/\ kf_filter o (O2 2 zs) = Ok rows, kf_filter o' (O2 2 zs') = Ok rows' & rows <> rows']].
Proof.
have Ho : kf_model rec_o 2 rec_M by exact: obj_model.
have Ho' : kf_model rec_o' 2 (recode_model rec_M rec_N 0) by exact: obj_model.
have Ez : stream rec_zs 0 = Some rec_z by rewrite /stream /= missing_row.
have c1 : rec_c^T *m rec_c = (2%:R : R)%:M.
  by apply/matrixP=> i j; rewrite !ord1 !mxE !big_ord_recl big_ord0 !mxE /= mulr1n; ring.
have c2 : rec_c^T *m rec_z = 1%:M.
  by apply/matrixP=> i j; rewrite !ord1 !mxE !big_ord_recl big_ord0 !mxE /= mulr1n; ring.
have ENc : rec_N *m rec_c = \col_j if j == 0 then 2%:R else 1.
  by apply/matrixP=> i j; rewrite /rec_N mul_diag_mx !mxE mulr1.
have c3 : (rec_N *m rec_c)^T *m (rec_N *m rec_c) = (5%:R : R)%:M.
  by rewrite ENc; apply/matrixP=> i j; rewrite !ord1 !mxE !big_ord_recl big_ord0 !mxE /= mulr1n; ring.
have c4 : (rec_N *m rec_c)^T *m rec_z = 1%:M.
  by rewrite ENc; apply/matrixP=> i j; rewrite !ord1 !mxE !big_ord_recl big_ord0 !mxE /= mulr1n; ring.
have ENz : rec_N *m rec_z = rec_z.
  by apply/matrixP=> i j; rewrite /rec_N mul_diag_mx !mxE; case: i => [[|[|[]]]] //= _; ring.
exists rec_M, rec_N, rec_o, rec_o', rec_zs, rec_zs; do 2 eexists; split.
- split; first by split=> *; [exact: pd_psd (pd1 R 1)|exact: psd0|exact: psd0].
  by rewrite unitmxE det_diag !big_ord_recl big_ord0 !mxE /= !mulr1 unitfE pnatr_eq0.
- by split; [exact: Ho|exact: Ho'].
- split=> //; do 2 (constructor; first by split; [exact: erefl|rewrite missing_row //= addr0 ENz]); constructor.
have n2 : (2%:R : R) != 0 by rewrite pnatr_eq0.
have n5 : (5%:R : R) != 0 by rewrite pnatr_eq0.
have F1 := @rec_mean rec_M rec_zs 2%:R erefl erefl erefl erefl Ez c1 n2 c2.
have F2 : (filt (recode_model rec_M rec_N 0) (stream rec_zs) 0).1 = (5%:R^-1)%:M.
  by apply: (@rec_mean (recode_model rec_M rec_N 0) rec_zs 5%:R _ _ _ _ Ez c3 n5 c4) => //=; rewrite mulmx0 ?mul0mx ?addr0.
split; [exact: (kf_filter_ok Ho)|exact: (kf_filter_ok Ho')|].
rewrite -[iota 0 2]/[:: 0%N; 1%N] !map_cons F1 F2 => /(congr1 (fun l => if l is (A1 _ v, _) :: _ then vget v 0 else 0)).
rewrite -[LHS]/(mget ((2%:R^-1)%:M : 'M[R]_1) (0 : 'I_1) (0 : 'I_1)) -[RHS]/(mget ((5%:R^-1)%:M : 'M[R]_1) (0 : 'I_1) (0 : 'I_1)) !mgetE !mxE /= !mulr1n.
by move/invr_inj/eqP; rewrite eqr_nat.
Qed.
End Recode.

(** ** Covariances that vary with time: accepted by KalmanFilter, rejected by
    the Cholesky and Bierman filters *)
Section Varying.
Variable R : rcfType.
Lemma bi_varying_oc n m (o : kf R) T (M : lgm R n m) a b (s : seq 'M[R]_(a, b)) k (zs : seq (orow R k)) : (0 < n)%N ->
  kf_model o T M -> psd (mP M) -> k_oc o = Some (A3 s) -> bkf_filter o (O2 k zs) = Err ValueError.
Proof.
move=> n0 Ho pP HR; rewrite /bkf_filter /filter_with.
case: (parse_observations _) => k' zs'; rewrite (initialize_parametersE (km_rs Ho)) bO.
have Hp := kf_model_params Ho; rewrite /bi_flt /bi_filter_ (pm_im Hp) len1E bO (pm_ic Hp).
have [U0 [D0 [-> HU0 _]]] := udu_ok n0 pP; rewrite bO.
by rewrite /init_value HR.
Qed.

Definition var_M : lgm R 1 1 :=
  LGM (fun _ => 1%:M) (fun _ => 0) (fun t => t.+1%:R%:M) (fun _ => 1%:M) (fun _ => 0) (fun t => t.+1%:R%:M) 0 1%:M.
Lemma var_pd mis T : pd_model mis T var_M.
Proof.
have H t : pd ((t.+1%:R : R)%:M : 'M[R]_1) by rewrite -scalemx1; apply: pdZ; [rewrite ltr0Sn|exact: pd1].
by split=> *; [exact: pd1|exact: H|exact: H].
Qed.
Lemma ch_varying_refuted (qr : qr_fun R) : exists (o : kf R) (M : lgm R 1 1) (zs : seq (orow R 1)),
  [/\ kf_model o 3 M /\ pd_model (fun _ => false) 3 M, size zs = 3%N, is_ok (kf_filter o (O2 1 zs)) & ckf_filter qr o (O2 1 zs) = Err ValueError].
Proof.
exists (obj_of var_M 3 false), var_M, (nseq 3 (mk_row false 0)); have Ho : kf_model (obj_of var_M 3 false) 3 var_M by exact: obj_model.
split; [by split; [exact: Ho|exact: var_pd]|exact: erefl|by rewrite (kf_filter_ok Ho)|exact: (ch_varying_tc qr _ Ho erefl)].
Qed.
Lemma bi_varying_refuted : exists (o : kf R) (M : lgm R 1 1) (zs : seq (orow R 1)),
  [/\ kf_model o 3 M /\ pd_model (fun _ => false) 3 M, size zs = 3%N, is_ok (kf_filter o (O2 1 zs)) & bkf_filter o (O2 1 zs) = Err ValueError].
Proof.
exists (obj_of var_M 3 false), var_M, (nseq 3 (mk_row false 0)); have Ho : kf_model (obj_of var_M 3 false) 3 var_M by exact: obj_model.
split; [by split; [exact: Ho|exact: var_pd]|exact: erefl|by rewrite (kf_filter_ok Ho)|].
by apply: (bi_varying_oc _ _ Ho); [|exact: pd_psd (pd1 R 1)|exact: erefl].
Qed.
End Varying.
