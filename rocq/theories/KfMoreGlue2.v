(** API-level forms: independent subsystems; likelihood of recoded observations. *)
From Coq Require Import String List.
From mathcomp Require Import all_ssreflect all_algebra.
From mathcomp Require Import ring.
From Verif Require Import Prelude Zmod LinAlg Numpy NumpyFacts Sklearn SklearnFacts Standard Model KfSpec KfMoreSpec StandardInit StandardFacts
  KfStruct KfStruct2 SpecL2 L2Facts Lmmse Exists KfOptimal KfModelFacts KfOnline KfEm KfEquiv GaussSpec KfLoglik Joint KfJoint KfGlue KfNoise KfMore KfBlock EmGlue.
Import GRing.Theory Num.Theory Order.Theory.

Set Implicit Arguments.
Unset Strict Implicit.
Unset Printing Implicit Defensive.
Local Open Scope ring_scope.

Section BlockApi.
Variables (R : rcfType) (n1 n2 m1 m2 : nat) (M1 : lgm R n1 m1) (M2 : lgm R n2 m2) (T : nat).
Let M := block_model M1 M2.
Variables (o o1 o2 : kf R).
Hypothesis Ho : kf_model o T M.
Hypothesis Ho1 : kf_model o1 T M1.
Hypothesis Ho2 : kf_model o2 T M2.
Variables (mis : nat -> bool) (d1 : nat -> 'cV[R]_m1) (d2 : nat -> 'cV[R]_m2).
Variables (zs1 : seq (orow R m1)) (zs2 : seq (orow R m2)) (zs : seq (orow R (m1 + m2))).
Hypothesis Hd1 : rows_of T mis d1 zs1.
Hypothesis Hd2 : rows_of T mis d2 zs2.
Hypothesis Hd : rows_of T mis (fun t => col_mx (d1 t) (d2 t)) zs.
Hypothesis Hk : (T != 1%N) || (m1 + m2 <= 1)%N.
Let Hk1 : (T != 1%N) || (m1 <= 1)%N.
Proof. by case/orP: Hk => [-> //|H]; rewrite (leq_trans (leq_addr _ _) H) orbT. Qed.
Let Hk2 : (T != 1%N) || (m2 <= 1)%N.
Proof. by case/orP: Hk => [-> //|H]; rewrite (leq_trans (leq_addl _ _) H) orbT. Qed.

Lemma rows_filt n m (N : lgm R n m) d (l : seq (orow R m)) t : rows_of T mis d l -> (t < T)%N ->
  filt N (stream l) t = filt N (ym mis d) t.
Proof. by move=> H tT; apply: filt_ext => s st; apply: (stream_rows H); apply: leq_ltn_trans tT. Qed.
Lemma rows_smo n m (N : lgm R n m) d (l : seq (orow R m)) t : rows_of T mis d l -> (t < T)%N ->
  smo N (stream l) (T.-1 - t) t = smo N (ym mis d) (T.-1 - t) t.
Proof. by move=> H tT; apply: smo_ext => s st; apply: (stream_rows H); apply: leq_ltn_trans st (idx_lt tT). Qed.

Lemma block_api : exists (f1 : nat -> 'cV[R]_n1) (P1 : nat -> 'M[R]_n1) (f2 : nat -> 'cV[R]_n2) (P2 : nat -> 'M[R]_n2)
    (g1 : nat -> 'cV[R]_n1) (S1 : nat -> 'M[R]_n1) (g2 : nat -> 'cV[R]_n2) (S2 : nat -> 'M[R]_n2),
  [/\ kf_filter o1 (O2 m1 zs1) = Ok [seq (A1 (f1 t), A2 (P1 t)) | t <- iota 0 T],
      kf_filter o2 (O2 m2 zs2) = Ok [seq (A1 (f2 t), A2 (P2 t)) | t <- iota 0 T],
      kf_filter o (O2 (m1 + m2) zs) = Ok [seq (A1 (col_mx (f1 t) (f2 t)), A2 (block_mx (P1 t) 0 0 (P2 t))) | t <- iota 0 T] &
      (0 < T)%N -> [/\
      kf_smooth o1 (O2 m1 zs1) = Ok [seq (A1 (g1 t), A2 (S1 t)) | t <- iota 0 T],
      kf_smooth o2 (O2 m2 zs2) = Ok [seq (A1 (g2 t), A2 (S2 t)) | t <- iota 0 T] &
      kf_smooth o (O2 (m1 + m2) zs) = Ok [seq (A1 (col_mx (g1 t) (g2 t)), A2 (block_mx (S1 t) 0 0 (S2 t))) | t <- iota 0 T]]].
Proof.
set y1 := stream zs1; set y2 := stream zs2.
exists (fun t => (filt M1 y1 t).1), (fun t => (filt M1 y1 t).2), (fun t => (filt M2 y2 t).1), (fun t => (filt M2 y2 t).2),
  (fun t => (smo M1 y1 (T.-1 - t) t).1), (fun t => (smo M1 y1 (T.-1 - t) t).2),
  (fun t => (smo M2 y2 (T.-1 - t) t).1), (fun t => (smo M2 y2 (T.-1 - t) t).2); split.
- exact: (kf_filter_ok Ho1 (proj1 Hd1) Hk1).
- exact: (kf_filter_ok Ho2 (proj1 Hd2) Hk2).
- rewrite (kf_filter_ok Ho (proj1 Hd) Hk); apply: f_equal; apply: iota_map_ext => t.
  rewrite add0n leq0n andTb => tT.
  have E := block_filt M1 M2 mis d1 d2 t.
  have E0 := rows_filt M Hd tT; have E1 := rows_filt M1 Hd1 tT; have E2 := rows_filt M2 Hd2 tT.
  by apply: pairE; rewrite E0 E /y1 /y2 E1 E2.
move=> T0; split.
- exact: (kf_smooth_ok Ho1 (proj1 Hd1) Hk1 T0).
- exact: (kf_smooth_ok Ho2 (proj1 Hd2) Hk2 T0).
rewrite (kf_smooth_ok Ho (proj1 Hd) Hk T0); apply: f_equal; apply: iota_map_ext => t.
rewrite add0n leq0n andTb => tT.
have E := block_smo M1 M2 mis d1 d2 (T.-1 - t) t.
have E0 := rows_smo M Hd tT; have E1 := rows_smo M1 Hd1 tT; have E2 := rows_smo M2 Hd2 tT.
by apply: pairE; rewrite E0 E /y1 /y2 E1 E2.
Qed.

Variables (ln : R -> R) (ln2pi : R).
Hypothesis Hln : multiplicative_log ln.
Hypothesis Hc : const2 (k_oc o).
Hypothesis Hc1 : const2 (k_oc o1).
Hypothesis Hc2 : const2 (k_oc o2).
Hypothesis HM1 : psd_model M1 T.
Hypothesis HM2 : psd_model M2 T.
Hypothesis HR1 : forall t, (t < T)%N -> pd (mR M1 t).
Hypothesis HR2 : forall t, (t < T)%N -> pd (mR M2 t).

Lemma pd_innov n m (N : lgm R n m) mi t : psd_model N T -> (t < T)%N -> pd (mR N t) -> pd (innov_cov N t (Pp N mi t)).
Proof. by move=> HN tT HR; apply: pdD HR; rewrite mulmxA; apply: psd_congr; exact: (Pp_psd HN). Qed.

Lemma block_loglik : exists l1 l2, [/\ kf_loglikelihood ln ln2pi o1 (O2 m1 zs1) = Ok l1,
  kf_loglikelihood ln ln2pi o2 (O2 m2 zs2) = Ok l2 & kf_loglikelihood ln ln2pi o (O2 (m1 + m2) zs) = Ok (l1 + l2)].
Proof.
have I1 t : (t < T)%N -> pd (innov_cov M1 t (Pp M1 mis t)) by move=> tT; exact: pd_innov HM1 tT (HR1 tT).
have I2 t : (t < T)%N -> pd (innov_cov M2 t (Pp M2 mis t)) by move=> tT; exact: pd_innov HM2 tT (HR2 tT).
eexists; eexists; split.
- by apply: (loglik_sum Ho1 Hc1 Hk1 ln2pi Hln Hd1) => t tT _; exact: I1.
- by apply: (loglik_sum Ho2 Hc2 Hk2 ln2pi Hln Hd2) => t tT _; exact: I2.
apply: (etrans (loglik_sum Ho Hc Hk ln2pi Hln Hd _)).
  move=> t tT _; rewrite (block_Pp M1 M2 mis d1 d2) block_innov; apply: pd_block; [exact: I1|exact: I2].
apply: f_equal; rewrite -big_split /=; apply: eq_bigr => t _.
apply: block_step_term => //; [exact: I1|exact: I2].
Qed.
End BlockApi.

Section RecodeLoglik.
Variables (R : rcfType) (n m : nat) (M : lgm R n m) (T : nat) (o o' : kf R).
Variables (N : 'M[R]_m) (g : 'cV[R]_m).
Hypothesis UN : N \in unitmx.
Hypothesis Ho : kf_model o T M.
Hypothesis Ho' : kf_model o' T (recode_model M N g).
Hypothesis HM : psd_model M T.
Hypothesis HR : forall t, (t < T)%N -> pd (mR M t).
Hypothesis Hc : const2 (k_oc o).
Hypothesis Hc' : const2 (k_oc o').
Variables (ln : R -> R) (ln2pi : R).
Hypothesis Hln : multiplicative_log ln.
Variables (zs zs' : seq (orow R m)).
Hypothesis Hsz : size zs = T.
Hypothesis Hk : (T != 1%N) || (m <= 1)%N.
Hypothesis Hz : recoded N g zs zs'.

Lemma count_rows mis d (l : seq (orow R m)) k : rows_of k mis d l -> n_observed l = (\sum_(t < k) ~~ mis t)%N.
Proof.
elim: l k mis d => [|r l IH] k mis d [Hs H]; first by rewrite -Hs big_ord0.
case: k Hs H => // k [Hs] H; rewrite big_ord_recl /= /n_observed /=.
rewrite (H 0%N r erefl).1; congr addn.
rewrite -[count _ l]/(n_observed l) (IH k (fun t => mis t.+1) (fun t => d t.+1)) //.
by split=> // t r' Hr; exact: (H t.+1).
Qed.

Lemma recode_nth l l' t r' : recoded N g l l' -> List.nth_error l' t = Some r' ->
  exists r, [/\ List.nth_error l t = Some r, missing r' = missing r & missing r = false -> r'.1 = N *m r.1 + g].
Proof.
move=> H; elim: H t => [|r r0 a b [H1 H2] _ IH] [|t] //=; last exact: IH.
by case=> <-; exists r; split.
Qed.
Lemma recode_rows mis d : rows_of T mis d zs -> rows_of T mis (fun t => N *m d t + g) zs'.
Proof.
move=> [Hs H]; split; first by rewrite (recode_size Hz).
move=> t r' /(recode_nth Hz) [r [Hr -> H2]]; have [E1 E2] := H _ _ Hr.
by split=> // Hm; rewrite H2 ?E1 // E2.
Qed.

Lemma recode_term mis d t : rows_of T mis d zs -> (t < T)%N ->
  step_term (recode_model M N g) mis ln ln2pi (fun t => N *m d t + g) t =
  step_term M mis ln ln2pi d t - (~~ mis t)%:R * (2%:R^-1 * ln (\det N ^+ 2)).
Proof.
move=> Hd tT; rewrite /step_term; case Hm: (mis t); first by rewrite mul0r subr0.
have HS := pd_innov mis HM tT (HR tT); have Hd' := recode_rows Hd.
have EP : pred (recode_model M N g) (ym mis (fun t => N *m d t + g)) t = pred M (ym mis d) t.
  have := recode_pred UN Hz HM (fun _ h _ => HR h) tT.
  rewrite (@pred_ext _ _ _ _ (stream zs') (ym mis (fun t => N *m d t + g)) t); last first.
    by move=> s st; apply: (stream_rows Hd'); exact: ltn_trans tT.
  rewrite (@pred_ext _ _ _ _ (stream zs) (ym mis d) t) // => s st.
  by apply: (stream_rows Hd); exact: ltn_trans tT.
have EC : Pp (recode_model M N g) mis t = Pp M mis t.
  have H (K : lgm R n m) e : Pp K mis t = (pred K (ym mis e) t).2 by exact: (cov_indep K mis t (fun _ => 0) e).1.
  by rewrite (H _ (fun t => N *m d t + g)) EP -H.
have EI : innov_cov (recode_model M N g) t (Pp M mis t) = N *m innov_cov M t (Pp M mis t) *m N^T.
  by rewrite /innov_cov /= trmx_mul mulmxDr mulmxDl -!mulmxA.
rewrite EP EC EI /gauss_logpdf [mC (recode_model _ _ _) t]/= [md (recode_model _ _ _) t]/=.
move: (innov_cov M t (Pp M mis t)) HS (pred M _ t).1 => S HS a.
have US := pd_unit HS; have UT : N^T \in unitmx by rewrite unitmx_tr.
have -> : N *m d t + g - (N *m mC M t *m a + (N *m md M t + g)) = N *m (d t - (mC M t *m a + md M t)).
  by rewrite mulmxBr mulmxDr !mulmxA; zmod.
have -> : qf (invmx (N *m S *m N^T)) (N *m (d t - (mC M t *m a + md M t))) = qf (invmx S) (d t - (mC M t *m a + md M t)).
  rewrite !invmxM ?unitmx_mul ?UN ?US //; move: (d t - _) => u.
  rewrite /qf /bf trmx_mul -!mulmxA; congr (sc (_ *m _)).
  by rewrite mulKmx // mulmxA mulmxV // mul1mx.
have D2 : 0 < \det N ^+ 2 by rewrite exprn_even_gt0 //= -unitfE -unitmxE.
have -> : \det (N *m S *m N^T) = \det N ^+ 2 * \det S by rewrite !det_mulmx det_tr expr2 mulrAC.
rewrite Hln ?(det_pd HS) // [(~~ false)%:R]/= mul1r.
by move: (qf _ _) (ln _) (ln _) (m%:R) (2%:R^-1) => q e f h i; ring.
Qed.

Lemma recode_loglik : exists l, kf_loglikelihood ln ln2pi o (O2 m zs) = Ok l /\
  kf_loglikelihood ln ln2pi o' (O2 m zs') = Ok (l - (n_observed zs)%:R * (2%:R^-1 * ln (\det N ^+ 2))).
Proof.
have [mis [d Hd]] := rows_any zs; rewrite Hsz in Hd; have Hd' := recode_rows Hd.
have I t : (t < T)%N -> pd (innov_cov M t (Pp M mis t)) by move=> tT; exact: pd_innov HM tT (HR tT).
have HM' : psd_model (recode_model M N g) T.
  by case: HM => H1 H2 H3; split=> // t tT; apply: psd_congr; exact: H3.
have I' t : (t < T)%N -> pd (innov_cov (recode_model M N g) t (Pp (recode_model M N g) mis t)).
  move=> tT; apply: (pd_innov mis HM' tT); apply: pd_congr_unit => //; exact: HR.
eexists; split.
  by apply: (loglik_sum Ho Hc Hk ln2pi Hln Hd) => t tT _; exact: I.
apply: (etrans (loglik_sum Ho' Hc' Hk ln2pi Hln Hd' _)); first by move=> t tT _; exact: I'.
apply: f_equal; rewrite (count_rows Hd) natr_sum mulr_suml -sumrB.
by apply: eq_bigr => t _; exact: recode_term.
Qed.
End RecodeLoglik.
