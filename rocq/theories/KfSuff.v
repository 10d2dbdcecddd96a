(** Estimates depend on readings through precision and weighted value only. *)
From Coq Require Import String List.
From mathcomp Require Import all_ssreflect all_algebra.
From mathcomp Require Import ring.
From Verif Require Import Prelude Zmod LinAlg Numpy NumpyFacts Sklearn SklearnFacts Standard Model KfSpec KfMoreSpec StandardInit StandardFacts
  KfStruct KfStruct2 SpecL2 L2Facts Lmmse Exists KfOptimal KfModelFacts KfOnline KfEm KfEquiv GaussSpec KfLoglik Joint KfJoint KfGlue KfNoise KfMore KfBlock EmGlue
  KfMoreGlue2 KfSensors KfLs SuffSpec.
Import GRing.Theory Num.Theory Order.Theory.

Set Implicit Arguments.
Unset Strict Implicit.
Unset Printing Implicit Defensive.
Local Open Scope ring_scope.

(** correction as a function of precision and weighted value *)
Definition icorrect (R : rcfType) n (J : 'M[R]_n) (h : 'cV[R]_n) (s : 'cV[R]_n * 'M[R]_n) : 'cV[R]_n * 'M[R]_n :=
  let X := invmx (1%:M + s.2 *m J) *m s.2 in (s.1 + X *m (h - J *m s.1), X).
Definition iterm (R : rcfType) n (ln : R -> R) (J : 'M[R]_n) (h : 'cV[R]_n) (s : 'cV[R]_n * 'M[R]_n) : R :=
  - 2%:R^-1 * (qf J s.1 - 2%:R * bf h 1%:M s.1 - qf (invmx (1%:M + s.2 *m J) *m s.2) (h - J *m s.1) + ln (\det (1%:M + s.2 *m J))).

Lemma sylvester (R : rcfType) n m (A : 'M[R]_(m, n)) (B : 'M[R]_(n, m)) : \det (1%:M + A *m B) = \det (1%:M + B *m A).
Proof.
have E1 : block_mx 1%:M (- A) B 1%:M = block_mx 1%:M 0 B 1%:M *m block_mx 1%:M (- A) 0 (1%:M + B *m A).
  by rewrite mulmx_block !mul1mx !mulmx1 !mul0mx ?mulmx0 !addr0 mulmxN addrC addrK.
have E2 : block_mx 1%:M (- A) B 1%:M = block_mx (1%:M + A *m B) (- A) 0 1%:M *m block_mx 1%:M 0 B 1%:M.
  by rewrite mulmx_block !mulmx1 !mul1mx !mul0mx ?mulmx0 !add0r mulNmx addrK.
have := congr1 determinant E1; rewrite {1}E2 !det_mulmx !det_ublock !det_lblock !det1.
by rewrite !mul1r !mulr1.
Qed.

Section One.
Variables (R : rcfType) (n m : nat) (P : 'M[R]_n) (C : 'M[R]_(m, n)) (N : 'M[R]_m).
Hypotheses (HP : psd P) (HN : pd N).
Let S := C *m (P *m C^T) + N.
Lemma woodbury : invmx S = invmx N - invmx N *m C *m KfSensors.sc P C N *m C^T *m invmx N.
Proof.
have US : S \in unitmx := pd_unit (inn_pd C HP HN); have UN := pd_unit HN.
have E : KfSensors.sc P C N *m C^T *m invmx N *m S = P *m C^T.
  by rewrite -(sgE C HP HN) /sg pinv_unit // -!mulmxA mulVmx // mulmx1.
have E2 : (invmx N - invmx N *m C *m KfSensors.sc P C N *m C^T *m invmx N) *m S = 1%:M.
  rewrite mulmxBl; have -> : invmx N *m C *m KfSensors.sc P C N *m C^T *m invmx N *m S =
    invmx N *m (C *m (KfSensors.sc P C N *m C^T *m invmx N *m S)) by rewrite !mulmxA.
  by rewrite E -mulmxBr /S [_ + N]addrC addrK mulVmx.
by rewrite -[LHS]mul1mx -E2 mulmxK.
Qed.
Lemma det_inn : \det S = \det N * \det (1%:M + P *m inf C N).
Proof.
have UN := pd_unit HN.
have -> : S = N *m (1%:M + invmx N *m C *m (P *m C^T)) by rewrite mulmxDr mulmx1 -!mulmxA mulKVmx // addrC.
by rewrite det_mulmx (sylvester (invmx N *m C)) /inf !mulmxA.
Qed.
Lemma det_inf_gt0 : 0 < \det (1%:M + P *m inf C N).
Proof. by have := det_pd (inn_pd C HP HN); rewrite -/S det_inn pmulr_rgt0 // det_pd. Qed.
Variables (ln : R -> R) (ln2pi : R).
Hypothesis Hln : multiplicative_log ln.
Lemma gauss_split (z d : 'cV[R]_m) (mu : 'cV[R]_n) :
  gauss_logpdf ln ln2pi z (C *m mu + d) S = gauss_logpdf ln ln2pi z d N + iterm ln (inf C N) (C^T *m invmx N *m (z - d)) (mu, P).
Proof.
rewrite /gauss_logpdf /iterm det_inn Hln; [|exact: det_pd|exact: det_inf_gt0].
rewrite [(mu, P).1]/= [(mu, P).2]/= -(scE C HP HN).
have -> : z - (C *m mu + d) = (z - d) - C *m mu by zmod.
rewrite woodbury; set X := KfSensors.sc P C N.
move: (z - d) => u; set l := ln (\det N); set k := ln (\det _).
have SN : (invmx N)^T = invmx N by rewrite trmx_inv (proj1 (pd_psd HN)).
have Ev : C^T *m invmx N *m u - inf C N *m mu = C^T *m invmx N *m (u - C *m mu) by rewrite mulmxBr /inf !mulmxA.
have -> : qf (invmx N - invmx N *m C *m X *m C^T *m invmx N) (u - C *m mu) =
    qf (invmx N) (u - C *m mu) - qf X (C^T *m invmx N *m (u - C *m mu)).
  move: (u - C *m mu) => e; rewrite /qf /bf !trmx_mul trmxK SN mulmxBr mulmxBl.
  by rewrite !mulmxA; move: (_ *m e) (_ *m e) => a b; rewrite /LinAlg.sc !mxE.
have -> : qf (invmx N) (u - C *m mu) = qf (invmx N) u - 2%:R * bf (C^T *m invmx N *m u) 1%:M mu + qf (inf C N) mu.
  rewrite (KfLs.qfB _ _ SN); congr (_ - _ * _ + _).
    by rewrite /bf !trmx_mul trmxK SN mulmx1 !mulmxA.
  by rewrite /qf /bf /inf !trmx_mul !mulmxA.
rewrite Ev; move: (qf X _) (qf (inf C N) mu) (bf _ _ mu) (qf (invmx N) u) (m%:R) (2%:R^-1) => a b c e f g; ring.
Qed.
End One.

Section Info.
Variables (R : rcfType) (n m : nat) (M : lgm R n m) (T : nat) (zs : seq (orow R m)).
Hypothesis HR : forall t, (t < T)%N -> stream zs t -> pd (mR M t).
Lemma icorrectE t s : (t < T)%N -> psd s.2 ->
  correct M (stream zs) t s = icorrect (reading M zs t).1 (reading M zs t).2 s.
Proof.
move=> tT HP; rewrite /correct /reading; case Ez: (stream zs t) => [z|]; last first.
  by rewrite /icorrect mulmx0 mul0mx subr0 addr0 invmx1 mul1mx mulmx0 addr0; case: s {HP}.
have HN : pd (mR M t) by apply: HR; rewrite ?Ez.
rewrite /icorrect /= -[invmx (1%:M + _) *m _](scE (mC M t) HP HN).
have -> : gain M t s.2 = sg s.2 (mC M t) (mR M t) by [].
congr pair.
rewrite (sgE _ HP HN); move: (KfSensors.sc _ _ _) => X; rewrite -!mulmxA -mulmxBr.
rewrite -mulmxBr; congr (_ + _ *m (_ *m (_ *m _))); zmod.
Qed.
Variables (ln : R -> R) (ln2pi : R).
Hypothesis Hln : multiplicative_log ln.
Lemma itermE mis d t : rows_of T mis d zs -> psd_model M T -> (t < T)%N ->
  step_term M mis ln ln2pi d t =
  (if stream zs t is Some z then gauss_logpdf ln ln2pi z (md M t) (mR M t) else 0) +
  iterm ln (reading M zs t).1 (reading M zs t).2 (pred M (stream zs) t).
Proof.
move=> Hd HM tT; rewrite /step_term /reading (stream_rows Hd tT) /ym; case Hm: (mis t).
  rewrite add0r /iterm mulmx0 addr0 det1 mul0mx subr0 /qf /bf !trmx0 ?mulmx0 !mul0mx.
  have L1 : ln 1 = 0 by have := Hln (@ltr01 R) (@ltr01 R); rewrite mulr1 => /(canLR (addrK _)); rewrite subrr.
  by rewrite L1 /LinAlg.sc !mxE; ring.
have HN : pd (mR M t) by apply: HR => //; rewrite (stream_rows Hd tT) /ym Hm.
have -> : pred M (ym mis d) t = pred M (stream zs) t.
  by apply: pred_ext => s st; rewrite (stream_rows Hd) //; exact: ltn_trans tT.
have -> : Pp M mis t = (pred M (stream zs) t).2.
  apply: (etrans (cov_indep M mis t (fun _ => 0) d).1); congr (_.2).
  by apply: pred_ext => s st; rewrite (stream_rows Hd) //; exact: ltn_trans tT.
have HP : psd (pred M (stream zs) t).2 by rewrite pred_cov; exact: (Pp_psd HM).
by rewrite /innov_cov (gauss_split (mC M t) HP HN) //.
Qed.
End Info.

Section Same.
Variables (R : rcfType) (n m m' : nat) (M : lgm R n m) (T : nat).
Variables (C : nat -> 'M[R]_(m', n)) (d : nat -> 'cV[R]_m') (N : nat -> 'M[R]_m').
Notation M' := (with_sensor M C d N).
Variables (zs : seq (orow R m)) (zs' : seq (orow R m')).
Hypothesis HM : psd_model M T.
Hypothesis HR : forall t, (t < T)%N -> stream zs t -> pd (mR M t).
Hypothesis HR' : forall t, (t < T)%N -> stream zs' t -> pd (N t).
Hypothesis Hi : forall t, (t < T)%N -> reading M' zs' t = reading M zs t.

Lemma same_correct t s : (t < T)%N -> psd s.2 -> correct M' (stream zs') t s = correct M (stream zs) t s.
Proof. by move=> tT HP; rewrite (icorrectE HR tT HP) (@icorrectE _ _ _ M' T zs' HR' _ _ tT HP) Hi. Qed.
Lemma same_pred t : (t < T)%N -> pred M' (stream zs') t = pred M (stream zs) t.
Proof.
elim: t => [|t IH] tT; first exact: erefl.
have tT' : (t < T)%N by exact: ltnW.
have E k (K : lgm R n k) w : pred K w t.+1 = predict K t (correct K w t (pred K w t)) by [].
rewrite !E (IH tT') same_correct //.
by rewrite pred_cov; exact: (Pp_psd HM).
Qed.
Lemma same_filt t : (t < T)%N -> filt M' (stream zs') t = filt M (stream zs) t.
Proof.
move=> tT; rewrite /filt (same_pred tT) same_correct //.
by rewrite pred_cov; exact: (Pp_psd HM).
Qed.
Lemma same_smo j t : (t + j < T)%N -> smo M' (stream zs') j t = smo M (stream zs) j t.
Proof.
elim: j t => [|j IH] t tT; first by apply: same_filt; rewrite addn0 in tT.
have tT2 : (t.+1 + j < T)%N by rewrite addSnnS.
have tT0 : (t < T)%N by apply: leq_ltn_trans tT; rewrite leq_addr.
have tT1 : (t.+1 < T)%N by apply: leq_ltn_trans tT2; rewrite leq_addr.
have E k (K : lgm R n k) y : smo K y j.+1 t = ((filt K y t).1 + sgain K y t *m ((smo K y j t.+1).1 - (pred K y t.+1).1),
   (filt K y t).2 + sgain K y t *m (((smo K y j t.+1).2 - (pred K y t.+1).2) *m (sgain K y t)^T)) by [].
have EL : sgain M' (stream zs') t = sgain M (stream zs) t.
  by rewrite /sgain (same_filt tT0) (same_pred tT1).
apply: (etrans (E _ M' _)); apply: esym; apply: (etrans (E _ M _)); apply: esym; clear E.
by rewrite EL (IH _ tT2) (same_filt tT0) (same_pred tT1).
Qed.

Variables (o o' : kf R).
Hypotheses (Ho : kf_model o T M) (Ho' : kf_model o' T M') (Hsz : size zs = T) (Hsz' : size zs' = T) (Hk : keeps zs) (Hk' : keeps zs').
Lemma same_api : kf_filter o' (O2 m' zs') = kf_filter o (O2 m zs) /\
  ((0 < T)%N -> kf_smooth o' (O2 m' zs') = kf_smooth o (O2 m zs)).
Proof.
have K : (T != 1%N) || (m <= 1)%N by rewrite -Hsz.
have K' : (T != 1%N) || (m' <= 1)%N by rewrite -Hsz'.
split=> [|T0].
  rewrite (kf_filter_ok Ho Hsz K) (kf_filter_ok Ho' Hsz' K').
  apply: f_equal; apply: iota_map_ext => t tT.
  by apply: pairE; rewrite same_filt.
rewrite (kf_smooth_ok Ho Hsz K T0) (kf_smooth_ok Ho' Hsz' K' T0).
apply: f_equal; apply: iota_map_ext => t tT.
have H : (t + (T.-1 - t) < T)%N by rewrite subnKC; [rewrite prednK|rewrite -ltnS prednK].
by apply: pairE; rewrite same_smo.
Qed.

Hypotheses (RM : forall t, (t < T)%N -> psd (N t)) (Hc : const2 (k_oc o)) (Hc' : const2 (k_oc o')).
Variables (ln : R -> R) (ln2pi : R).
Hypothesis Hln : multiplicative_log ln.
Lemma same_loglik : exists l, kf_loglikelihood ln ln2pi o (O2 m zs) = Ok (base_loglik ln ln2pi M zs + l) /\
  kf_loglikelihood ln ln2pi o' (O2 m' zs') = Ok (base_loglik ln ln2pi M' zs' + l).
Proof.
have K : (T != 1%N) || (m <= 1)%N by rewrite -Hsz.
have K' : (T != 1%N) || (m' <= 1)%N by rewrite -Hsz'.
have [mis [e Hd]] := rows_any zs; rewrite Hsz in Hd.
have [mis' [e' Hd']] := rows_any zs'; rewrite Hsz' in Hd'.
have HM' : psd_model M' T by case: HM => H1 H2 H3; split.
have V t : (t < T)%N -> ~~ mis t -> pd (mR M t).
  by move=> tT Hm; apply: HR => //; rewrite (stream_rows Hd tT) /ym (negbTE Hm).
have V' t : (t < T)%N -> ~~ mis' t -> pd (N t).
  by move=> tT Hm; apply: HR' => //; rewrite (stream_rows Hd' tT) /ym (negbTE Hm).
exists (\sum_(t < T) iterm ln (reading M zs t).1 (reading M zs t).2 (pred M (stream zs) t)).
rewrite /base_loglik Hsz Hsz'; split.
  apply: (etrans (loglik_sum Ho Hc K ln2pi Hln Hd _)).
    by move=> t tT Hm; apply: (pd_innov _ HM tT); exact: V.
  by apply: f_equal; rewrite -big_split; apply: eq_bigr => t _; exact: (itermE HR ln2pi Hln Hd).
apply: (etrans (loglik_sum Ho' Hc' K' ln2pi Hln Hd' _)).
  by move=> t tT Hm; apply: (pd_innov _ HM' tT); exact: V'.
apply: f_equal; rewrite -big_split; apply: eq_bigr => t _ /=.
by rewrite (@itermE _ _ _ M' T zs' HR' ln ln2pi Hln _ _ _ Hd') // Hi // same_pred.
Qed.
End Same.
