(** Periodic models: the uncertainty is monotone from period to period. *)
From Coq Require Import String List.
From mathcomp Require Import all_ssreflect all_fingroup all_algebra.
From Verif Require Import Prelude Zmod LinAlg Numpy Sklearn Standard Model KfSpec KfSuperSpec KfMoreSpec SpecL2 L2Facts GaussSpec Exists Lmmse
  StandardFacts KfOptimal KfModelFacts KfEquiv KfGlue KfMore KfMoreGlue KfLsSpec KfLs.
Import Order.Theory GRing.Theory Num.Theory.

Set Implicit Arguments.
Unset Strict Implicit.
Unset Printing Implicit Defensive.
Local Open Scope ring_scope.

Section Steady.
Variables (R : rcfType) (n m : nat) (M : lgm R n m) (T p : nat) (zs : seq (orow R m)).
Hypothesis HM : psd_model M T.
Hypothesis Hper : periodic T p M zs.
Hypothesis pT : (p < T)%N.
Let mis := mask zs.
Let M' := shift_model M p (pred M (y0 R m mis) p).
Let T' := (T - p)%N.

Lemma lepxx k (A : 'M[R]_k) : lep A A. Proof. rewrite /lep subrr; exact: psd0. Qed.
Lemma sub_lt t : (t < T')%N -> (t + p < T)%N. Proof. by rewrite /T' ltn_subRL addnC. Qed.
Lemma sub_lt1 t : (t < T'.-1)%N -> (t + p < T.-1)%N.
Proof. by rewrite /T' -subnS ltn_subRL addSnnS addnC; case: T pT => // k _; rewrite -pred_Sn addSn ltnS. Qed.
Lemma lt_T t : (t < T')%N -> (t < T)%N. Proof. by move/sub_lt; apply: leq_ltn_trans; rewrite leq_addr. Qed.
Lemma lt_T1 t : (t < T'.-1)%N -> (t < T.-1)%N. Proof. by move/sub_lt1; apply: leq_ltn_trans; rewrite leq_addr. Qed.
Lemma HMs : psd_model M T'.
Proof. by case: HM => h1 h2 h3; split=> // t tT; [apply: h2; exact: lt_T1|apply: h3; exact: lt_T]. Qed.
Lemma HMs' : psd_model M' T'.
Proof.
case: HM => h1 h2 h3; split=> [|t tT|t tT]; rewrite /M' /=.
- exact: (Pp_psd HM mis pT).
- by rewrite addnC; apply: h2; exact: sub_lt1.
- by rewrite addnC; apply: h3; exact: sub_lt.
Qed.
Lemma stream_mask t : (stream zs t : bool) = ~~ mis t.
Proof. by rewrite /stream /mis /mask; case: (List.nth_error zs t) => [r|] //; case: (missing r). Qed.
Lemma misE t : (t < T')%N -> mis (p + t) = mis t.
Proof. by move=> tT; apply: negb_inj; rewrite -!stream_mask addnC; apply: (pe_mask Hper); exact: sub_lt. Qed.
Lemma PfE t : (t < T')%N -> Pf M' mis t = Pf M mis (p + t).
Proof.
move=> tT; rewrite /Pf -(@shift_filt _ _ _ M (y0 R m mis) (fun s => y0 R m mis (p + s)%N) p (fun=> erefl) t).
apply: f_equal; apply: filt_ext => s st; rewrite /y0 misE //; exact: leq_ltn_trans tT.
Qed.
Lemma less_up : lep (mP M) (Pp M mis p) -> less_noise T' M M'.
Proof.
move=> H; split=> [t tT|t tT|t tT|t tT|]; rewrite /M' /= ?[(p + t)%N]addnC //.
- exact: (pe_A Hper (sub_lt1 tT)).
- exact: (pe_C Hper (sub_lt tT)).
- by rewrite (pe_Q Hper (sub_lt1 tT)); exact: lepxx.
- by rewrite (pe_R Hper (sub_lt tT)); exact: lepxx.
Qed.
Lemma less_down : lep (Pp M mis p) (mP M) -> less_noise T' M' M.
Proof.
move=> H; split=> [t tT|t tT|t tT|t tT|]; rewrite /M' /= ?[(p + t)%N]addnC //.
- exact: (esym (pe_A Hper (sub_lt1 tT))).
- exact: (esym (pe_C Hper (sub_lt tT))).
- by rewrite (pe_Q Hper (sub_lt1 tT)); exact: lepxx.
- by rewrite (pe_R Hper (sub_lt tT)); exact: lepxx.
Qed.
Lemma Pf_up t : lep (mP M) (Pp M mis p) -> (t + p < T)%N -> lep (Pf M mis t) (Pf M mis (t + p)).
Proof.
move=> H tT; have tT' : (t < T')%N by rewrite /T' ltn_subRL addnC.
by rewrite addnC -PfE //; exact: (Pf_noise (less_up H) HMs HMs').
Qed.
Lemma Pf_down t : lep (Pp M mis p) (mP M) -> (t + p < T)%N -> lep (Pf M mis (t + p)) (Pf M mis t).
Proof.
move=> H tT; have tT' : (t < T')%N by rewrite /T' ltn_subRL addnC.
by rewrite addnC -PfE //; exact: (Pf_noise (less_down H) HMs' HMs).
Qed.
End Steady.

Lemma steady_api (R : rcfType) n m (M : lgm R n m) T p (o : kf R) (zs : seq (orow R m)) : kf_model o T M -> psd_model M T ->
  size zs = T -> periodic T p M zs -> (0 < p < T)%N ->
  exists (x : nat -> 'cV[R]_n) (P : nat -> 'M[R]_n),
  [/\ kf_filter o (O2 m zs) = Ok [seq (A1 (x t), A2 (P t)) | t <- iota 0 T],
      lep (mP M) (mA M p.-1 *m P p.-1 *m (mA M p.-1)^T + mQ M p.-1) -> forall t, (t + p < T)%N -> lep (P t) (P (t + p)%N) &
      lep (mA M p.-1 *m P p.-1 *m (mA M p.-1)^T + mQ M p.-1) (mP M) -> forall t, (t + p < T)%N -> lep (P (t + p)%N) (P t)] /\
  (mA M p.-1 *m P p.-1 *m (mA M p.-1)^T + mQ M p.-1 = mP M -> forall t, (t + p < T)%N -> P (t + p)%N = P t).
Proof.
move=> Ho HM Hsz Hp /andP[p0 pT].
have T1 : (T != 1%N) || (m <= 1)%N by case: T pT p0 {Ho HM Hsz Hp} => [|[|k]] //; case: p.
exists (fun t => (filt M (stream zs) t).1), (fun t => (filt M (stream zs) t).2).
have E : mA M p.-1 *m (filt M (stream zs) p.-1).2 *m (mA M p.-1)^T + mQ M p.-1 = Pp M (mask zs) p.
  rewrite filt_cov -[in RHS](prednK p0) /Pp /= -/(filt M (y0 R m (mask zs)) p.-1) /predict /= -mulmxA; exact: erefl.
split; last first.
  rewrite E => H t tT; apply: lep_antisym; rewrite !filt_cov.
    by apply: (Pf_down HM Hp pT _ tT); rewrite H; exact: lepxx.
  by apply: (Pf_up HM Hp pT _ tT); rewrite H; exact: lepxx.
split.
- exact: (kf_filter_ok Ho Hsz T1).
- by rewrite E => H t tT; rewrite !filt_cov; exact: (Pf_up HM Hp pT H tT).
- by rewrite E => H t tT; rewrite !filt_cov; exact: (Pf_down HM Hp pT H tT).
Qed.

(** ** The order of readings of a constant state *)
Section Order.
Variables (R : rcfType) (n m : nat) (M M' : lgm R n m) (T : nat) (s : 'S_T) (zs zs' : seq (orow R m)).
Hypothesis Hs : reordered s M M' zs zs'.

Lemma order_stream (t : 'I_T) : stream zs' t = stream zs (s t). Proof. by rewrite /stream (ro_row Hs). Qed.
Lemma order_misfit (t : 'I_T) c : misfit M' zs' t c = misfit M zs (s t) c.
Proof. by rewrite /misfit order_stream (ro_C Hs) (ro_d Hs) (ro_R Hs). Qed.
Lemma order_cost c : wsq (mP M') (c - mmu M') + \sum_(t < T) misfit M' zs' t c = wsq (mP M) (c - mmu M) + \sum_(t < T) misfit M zs t c.
Proof.
rewrite (ro_P Hs) (ro_mu Hs); apply: f_equal; rewrite [in RHS](reindex_inj (@perm_inj _ s)) /=.
by apply: eq_bigr => t _; exact: order_misfit.
Qed.
Lemma order_prec : invmx (mP M') + (\sum_(t < T) if stream zs' t then (mC M' t)^T *m invmx (mR M' t) *m mC M' t else 0) =
  invmx (mP M) + \sum_(t < T) if stream zs t then (mC M t)^T *m invmx (mR M t) *m mC M t else 0.
Proof.
rewrite (ro_P Hs); apply: f_equal; rewrite [in RHS](reindex_inj (@perm_inj _ s)) /=.
by apply: eq_bigr => t _; rewrite order_stream (ro_C Hs) (ro_R Hs).
Qed.
Lemma order_fw : fit_weights_exist M zs T -> fit_weights_exist M' zs' T.
Proof.
case=> H1 H2; split; first by rewrite (ro_P Hs).
move=> t tT; have := order_stream (Ordinal tT); have := ro_R Hs (Ordinal tT) => /= -> ->; apply: H2; exact: ltn_ord.
Qed.
End Order.

Lemma best_uniq (R : rcfType) n (f : 'cV[R]_n -> R) c c' : (forall d, d = c \/ f c < f d) -> (forall d, d = c' \/ f c' < f d) -> c = c'.
Proof. by move=> H H'; case: (H c') => // L; case: (H' c) => // L'; have := lt_trans L L'; rewrite ltxx. Qed.

Lemma order_api (R : rcfType) n m (M M' : lgm R n m) T (s : 'S_T) (o o' : kf R) (zs zs' : seq (orow R m)) :
  kf_model o T M -> kf_model o' T M' -> size zs = T -> keeps zs -> at_rest M T -> at_rest M' T -> reordered s M M' zs zs' ->
  fit_weights_exist M zs T -> (0 < T)%N ->
  exists (x x' : nat -> 'cV[R]_n) (P P' : nat -> 'M[R]_n),
  [/\ kf_filter o (O2 m zs) = Ok [seq (A1 (x t), A2 (P t)) | t <- iota 0 T],
      kf_filter o' (O2 m zs') = Ok [seq (A1 (x' t), A2 (P' t)) | t <- iota 0 T],
      x' T.-1 = x T.-1, P' T.-1 = P T.-1 & kf_smooth o' (O2 m zs') = kf_smooth o (O2 m zs)].
Proof.
move=> Ho Ho' Hsz Hk HA HA' Hs HF T0.
have Hk' : keeps zs' by rewrite /keeps (ro_size Hs) -Hsz.
have [x [P [Hf Hb HS]]] := rest_api Ho Hsz Hk HA HF.
have [x' [P' [Hf' Hb' HS']]] := rest_api Ho' (ro_size Hs) Hk' HA' (order_fw Hs HF).
have T1 : (T.-1 < T)%N by rewrite prednK.
have [b1 p1] := Hb _ T1; have [b2 p2] := Hb' _ T1.
have Ex : x' T.-1 = x T.-1.
  apply: (best_uniq b2) => d; case: (b1 d) => [->|L]; [by left|right].
  have E c : scost M' zs' T.-1 c = scost M zs T.-1 c by rewrite /scost prednK //; exact: (order_cost Hs).
  by rewrite (E (x T.-1)) (E d).
have EP : P' T.-1 = P T.-1.
  move: p1 p2; rewrite /precision prednK // (order_prec Hs); move: (invmx (mP M) + _) => W p1 p2.
  have UW : W \in unitmx by case: (mulmx1_unit p1).
  by rewrite -[LHS]mulmx1 -(mulmxV UW) mulmxA p2 -p1 -mulmxA mulmxV // mulmx1.
exists x, x', P, P'; split=> //.
by rewrite (HS T0) (HS' T0) Ex EP.
Qed.

Lemma certain_api (R : rcfType) n m (M : lgm R n m) T p (o : kf R) (zs : seq (orow R m)) : kf_model o T M -> psd_model M T ->
  size zs = T -> periodic T p M zs -> (0 < p < T)%N -> mP M = 0 ->
  exists (x : nat -> 'cV[R]_n) (P : nat -> 'M[R]_n),
  kf_filter o (O2 m zs) = Ok [seq (A1 (x t), A2 (P t)) | t <- iota 0 T] /\ forall t, (t + p < T)%N -> lep (P t) (P (t + p)%N).
Proof.
move=> Ho HM Hsz Hp /andP[p0 pT] H0.
have T1 : (T != 1%N) || (m <= 1)%N by case: T pT p0 {Ho HM Hsz Hp} => [|[|k]] //; case: p.
exists (fun t => (filt M (stream zs) t).1), (fun t => (filt M (stream zs) t).2); split; first exact: (kf_filter_ok Ho Hsz T1).
move=> t tT; rewrite !filt_cov; apply: (Pf_up HM Hp pT _ tT).
by rewrite H0 /lep subr0; exact: (Pp_psd HM _ pT).
Qed.
