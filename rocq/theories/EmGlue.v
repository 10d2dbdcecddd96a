(** EM through the API: one iteration is an M-step, any number of iterations
    keeps the parameters those of a model with PSD covariances. *)
From Coq Require Import String List.
From mathcomp Require Import all_ssreflect all_algebra.
From mathcomp Require Import ring.
From Verif Require Import KfStruct2 Prelude Zmod LinAlg Numpy NumpyFacts Sklearn SklearnFacts Standard Model KfSpec StandardInit StandardFacts
  SpecL2 L2Facts Lmmse Exists KfOptimal KfModelFacts KfOnline KfEm GaussSpec KfLoglik Joint KfJoint KfGlue EmForm EmSpec EmMax EmStep.
Import GRing.Theory Num.Theory Order.Theory.

Set Implicit Arguments.
Unset Strict Implicit.
Unset Printing Implicit Defensive.
Local Open Scope ring_scope.

Section Rows.
Variables (R : rcfType) (m : nat).
Lemma rows_any (zs : seq (orow R m)) : exists mis y, rows_of (size zs) mis y zs.
Proof.
exists (fun t => if List.nth_error zs t is Some r then missing r else true).
exists (fun t => if List.nth_error zs t is Some r then r.1 else 0).
by split=> // t r ->.
Qed.
End Rows.

Lemma cov_shift (R : rcfType) (Sp : l2space R) k l (c : 'cV[R]_k) (d : 'cV[R]_l) (E : RV Sp k) (F : RV Sp l) :
  cov (rva (rvc Sp c) E) (rva (rvc Sp d) F) = cov E F.
Proof. by rewrite covDl !covDr !covcl !covcr !add0r. Qed.

Section SetModel.
Variables (R : rcfType) (n m T : nat) (o : kf R) (p : kfparams R) (M : lgm R n m).
Lemma rep2_mat k l (X : arr R) N (F : nat -> 'M[R]_(k, l)) : rep2 X N F -> rep2 (as_mat X) N F.
Proof. by move=> H; case: (H) => [[A E _]|[s [E _ _]]]; rewrite E in H *. Qed.
Lemma rep1_vec k (X : arr R) N (F : nat -> 'cV[R]_k) : rep1 X N F -> rep1 (as_vec X) N F.
Proof. by move=> H; case: (H) => [[A E _]|[j [s [E _ _]]]]; rewrite E in H *. Qed.
Lemma set_model : k_n o = n -> k_m o = m -> seed_ok (k_rs o) -> params_model p T M ->
  kf_model (set_params o p) T M.
Proof.
move=> Hn Hm Hs [H1 H2 H3 H4 H5 H6 H7 H8]; split=> //=.
- exact: rep2_mat. - exact: rep1_vec. - exact: rep2_mat. - exact: rep2_mat. - exact: rep1_vec.
- exact: rep2_mat. - by rewrite H7. - by rewrite H8.
Qed.
End SetModel.

Section OneStep.
Variables (R : rcfType) (n m : nat) (o : kf R) (T : nat) (M : lgm R n m).
Hypothesis Ho : kf_model o T M.
Hypothesis T0 : (0 < T)%N.
Variables (mis : nat -> bool) (y : nat -> 'cV[R]_m) (zs : seq (orow R m)).
Hypothesis Hrows : rows_of T mis y zs.
Hypothesis Hk : (T != 1%N) || (m <= 1)%N.
Let p := init_value o.
Let Hp : params_model p T M := kf_model_params Ho.

Definition xs_ t := (smo M (ym mis y) (T.-1 - t) t).1.
Definition Ps_ t := Ps M mis (T.-1 - t) t.
Definition Lag_ t := if t is t'.+1 then Ps M mis (T.-1 - t) t *m (LL M mis t')^T else 0.

Lemma smo_rows t : (t < T)%N -> smo M (stream zs) (T.-1 - t) t = (xs_ t, Ps_ t).
Proof.
move=> tT; have E : smo M (stream zs) (T.-1 - t) t = smo M (ym mis y) (T.-1 - t) t.
  apply: smo_ext => s st; apply: (stream_rows Hrows); apply: leq_ltn_trans st _.
  exact: idx_lt.
rewrite E; rewrite [LHS]surjective_pairing; apply: f_equal.
exact: (scov_indep M mis (T.-1 - t) t y (fun _ => 0)).
Qed.
Lemma size_rows : size zs = T. Proof. by case: Hrows. Qed.
Lemma smooth_rows : kf_smooth o (O2 m zs) = Ok [seq (A1 (xs_ t), A2 (Ps_ t)) | t <- iota 0 T].
Proof.
apply: (etrans (kf_smooth_ok Ho size_rows Hk T0)); apply: f_equal.
apply: iota_map_ext => t; rewrite add0n leq0n andTb => tT.
by rewrite smo_rows.
Qed.
Lemma pair_rows t : (t < T)%N -> pair_of M T zs t = A2 (Lag_ t).
Proof.
case: t => [|t] tT; first exact: erefl.
rewrite /pair_of (smo_rows tT) /Lag_ /Ps_ [(_, _).2]/=.
rewrite (@sgain_ext _ _ _ M _ (ym mis y)); last first.
  move=> s st; apply: (stream_rows Hrows); apply: leq_ltn_trans st _; exact: ltnW.
by rewrite (sgain_indep M mis t y (fun _ => 0)).
Qed.
Lemma em_iter_rows g : em_iter (@filter_ R) zs g p =
  em_ n zs [seq SRow (A1 (xs_ t)) (A2 (Ps_ t)) | t <- iota 0 T] [seq A2 (Lag_ t) | t <- iota 0 T] (p_to p) (p_oo p) g.
Proof.
pose L := [seq SRow (A1 (xs_ t)) (A2 (Ps_ t)) | t <- iota 0 T].
have E1 : [seq srow_of M zs (T.-1 - s) s | s <- iota 0 T] = L.
  apply: iota_map_ext => t; rewrite add0n leq0n andTb => tT.
  exact (f_equal (fun q => SRow (A1 q.1) (A2 q.2)) (smo_rows tT)).
have E2 : [seq pair_of M T zs t | t <- iota 0 T] = [seq A2 (Lag_ t) | t <- iota 0 T].
  by apply: iota_map_ext => t; rewrite add0n leq0n andTb => tT; exact: pair_rows.
pose G := [seq A2 (sgain M (stream zs) s) | s <- iota 0 T.-1].
have E3 := etrans (smooth_ok Hp zs T0) (f_equal (fun q => Ok (q, G)) E1).
have E4 : smooth_pair n L G = Ok [seq A2 (Lag_ t) | t <- iota 0 T] :=
  etrans (f_equal (fun q => smooth_pair n q G) (esym E1)) (etrans (smooth_pair_ok M zs T0) (f_equal Ok E2)).
by rewrite /em_iter (filter_ok Hp size_rows) bindOk (pm_im Hp) [np_len _]/= bindOk E3 bindOk E4 bindOk.
Qed.

Variables (Sp : l2space R) (x : nat -> Om Sp -> 'cV[R]_n) (z : nat -> Om Sp -> 'cV[R]_m).
Variables (w : nat -> Om Sp -> 'cV[R]_n) (v : nat -> Om Sp -> 'cV[R]_m).
Hypothesis Hob : obeys M T x z w v.
Definition Xpost t : RV Sp n := rva (rvc Sp (xs_ t)) (Es Hob mis (T.-1 - t) t).
Lemma Xpost_post : posterior x z mis T xs_ (fun t => Xpost t).
Proof.
exists (fun t => Xs Hob mis (T.-1 - t) t), Ps_; split=> t tT; first exact: blue_smo.
by move=> om; rewrite /= -(X_x Hob tT) mulNmx mul1mx.
Qed.
Lemma Xpost_mean t : (t < T)%N -> mean (Xpost t) = xs_ t.
Proof.
move=> tT; have H := opt_smo Hob mis (idx_lt tT).
by rewrite /Xpost meanD mean_c (op_m H) addr0.
Qed.
Lemma Xpost_cov t : (t < T)%N -> cov (Xpost t) (Xpost t) = Ps_ t.
Proof.
move=> tT; have H := opt_smo Hob mis (idx_lt tT).
have Hc : cov (Es Hob mis (T.-1 - t) t) (Es Hob mis (T.-1 - t) t) = Ps_ t := op_c H.
by rewrite /Xpost cov_shift.
Qed.
Lemma Xpost_lag t : (t.+1 < T)%N -> cov (Xpost t.+1) (Xpost t) = Lag_ t.+1.
Proof.
move=> tT; rewrite /Xpost cov_shift.
have -> : (T.-1 - t)%N = (T.-1 - t.+1).+1 by rewrite subnSK // -ltnS prednK.
by rewrite (lag_one Hob mis (j := T.-1 - t.+1)) // idx_lt.
Qed.

Variable ev : option emspec.
Let e := requested o ev.
Definition M_new := em_model T xs_ Ps_ Lag_ mis y M e.
Lemma kf_em_one : exists o', [/\ kf_em o (O2 m zs) 1 ev = (o', Ok tt), kf_model o' T M_new &
  forall q, ~ sel e q -> attribute o' q = Some (field p q)].
Proof.
have [p' [E1 E2 E3]] := em_form xs_ Ps_ Lag_ Hrows e Hp T0.
exists (set_params o p'); split.
- rewrite kf_emE /em_with parse_keep; last by rewrite /keeps size_rows.
  by rewrite (initialize_parametersE (km_rs Ho)) /= -/p em_iter_rows -/e E1.
- by apply: set_model => //; [exact: km_n Ho|exact: km_m Ho|exact: km_rs Ho].
- by move=> q Hq; rewrite attribute_set E3; move/negP/negbTE: Hq => ->.
Qed.
End OneStep.

Lemma sel_selects e x : sel e x <-> selects e x.
Proof.
split; last by rewrite /sel => /is_selected ->.
rewrite /sel; case: e => [l|s] /=; first by move/has_In.
by rewrite str_has_char_name orbF => /String.eqb_eq.
Qed.

Lemma mstep_ext (R : rcfType) (ln : R -> R) (ln2pi : R) (Sp : l2space R) n m (X : nat -> Om Sp -> 'cV[R]_n)
    (y : nat -> 'cV[R]_m) mis T (s s' : pname -> Prop) (M M' : lgm R n m) :
  (forall q, s q <-> s' q) -> mstep ln ln2pi X y mis T s M M' -> mstep ln ln2pi X y mis T s' M M'.
Proof.
move=> E [a1 a2 a3 a4 a5 a6 a7 a8 b1 b2 b3 b4 b5 b6 b7 b8].
split=> H; [apply: a1|apply: a2|apply: a3|apply: a4|apply: a5|apply: a6|apply: a7|apply: a8
  |apply: b1|apply: b2|apply: b3|apply: b4|apply: b5|apply: b6|apply: b7|apply: b8]; try (by apply/E); by move/E.
Qed.

Lemma kf_em_mstep (R : rcfType) n m (o : kf R) T (M : lgm R n m) : kf_model o T M -> (0 < T)%N ->
  forall (mis : nat -> bool) (y : nat -> 'cV[R]_m) (zs : seq (orow R m)), rows_of T mis y zs -> (T != 1%N) || (m <= 1)%N ->
  forall (Sp : l2space R) x z w v, @obeys R Sp n m M T x z w v ->
  forall (ln : R -> R) ln2pi, multiplicative_log ln -> concave_log ln -> forall ev,
  exists (xs : nat -> 'cV[R]_n) (P : nat -> 'M[R]_n) (X : nat -> Om Sp -> 'cV[R]_n) (o' : kf R) (M' : lgm R n m),
  [/\ kf_smooth o (O2 m zs) = Ok [seq (A1 (xs t), A2 (P t)) | t <- iota 0 T], posterior x z mis T xs X,
      kf_em o (O2 m zs) 1 ev = (o', Ok tt), kf_model o' T M' &
      mstep ln ln2pi X y mis T (selects (requested o ev)) M M'].
Proof.
move=> Ho T0 mis y zs Hr Hk Sp x z w v Hob ln ln2pi lnM lnC ev.
have [o' [E1 E2 _]] := kf_em_one Ho T0 Hr Hk ev.
exists (xs_ T M mis y), (Ps_ T M mis), (fun t => Xpost mis y Hob t), o', (M_new o T M mis y ev); split=> //.
- exact: (smooth_rows Ho T0 Hr Hk).
- exact: Xpost_post.
- apply: (mstep_ext (sel_selects (requested o ev))).
  apply: em_mstep => //.
  + exact: Xpost_mean.
  + exact: Xpost_cov.
  + exact: Xpost_lag.
Qed.

Lemma kf_em_psd (R : rcfType) n m (o : kf R) T (M : lgm R n m) : kf_model o T M -> psd_model M T -> (0 < T)%N ->
  forall (zs : seq (orow R m)), size zs = T -> keeps zs -> forall N ev,
  exists (o' : kf R) (M' : lgm R n m), [/\ kf_em o (O2 m zs) N ev = (o', Ok tt), kf_model o' T M' & psd_model M' T].
Proof.
move=> Ho HM T0 zs Hsz Hk N ev; move: Hk; rewrite /keeps Hsz => Hk.
have [mis [y]] := rows_any zs; rewrite Hsz => Hr.
elim: N => [|N [o1 [M1 [E1 Ho1 HM1]]]].
  rewrite kf_emE /em_with parse_keep; last by rewrite /keeps Hsz.
  rewrite (initialize_parametersE (km_rs Ho)) /=.
  exists (set_params o (init_value o)), M; split=> //.
  apply: set_model; [exact: km_n Ho|exact: km_m Ho|exact: km_rs Ho|exact: kf_model_params].
have [Sp [x [z [w [v Hob]]]]] := model_exists HM1.
have [o2 [E2 Ho2 _]] := kf_em_one Ho1 T0 Hr Hk ev.
exists o2, (M_new o1 T M1 mis y ev); split=> //.
  by rewrite -addn1 -(kf_em_compose _ (km_rs Ho) E1).
apply: (em_psd (X := fun t => Xpost mis y Hob t)) => //.
- exact: Xpost_mean.
- exact: Xpost_cov.
- exact: Xpost_lag.
Qed.

Lemma kf_em_ctor (R : rcfType) (a : kfargs R) o X i e : kf_init a = Ok o -> a_em a = Some e ->
  kf_em o X i None = kf_em o X i (Some e).
Proof.
move=> Hi Ha; have [_ _ _ E] := kf_init_attrs Hi.
by apply: kf_em_same_selection => x; rewrite /requested E Ha.
Qed.
Lemma kf_em_string (R : rcfType) (o : kf R) X i s q : seed_ok (k_rs o) -> s <> "all"%string ->
  attribute (kf_em o X i (Some (EmStr s))).1 q = Some (initial_value o q).
Proof. by move=> Hs Ns; exact: kf_em_only_selected. Qed.
