(** Facts about KalmanFilter on well-formed models, from the recursions. *)
From Coq Require Import String List.
From mathcomp Require Import all_ssreflect all_algebra.
From Verif Require Import Prelude Zmod LinAlg Numpy NumpyFacts Sklearn SklearnFacts Standard Model KfSpec StandardInit StandardFacts
  KfStruct KfStruct2 SpecL2 L2Facts Lmmse Exists KfOptimal.
Import GRing.Theory Num.Theory Order.Theory.

Set Implicit Arguments.
Unset Strict Implicit.
Unset Printing Implicit Defensive.
Local Open Scope ring_scope.

Section WF.
Variables (R : rcfType) (n m : nat) (o : kf R) (T : nat) (M : lgm R n m).
Hypothesis Ho : kf_model o T M.
Variable zs : seq (orow R m).
Hypothesis Hsz : size zs = T.
Hypothesis Hk : keeps zs.
Lemma keepsT : (T != 1%N) || (m <= 1)%N. Proof. by move: Hk; rewrite /keeps Hsz. Qed.
Let y := stream zs.

(** ** C14 *)
Lemma filter_shapes : exists rows, [/\ kf_filter o (O2 m zs) = Ok rows, size rows = T &
  List.Forall (fun r => shape r.1 = [:: n] /\ shape r.2 = [:: n; n]) rows].
Proof.
eexists; split; first exact: (kf_filter_ok Ho Hsz keepsT).
  by rewrite size_map size_iota.
by apply/List.Forall_forall => r /List.in_map_iff[t [<- _]].
Qed.
Lemma smooth_shapes : (0 < T)%N -> exists rows, [/\ kf_smooth o (O2 m zs) = Ok rows, size rows = T &
  List.Forall (fun r => shape r.1 = [:: n] /\ shape r.2 = [:: n; n]) rows].
Proof.
move=> T0; eexists; split; first exact: (kf_smooth_ok Ho Hsz keepsT T0).
  by rewrite size_map size_iota.
by apply/List.Forall_forall => r /List.in_map_iff[t [<- _]].
Qed.
Lemma smooth_empty : T = 0%N -> kf_smooth o (O2 m zs) = Err ValueError.
Proof.
move=> T0; rewrite /kf_smooth /smooth_with parse_keep //.
have Z : zs = [::] by apply: size0nil; rewrite Hsz.
rewrite (initialize_parametersE (km_rs Ho)) /bind Z /filter_.
by rewrite (pm_im (kf_model_params Ho)).
Qed.

(** ** C07 *)
Lemma rows_nth f t : (t < T)%N ->
  List.nth_error [seq (A1 (f s).1, A2 (f s).2) | s <- iota 0 T] t = Some (@A1 R n (f t).1, @A2 R n n (f t).2).
Proof.
move=> tT.
have : getidx [seq (A1 (f s).1, A2 (f s).2) | s <- iota 0 T] t = Ok (@A1 R n (f t).1, @A2 R n n (f t).2).
  rewrite (getidx_nth (A0 0, A0 0)) ?size_map ?size_iota //.
  by rewrite (nth_map 0%N) ?size_iota // nth_iota.
by rewrite /getidx; case: (List.nth_error _ _) => [?|] // [->].
Qed.

Lemma filter_missing : exists rows (f : nat -> 'cV[R]_n * 'M[R]_n),
  [/\ kf_filter o (O2 m zs) = Ok rows,
      forall t, (t < T)%N -> List.nth_error rows t = Some (A1 (f t).1, A2 (f t).2) &
      forall t r, List.nth_error zs t = Some r -> missing r ->
        f t = match t with 0 => (mmu M, mP M)
              | t'.+1 => (mA M t' *m (f t').1 + mb M t',
                          mA M t' *m (f t').2 *m (mA M t')^T + mQ M t') end].
Proof.
exists [seq (A1 (filt M y t).1, A2 (filt M y t).2) | t <- iota 0 T], (filt M y); split.
- exact: (kf_filter_ok Ho Hsz keepsT).
- exact: rows_nth.
- move=> t r Hr Hm; have Hy : y t = None by rewrite /y (stream_nth Hr) Hm.
  rewrite {1}/filt /correct Hy; case: t {Hr Hy} => //= t.
  by rewrite /predict -/(filt M y t) mulmxA.
Qed.
End WF.

(** ** C08 *)
Section Affine.
Variables (R : rcfType) (n m : nat) (M : lgm R n m) (mis : nat -> bool).

(** Dirac space over data sequences: only its carrier matters *)
Definition dirac : l2space R.
Proof.
apply: (@L2Space R (nat -> 'cV[R]_m) (fun _ => True) (fun f => f (fun _ => 0))) => //.
- by move=> a f g h _ _ _; rewrite mulrDl mulrA.
- by move=> f _; rewrite -expr2 sqr_ge0.
Defined.
Let z t (om : Om dirac) : 'cV[R]_m := om t.
Definition ym (d : nat -> 'cV[R]_m) t : option 'cV[R]_m := if mis t then None else Some (d t).

Lemma cov_indep t d d' : (pred M (ym d) t).2 = (pred M (ym d') t).2 /\ (filt M (ym d) t).2 = (filt M (ym d') t).2.
Proof.
have H s : (pred M (ym d) s).2 = (pred M (ym d') s).2 -> (filt M (ym d) s).2 = (filt M (ym d') s).2.
  rewrite /filt /correct /ym; move: (pred M _ s) (pred M _ s) => [a P] [a' P'] /= ->.
  by case: (mis s).
elim: t => [|t [IH1 IH2]]; first by split=> //; apply: H.
have E : (pred M (ym d) t.+1).2 = (pred M (ym d') t.+1).2.
  by rewrite /= -!/(filt M _ t) IH2.
split; [exact: E|apply: H; exact: E].
Qed.
Lemma sgain_indep t d d' : sgain M (ym d) t = sgain M (ym d') t.
Proof. by rewrite /sgain (cov_indep t d d').2 (cov_indep t.+1 d d').1. Qed.
Lemma cong_s (a a' l l' s s' p p' : 'M[R]_n) : a = a' -> l = l' -> s = s' -> p = p' ->
  a + l *m ((s - p) *m l^T) = a' + l' *m ((s' - p') *m l'^T).
Proof. by move=> -> -> -> ->. Qed.
Lemma scov_indep j t d d' : (smo M (ym d) j t).2 = (smo M (ym d') j t).2.
Proof.
elim: j t => [|j IH] t; first exact: (cov_indep t d d').2.
have E u : (smo M (ym u) j.+1 t).2 = (filt M (ym u) t).2 +
   sgain M (ym u) t *m (((smo M (ym u) j t.+1).2 - (pred M (ym u) t.+1).2) *m (sgain M (ym u) t)^T) by [].
apply: (etrans (E d)); apply: esym; apply: (etrans (E d')); apply: esym; clear E.
apply: cong_s.
- exact: (cov_indep t d d').2.
- exact: sgain_indep.
- exact: IH.
- exact: (cov_indep t.+1 d d').1.
Qed.

Lemma aff_pred_filt t :
  aff z mis t (fun om => (pred M (ym om) t).1) /\ aff z mis t.+1 (fun om => (filt M (ym om) t).1).
Proof.
have H s : aff z mis s (fun om => (pred M (ym om) s).1) -> aff z mis s.+1 (fun om => (filt M (ym om) s).1).
  move=> Ha; case Hm: (mis s).
    by apply: aff_ext (affS Ha) => om; rewrite /filt /correct /ym Hm.
  apply: (@aff_ext _ dirac _ _ _ _ _ (fun om => (pred M (ym om) s).1 +
     gain M s (pred M (ym (fun _ => 0)) s).2 *m (om s - (mC M s *m (pred M (ym om) s).1 + md M s)))).
    move=> om; have Hy : ym om s = Some (om s) by rewrite /ym Hm.
    by rewrite /filt /correct Hy /= (cov_indep s om (fun _ => 0)).1.
  apply: affD; first exact: affS.
  apply: affM; apply: affB; first by apply: aff_z; rewrite ?Hm.
  by apply: affD; [apply: affM; exact: affS|exact: affc].
elim: t => [|t [IH1 IH2]]; first by split; [|apply: H]; exact: affc.
have E : aff z mis t.+1 (fun om => (pred M (ym om) t.+1).1).
  apply: (@aff_ext _ dirac _ _ _ _ _ (fun om => mA M t *m (filt M (ym om) t).1 + mb M t)) => //.
  by apply: affD; [exact: affM|exact: affc].
by split=> //; exact: H.
Qed.

Lemma aff_smo j t : aff z mis (t + j).+1 (fun om => (smo M (ym om) j t).1).
Proof.
elim: j t => [|j IH] t; first by rewrite addn0; exact: (aff_pred_filt t).2.
apply: (@aff_ext _ dirac _ _ _ _ _ (fun om => (filt M (ym om) t).1 +
   sgain M (ym (fun _ => 0)) t *m ((smo M (ym om) j t.+1).1 - (pred M (ym om) t.+1).1))).
  by move=> om; rewrite (sgain_indep t _ om).
apply: affD; first by apply: aff_le (aff_pred_filt t).2; rewrite ltnS leq_addr.
apply: affM; apply: affB; first by rewrite addnS -addSn; exact: IH.
by apply: aff_le (aff_pred_filt t.+1).1; rewrite ltnS leq_addr.
Qed.
End Affine.

Section MaskOnly.
Variables (R : rcfType) (n m : nat) (o : kf R) (T : nat) (M : lgm R n m).
Hypothesis Ho : kf_model o T M.
Hypothesis Hk : (T != 1%N) || (m <= 1)%N.
Variable mis : nat -> bool.

Lemma stream_rows (d : nat -> 'cV[R]_m) zs t : rows_of T mis d zs -> (t < T)%N -> stream zs t = ym mis d t.
Proof.
move=> [Hs H] tT; rewrite /stream /ym.
case E: (List.nth_error zs t) => [r|]; last first.
  exfalso; move/List.nth_error_None: E => H1.
  by move: tT; rewrite -Hs; move/ssrnat.leP: H1; rewrite ltnNge => ->.
have [-> H2] := H _ _ E.
by case: (mis t) H2 => // ->.
Qed.

Lemma pairE (a a' : 'cV[R]_n) (P P' : 'M[R]_n) : a = a' -> P = P' -> (A1 a, A2 P) = (A1 a', A2 P').
Proof. by move=> -> ->. Qed.
Lemma filter_mask_only : exists (P : nat -> 'M[R]_n) (c : nat -> 'cV[R]_n) (L : nat -> nat -> 'M[R]_(n, m)),
  forall d zs, rows_of T mis d zs -> kf_filter o (O2 m zs) =
    Ok [seq (A1 (c t + \sum_(s < t.+1 | ~~ mis s) L t s *m d s), A2 (P t)) | t <- iota 0 T].
Proof.
have Ha t := (aff_pred_filt M mis t).2.
have Hx (t : 'I_T) : exists cL : 'cV[R]_n * (nat -> 'M[R]_(n, m)),
   forall d, (filt M (ym mis d) t).1 = cL.1 + \sum_(s < t.+1 | ~~ mis s) cL.2 s *m d s.
  by have [c [L H]] := Ha t; exists (c, L) => d; rewrite H.
have [cL HcL] := fin_all_exists Hx.
exists (fun t => (filt M (ym mis (fun _ => 0)) t).2),
  (fun t => if insub t is Some i then (cL i).1 else 0), (fun t => if insub t is Some i then (cL i).2 else fun _ => 0).
move=> d zs Hd; have Hsz : size zs = T by case: Hd.
rewrite (kf_filter_ok Ho Hsz Hk); congr Ok; apply: iota_map_ext => t /= tT.
have E : filt M (stream zs) t = filt M (ym mis d) t.
  by apply: filt_ext => s st; apply: (stream_rows Hd); apply: leq_ltn_trans tT.
apply: pairE; first by rewrite E insubT (HcL (Sub t tT)).
by rewrite E; exact: (cov_indep M mis t d (fun _ => 0)).2.
Qed.

Lemma smooth_mask_only : (0 < T)%N ->
  exists (P : nat -> 'M[R]_n) (c : nat -> 'cV[R]_n) (L : nat -> nat -> 'M[R]_(n, m)),
  forall d zs, rows_of T mis d zs -> kf_smooth o (O2 m zs) =
    Ok [seq (A1 (c t + \sum_(s < T | ~~ mis s) L t s *m d s), A2 (P t)) | t <- iota 0 T].
Proof.
move=> T0.
have ET (t : 'I_T) : (t + (T.-1 - t)).+1 = T.
  by rewrite subnKC ?prednK // -ltnS prednK.
have Hx (t : 'I_T) : exists cL : 'cV[R]_n * (nat -> 'M[R]_(n, m)),
   forall d, (smo M (ym mis d) (T.-1 - t) t).1 = cL.1 + \sum_(s < T | ~~ mis s) cL.2 s *m d s.
  have [c [L H]] := aff_smo M mis (T.-1 - t) t; exists (c, L) => d; rewrite H.
  by rewrite ET.
have [cL HcL] := fin_all_exists Hx.
exists (fun t => (smo M (ym mis (fun _ => 0)) (T.-1 - t) t).2),
  (fun t => if insub t is Some i then (cL i).1 else 0), (fun t => if insub t is Some i then (cL i).2 else fun _ => 0).
move=> d zs Hd; have Hsz : size zs = T by case: Hd.
rewrite (kf_smooth_ok Ho Hsz Hk T0).
apply: f_equal.
apply: iota_map_ext => t.
rewrite add0n leq0n andTb => tT.
have E : smo M (stream zs) (T.-1 - t) t = smo M (ym mis d) (T.-1 - t) t.
  apply: smo_ext => s st; apply: (stream_rows Hd); apply: leq_ltn_trans st _.
  by rewrite (ET (Ordinal tT)).
apply: pairE; first by rewrite E insubT (HcL (Sub t tT)).
by rewrite E; exact: scov_indep.
Qed.
End MaskOnly.

(** ** C09 *)
Section Shrink.
Variables (R : rcfType) (n m : nat) (T : nat) (M : lgm R n m).
Hypothesis HM : psd_model M T.

Lemma Pp_psd mis t : (t < T)%N -> psd (Pp M mis t).
Proof. by have [Sp [x [z [w [v Hob]]]]] := model_exists HM; exact: (psd_Pp Hob). Qed.
Lemma Pf_psd mis t : (t < T)%N -> psd (Pf M mis t).
Proof. by have [Sp [x [z [w [v Hob]]]]] := model_exists HM; exact: (psd_Pf Hob). Qed.
Lemma Ps_psd mis j t : (t + j < T)%N -> psd (Ps M mis j t).
Proof.
have [Sp [x [z [w [v Hob]]]]] := model_exists HM => tT.
exact: (opt_psd (opt_smo Hob mis tT)).
Qed.

Lemma blue_lep (Sp : l2space R) (x xh xh' : Om Sp -> 'cV[R]_n) (z : nat -> Om Sp -> 'cV[R]_m) mis mis' k k' P P' :
  (forall s, (s < k')%N -> rvec (z s)) -> rvec x ->
  blue x z mis k xh P -> blue x z mis' k' xh' P' -> (k' <= k)%N ->
  (forall s, (s < k')%N -> mis s -> mis' s) -> lep P P'.
Proof.
move=> Hz Hx [_ _ _ _ Hbest] [[c [L HL]] Hu _ Hc _] kk Hmm.
pose L' s := if (s < k')%N && ~~ mis' s then L s else 0.
have E om : affine_est z mis k c L' om = xh' om.
  rewrite HL /affine_est; congr (_ + _).
  rewrite (bigID (fun s : 'I_k => (s < k')%N && ~~ mis' s)) /= [X in _ + X]big1 ?addr0; last first.
    by move=> s /andP[_ /negbTE Hs]; rewrite /L' Hs mul0mx.
  rewrite (big_ord_widen_cond k (fun s => ~~ mis' s) (fun s => L s *m z s om) kk).
  apply: eq_big => s; last by move=> /andP[_ Hs]; rewrite /L' Hs.
  case sk: (s < k')%N; rewrite ?andbF ?andbT //=.
  case Hm': (mis' s); rewrite ?andbF ?andbT //.
  by apply/negP => /(Hmm _ sk); rewrite Hm'.
have := Hbest c L'.
have Hxh : rvec xh'.
  apply: rvec_ext (affine_est_rv (mis := mis') (k := k') c L (fun s sk _ => Hz s sk)).
  by move=> om; rewrite HL.
rewrite (@mom_ext _ _ _ _ _ (rvs (MkRV Hx) (MkRV Hxh)) _ (rvs (MkRV Hx) (MkRV Hxh)));
  try by move=> om; rewrite rvsE /= E.
have E2 : rvs (MkRV Hx) (MkRV Hxh) =1 (fun om => x om - xh' om) by move=> om; rewrite rvsE.
rewrite mom_cov (cov_ext E2 E2) Hc.
have -> : mean (rvs (MkRV Hx) (MkRV Hxh)) = 0 by rewrite (mean_ext E2) Hu.
by rewrite mul0mx addr0.
Qed.

Lemma Pf_le_Pp mis t : (t < T)%N -> lep (Pf M mis t) (Pp M mis t).
Proof.
have [Sp [x [z [w [v Hob]]]]] := model_exists HM => tT.
apply: (blue_lep (k := t.+1) (k' := t) _ _ (blue_filt Hob mis tT) (blue_pred Hob mis tT)) => //.
- move=> s st; apply: rvec_ext (rvP (Z Hob s)); apply: Z_z; exact: ltn_trans tT.
- by apply: rvec_ext (rvP (X Hob t)); exact: X_x.
Qed.
Lemma Ps_le_Pf mis t : (t < T)%N -> lep (Ps M mis (T.-1 - t) t) (Pf M mis t).
Proof.
have [Sp [x [z [w [v Hob]]]]] := model_exists HM => tT.
apply: (blue_lep (k := T) (k' := t.+1) _ _ (blue_smo Hob mis tT) (blue_filt Hob mis tT)) => //.
- move=> s st; apply: rvec_ext (rvP (Z Hob s)); apply: Z_z; exact: leq_trans tT.
- by apply: rvec_ext (rvP (X Hob t)); exact: X_x.
Qed.
Lemma Pf_mono (mis mis' : nat -> bool) t : (t < T)%N -> (forall s, (s < T)%N -> mis s -> mis' s) ->
  lep (Pf M mis t) (Pf M mis' t).
Proof.
have [Sp [x [z [w [v Hob]]]]] := model_exists HM => tT Hmm.
apply: (blue_lep (k := t.+1) (k' := t.+1) _ _ (blue_filt Hob mis tT) (blue_filt Hob mis' tT)) => //.
- move=> s st; apply: rvec_ext (rvP (Z Hob s)); apply: Z_z; exact: leq_trans tT.
- by apply: rvec_ext (rvP (X Hob t)); exact: X_x.
- by move=> s st; apply: Hmm; exact: leq_trans tT.
Qed.
Lemma Ps_mono (mis mis' : nat -> bool) t : (t < T)%N -> (forall s, (s < T)%N -> mis s -> mis' s) ->
  lep (Ps M mis (T.-1 - t) t) (Ps M mis' (T.-1 - t) t).
Proof.
have [Sp [x [z [w [v Hob]]]]] := model_exists HM => tT Hmm.
apply: (blue_lep (k := T) (k' := T) _ _ (blue_smo Hob mis tT) (blue_smo Hob mis' tT)) => //.
- by move=> s st; apply: rvec_ext (rvP (Z Hob s)); exact: Z_z.
- by apply: rvec_ext (rvP (X Hob t)); exact: X_x.
Qed.
End Shrink.
