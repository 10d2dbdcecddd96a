(** Dropping a masked row of the data by merging two transitions. *)
From Coq Require Import String List.
From mathcomp Require Import all_ssreflect all_algebra.
From mathcomp Require Import ring.
From Verif Require Import Prelude Zmod LinAlg Numpy NumpyFacts Sklearn SklearnFacts Standard Model KfSpec KfMoreSpec KfMergeSpec StandardInit StandardFacts
  KfStruct KfStruct2 SpecL2 L2Facts Lmmse Exists KfOptimal KfModelFacts KfOnline KfEm KfEquiv GaussSpec KfLoglik Joint KfJoint KfGlue KfNoise KfMore KfBlock KfMoreGlue.
Import GRing.Theory Num.Theory Order.Theory.

Set Implicit Arguments.
Unset Strict Implicit.
Unset Printing Implicit Defensive.
Local Open Scope ring_scope.

Lemma bump_le k t : (t <= k)%N -> bump k.+1 t = t.
Proof. by move=> tk; rewrite /bump ltnNge tk. Qed.
Lemma bump_gt k t : (k < t)%N -> bump k.+1 t = t.+1.
Proof. by rewrite /bump => ->. Qed.

Section Merge.
Variables (R : rcfType) (n m : nat) (M : lgm R n m) (k : nat) (y y' : nat -> option 'cV[R]_m).
Hypothesis Hy : forall t, y' t = y (bump k.+1 t).
Hypothesis Hm : y k.+1 = None.
Local Notation M' := (merge_model M k).

Lemma merge_A_lt t : (t < k)%N -> mA M' t = mA M t. Proof. by rewrite /= => ->. Qed.
Lemma merge_A_eq : mA M' k = mA M k.+1 *m mA M k. Proof. by rewrite /= ltnn eqxx. Qed.
Lemma merge_A_gt t : (k < t)%N -> mA M' t = mA M t.+1.
Proof. by move=> kt; rewrite /= ltnNge (ltnW kt) /= gtn_eqF. Qed.
Lemma merge_correct t s : correct M' y' t s = correct M y (bump k.+1 t) s.
Proof. by rewrite /correct Hy. Qed.
Lemma filt_gap : filt M y k.+1 = pred M y k.+1. Proof. by rewrite /filt /correct Hm. Qed.

Lemma merge_pred t : pred M' y' t = pred M y (bump k.+1 t).
Proof.
elim: t => [|t IH]; first by rewrite bump_le.
rewrite [LHS]/= IH merge_correct; case: (ltngtP t k) => tk.
- rewrite (bump_le tk) (bump_le (ltnW tk)) /=.
  by rewrite /predict /= tk.
- rewrite (bump_gt tk) (bump_gt (leqW tk)) /=.
  by rewrite /predict /= ltnNge (ltnW tk) /= gtn_eqF.
rewrite tk (bump_gt (ltnSn k)) (bump_le (leqnn k)) -/(filt M y k).
have -> : pred M y k.+2 = predict M k.+1 (predict M k (filt M y k)) by rewrite /= {1}/correct Hm.
rewrite /predict /= ltnn eqxx /=; congr pair.
  by rewrite mulmxDr addrA mulmxA.
by rewrite trmx_mul mulmxDl mulmxDr !mulmxA addrA.
Qed.
Lemma merge_filt t : filt M' y' t = filt M y (bump k.+1 t).
Proof. by rewrite /filt merge_pred merge_correct. Qed.

Lemma merge_smo_gt j t : (k < t)%N -> smo M' y' j t = smo M y j t.+1.
Proof.
elim: j t => [|j IH] t kt; first by rewrite /= merge_filt bump_gt.
rewrite smoS [in RHS]smoS (IH t.+1 (leqW kt)) /sgain merge_filt !merge_pred (bump_gt kt) (bump_gt (leqW kt)).
by rewrite (merge_A_gt kt).
Qed.

Hypothesis HP : psd (filt M y k).2.
Hypothesis HQ : psd (mQ M k).
Lemma merge_gain : sgain M' y' k = sgain M y k *m sgain M y k.+1.
Proof.
rewrite /sgain merge_filt merge_pred bump_le // bump_gt // merge_A_eq filt_gap.
have E : pred M y k.+1 = predict M k (filt M y k) by [].
have := sgain_pred (mA M k) HP HQ; rewrite -[mA M k *m _ + _]/(predict M k (filt M y k)).2 -E => H.
by rewrite trmx_mul [in RHS]mulmxA H !mulmxA.
Qed.
Lemma merge_smo_eq j : smo M' y' j.+1 k = smo M y j.+2 k.
Proof.
rewrite smoS merge_smo_gt // merge_gain merge_filt merge_pred bump_le // bump_gt //.
rewrite [in RHS]smoS [in RHS](smoS M y j k.+1) filt_gap [(_, _).1]/= [(_, _).2]/=.
move: (smo M y j k.+2) (pred M y k.+2) (filt M y k) (pred M y k.+1) (sgain M y k) (sgain M y k.+1) => s p f q L1 L2.
congr pair; rewrite addrAC subrr add0r ?trmx_mul !mulmxA //.
Qed.
Lemma merge_smo_le j t : (t <= k)%N -> (k < t + j)%N -> smo M' y' j t = smo M y j.+1 t.
Proof.
elim: j t => [|j IH] t tk kj; first by move: kj; rewrite addn0 ltnNge tk.
case: (ltngtP t k) tk => // tk _; last by rewrite tk merge_smo_eq.
rewrite [in RHS]smoS smoS IH //; last by rewrite addSnnS.
by rewrite /sgain merge_filt !merge_pred !bump_le // ?(ltnW tk) // merge_A_lt.
Qed.
End Merge.

Section Api.
Variables (R : rcfType) (n m : nat) (o o' : kf R) (T k : nat) (M : lgm R n m) (zs : seq (orow R m)).
Hypothesis Ho : kf_model o T.+1 M.
Hypothesis Ho' : kf_model o' T (merge_model M k).
Hypothesis Hsz : size zs = T.+1.
Hypothesis kT : (k.+1 < T)%N.
Hypothesis Hmis : if List.nth_error zs k.+1 is Some r then missing r else false.
Hypothesis Hk : keeps zs.
Hypothesis Hk' : keeps (without k.+1 zs).
Local Notation zs' := (without k.+1 zs).

Lemma without_size U (l : seq U) : size l = T.+1 -> size (without k.+1 l) = T.
Proof.
move=> E; rewrite /without size_cat size_takel ?size_drop ?E; last by rewrite ltnS (ltnW (ltnW kT)).
by rewrite subSS subnKC // ltnW.
Qed.
Lemma without_stream t : stream zs' t = stream zs (bump k.+1 t).
Proof.
have Es : size (take k.+1 zs) = k.+1 by rewrite size_takel // Hsz ltnS (ltnW (ltnW kT)).
rewrite /without; case: (leqP t k) => tk.
  by rewrite stream_cat_l ?Es // stream_take // bump_le.
rewrite bump_gt // -(subnKC tk); move: (t - k.+1)%N => u.
have -> : stream (take k.+1 zs ++ drop k.+2 zs) (k.+1 + u) = stream (take k.+1 zs ++ drop k.+2 zs) (size (take k.+1 zs) + u) by rewrite Es.
by rewrite stream_cat_r stream_drop -addSn.
Qed.
Lemma gap_stream : stream zs k.+1 = None.
Proof. by rewrite /stream; case: (List.nth_error _ _) Hmis => // r ->. Qed.
Lemma without_iota U (f : nat -> U) : without k.+1 (map f (iota 0 T.+1)) = [seq f (bump k.+1 t) | t <- iota 0 T].
Proof.
rewrite /without -map_take -map_drop take_iota drop_iota (minn_idPl _); last by rewrite ltnS (ltnW (ltnW kT)).
rewrite -{2}(subnKC (ltnW kT)) iotaD map_cat add0n subSS; congr (_ ++ _).
  by apply/eq_in_map => t; rewrite mem_iota add0n ltnS => /andP[_ tk]; rewrite bump_le.
rewrite -[k.+2]add1n iotaDl -map_comp; apply/eq_in_map => t; rewrite mem_iota => /andP[kt _] /=.
by rewrite bump_gt // add1n.
Qed.

Lemma merge_filter_api rows : kf_filter o (O2 m zs) = Ok rows -> kf_filter o' (O2 m zs') = Ok (without k.+1 rows).
Proof.
rewrite (kf_filter_ok Ho Hsz (keepsT Hsz Hk)) => -[<-]; have Hs' := without_size Hsz.
rewrite (kf_filter_ok Ho' Hs' (keepsT Hs' Hk')) without_iota; congr Ok; apply: iota_map_ext => t _.
by rewrite (merge_filt M without_stream gap_stream).
Qed.

Lemma merge_smooth_api rows : psd_model M T.+1 -> kf_smooth o (O2 m zs) = Ok rows -> kf_smooth o' (O2 m zs') = Ok (without k.+1 rows).
Proof.
move=> HM; rewrite (kf_smooth_ok Ho Hsz (keepsT Hsz Hk) isT) => -[<-]; have Hs' := without_size Hsz.
have T0 : (0 < T)%N by exact: leq_ltn_trans kT.
rewrite (kf_smooth_ok Ho' Hs' (keepsT Hs' Hk') T0) without_iota; apply: f_equal; apply: iota_map_ext => t.
rewrite add0n leq0n andTb => tT.
have pf : psd (filt M (stream zs) k).2.
  by rewrite filt_cov; apply: (Pf_psd HM); rewrite ltnS (ltnW (ltnW kT)).
have pQ : psd (mQ M k) by case: HM => _ H _; apply: H; exact: ltn_trans kT.
suff E : smo (merge_model M k) (stream zs') (T.-1 - t) t = smo M (stream zs) (T.+1.-1 - bump k.+1 t) (bump k.+1 t).
  exact (f_equal (fun q => (A1 q.1, A2 q.2)) E).
case: (leqP t k) => tk.
  rewrite bump_le // (merge_smo_le without_stream gap_stream pf pQ tk); last first.
    by rewrite subnKC -1?ltnS ?prednK // ltnS.
  by congr smo; rewrite /= -subSn ?prednK // -ltnS prednK.
rewrite bump_gt // (merge_smo_gt M without_stream gap_stream) //; congr smo.
by rewrite /= -subn1 -subnDA add1n.
Qed.

Variables (ln : R -> R) (ln2pi : R).
Lemma merge_loglik_api : const2 (k_oc o) -> const2 (k_oc o') ->
  kf_loglikelihood ln ln2pi o' (O2 m zs') = kf_loglikelihood ln ln2pi o (O2 m zs).
Proof.
move=> Hc Hc'; have Hs' := without_size Hsz.
apply: (etrans (kf_loglik_steps Ho' Hc' Hs' Hk' ln ln2pi)); apply: esym.
apply: (etrans (kf_loglik_steps Ho Hc Hsz Hk ln ln2pi)).
have Ef t : ll_step (merge_model M k) zs' ln ln2pi t = ll_step M zs ln ln2pi (bump k.+1 t).
  by rewrite /ll_step (merge_pred M without_stream gap_stream) without_stream.
have E0 : ll_step M zs ln ln2pi k.+1 = Ok 0 by rewrite /ll_step gap_stream.
move: (ll_step M zs ln ln2pi) (ll_step (merge_model M k) zs' ln ln2pi) Ef E0 => f g Efg E0.
have -> : iota 0 T.+1 = iota 0 k.+1 ++ k.+1 :: iota k.+2 (T - k.+1).
  by rewrite -{1}(subnKC (ltnW kT)) -addnS iotaD.
have -> : iota 0 T = iota 0 k.+1 ++ iota k.+1 (T - k.+1) by rewrite -{1}(subnKC (ltnW kT)) iotaD.
rewrite !mapr_cat (@mapr_ext _ _ g f (iota 0 k.+1)); last first.
  by move=> t; rewrite mem_iota add0n ltnS => /andP[_ tk]; rewrite Efg bump_le.
have -> : mapr f (k.+1 :: iota k.+2 (T - k.+1)) = (l <-- mapr g (iota k.+1 (T - k.+1)) ;; Ok (0 :: l)).
  rewrite -[k.+2]add1n iotaDl /= E0 bindOk.
  have -> : mapr f [seq (1 + t)%N | t <- iota k.+1 (T - k.+1)] = mapr g (iota k.+1 (T - k.+1)); last by case: (mapr _ _).
  suff H h a : (k < a)%N -> mapr f [seq (1 + t)%N | t <- iota a h] = mapr g (iota a h) by exact: H.
  by elim: h a => [|h IH] a ka //=; rewrite (IH _ (leqW ka)) Efg bump_gt // add1n.
case: (mapr f _) => // l1; rewrite !bindOk; case: (mapr g _) => // l2; rewrite !bindOk.
by rewrite !big_cat big_cons /= add0r.
Qed.
End Api.
