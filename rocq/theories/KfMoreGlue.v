(** API-level forms of the facts in KfMore, KfNoise and KfBlock. *)
From Coq Require Import String List.
From mathcomp Require Import all_ssreflect all_algebra.
From mathcomp Require Import ring.
From Verif Require Import Prelude Zmod LinAlg Numpy NumpyFacts Sklearn SklearnFacts Standard Model KfSpec KfMoreSpec StandardInit StandardFacts
  KfStruct KfStruct2 SpecL2 L2Facts Lmmse Exists KfOptimal KfModelFacts KfOnline KfEm KfEquiv GaussSpec KfLoglik Joint KfJoint KfGlue KfNoise KfMore KfBlock.
Import GRing.Theory Num.Theory Order.Theory.

Set Implicit Arguments.
Unset Strict Implicit.
Unset Printing Implicit Defensive.
Local Open Scope ring_scope.

Lemma iota_cat_map U (f : nat -> U) T h : map f (iota 0 (T + h)) = map f (iota 0 T) ++ map f (iota T h).
Proof. by rewrite iotaD map_cat. Qed.
Lemma iota_shift U (f : nat -> U) a b h : map f (iota (a + b) h) = [seq f (a + t)%N | t <- iota b h].
Proof. by rewrite iotaDl -map_comp. Qed.

(** ** Forecast *)
Section Forecast.
Variables (R : rcfType) (n m : nat) (o : kf R) (T h : nat) (M : lgm R n m) (zs ms : seq (orow R m)).
Hypothesis Ho : kf_model o (T.+1 + h) M.
Hypothesis Hsz : size zs = T.+1.
Hypothesis Hms : size ms = h.
Hypothesis Hm : all (@missing R m) ms.
Hypothesis Hk : keeps zs.
Hypothesis Hk' : keeps (zs ++ ms).
Let Ho1 : kf_model o T.+1 M := kf_model_le Ho.
Let y := stream zs.
Let y' := stream (zs ++ ms).
Let tail (s : 'cV[R]_n * 'M[R]_n) := [seq (A1 (forecast M T s k).1, A2 (forecast M T s k).2) | k <- iota 1 h].

Lemma fc_size : size (zs ++ ms) = (T.+1 + h)%N. Proof. by rewrite size_cat Hsz Hms. Qed.
Lemma fc_l t : (t < T.+1)%N -> y' t = y t.
Proof. by move=> tT; apply: stream_cat_l; rewrite Hsz. Qed.
Lemma fc_r t : (T < t)%N -> y' t = None.
Proof. by move=> tT; rewrite -(subnKC tT) /y' -{1}Hsz stream_cat_r stream_missing. Qed.
Lemma fc_filt t : (t < T.+1)%N -> filt M y' t = filt M y t.
Proof. by move=> tT; apply: filt_ext => s st; apply: fc_l; apply: leq_ltn_trans tT. Qed.
Lemma fc_tail k : filt M y' (T + k) = forecast M T (filt M y T) k.
Proof.
rewrite -(fc_filt (ltnSn T)); apply: filt_forecast => s /andP[Ts _]; exact: fc_r.
Qed.

Lemma forecast_filter : exists rows f, [/\ kf_filter o (O2 m zs) = Ok rows,
  List.nth_error rows T = Some (A1 f.1, A2 f.2) & kf_filter o (O2 m (zs ++ ms)) = Ok (rows ++ tail f)].
Proof.
exists [seq (A1 (filt M y t).1, A2 (filt M y t).2) | t <- iota 0 T.+1], (filt M y T); split.
- by rewrite (kf_filter_ok Ho1 Hsz) //; exact: keepsT Hk.
- by rewrite rows_nth.
rewrite (kf_filter_ok Ho fc_size); last exact: keepsT fc_size Hk'.
rewrite iota_cat_map; congr (Ok (_ ++ _)).
  by apply: iota_map_ext => t /= tT; rewrite fc_filt.
by rewrite -[in iota T.+1 h](addn1 T) iota_shift /tail; apply: iota_map_ext => k _; rewrite fc_tail.
Qed.

Lemma forecast_smooth : exists rows f, [/\ kf_smooth o (O2 m zs) = Ok rows,
  List.nth_error rows T = Some (A1 f.1, A2 f.2) & kf_smooth o (O2 m (zs ++ ms)) = Ok (rows ++ tail f)].
Proof.
have idx t : (t <= T)%N -> ((T.+1 + h).-1 - t = T - t + h)%N.
  by move=> tT; rewrite addSn /= addnC -addnBA // addnC.
have S t : (t <= T)%N -> smo M y' ((T.+1 + h).-1 - t) t = smo M y (T - t) t.
  move=> tT; rewrite idx // smo_add => [|s]; last by rewrite subnKC // => /andP[/fc_r].
  by apply: smo_ext => s; rewrite subnKC // => sT; exact: fc_l.
exists [seq (A1 (smo M y (T.+1.-1 - t) t).1, A2 (smo M y (T.+1.-1 - t) t).2) | t <- iota 0 T.+1], (filt M y T); split.
- by rewrite (kf_smooth_ok Ho1 Hsz) //; exact: keepsT Hk.
- have := @rows_nth R n T.+1 (fun t => smo M y (T - t) t) T (ltnSn T).
  by rewrite subnn.
rewrite (kf_smooth_ok Ho fc_size) //; last exact: keepsT fc_size Hk'.
rewrite iota_cat_map; congr (Ok (_ ++ _)).
  by apply: iota_map_ext => t; rewrite add0n leq0n andTb ltnS => tT; rewrite S.
rewrite -[in iota T.+1 h](addn1 T) iota_shift /tail; apply: iota_map_ext => k /andP[k1 kh].
rewrite -fc_tail smo_stop // => s /andP[ks _]; apply: fc_r; apply: leq_ltn_trans ks; exact: leq_addr.
Qed.
End Forecast.

Lemma forecast_loglik (R : rcfType) n m (o : kf R) T (M : lgm R n m) ln ln2pi (zs ms : seq (orow R m)) :
  const2 (k_oc o) -> kf_model o (T + size ms) M -> size zs = T -> all (@missing R m) ms ->
  (forall k, (k <= size ms)%N -> keeps (zs ++ take k ms)) ->
  kf_loglikelihood ln ln2pi o (O2 m (zs ++ ms)) = kf_loglikelihood ln ln2pi o (O2 m zs).
Proof.
move=> Hc; elim/last_ind: ms => [|ms r IH]; first by rewrite cats0.
rewrite size_rcons addnS all_rcons => Ho Hsz /andP[Hr Hms] Hk.
have Hk1 : keeps (zs ++ ms).
  by have := Hk (size ms) (leqnSn _); rewrite -cats1 take_size_cat.
have Hk2 : keeps (rcons (zs ++ ms) r).
  by have := Hk (size ms).+1 (leqnn _); rewrite (@take_oversize _ _ (rcons ms r)) ?size_rcons // rcons_cat.
rewrite -rcons_cat (loglik_missing Ho Hc) //; last by rewrite size_cat Hsz.
apply: IH => // [|k km]; first exact: kf_modelS.
have := Hk k (leqW km); rewrite -cats1 takel_cat //.
Qed.

Lemma A2_eq (R : rcfType) k l (M N : 'M[R]_(k, l)) : A2 M = A2 N -> M = N.
Proof.
move/(congr1 (fun a : arr R => \matrix_(i < k, j < l) (if a is A2 _ _ X then mget X i j else 0))) => /matrixP E.
by apply/matrixP=> i j; have := E i j; rewrite !mxE !mgetE.
Qed.
Lemma A1_eq (R : rcfType) k (M N : 'cV[R]_k) : A1 M = A1 N -> M = N.
Proof.
move/(congr1 (fun a : arr R => \col_(i < k) (if a is A1 _ X then mget X i (0 : 'I_1) else 0))) => /matrixP E.
by apply/matrixP=> i j; have := E i j; rewrite !mxE !mgetE !(ord1 j).
Qed.

(** ** Restart *)
Lemma drop_map_iota U (f : nat -> U) k T : drop k (map f (iota 0 T)) = [seq f (k + t)%N | t <- iota 0 (T - k)].
Proof. by rewrite -map_drop drop_iota addnC iota_shift. Qed.

Lemma mapr_split (R : rcfType) (f g g' : nat -> res R) k T : (k <= T)%N ->
  (forall t, (t < k)%N -> f t = g t) -> (forall t, f (k + t)%N = g' t) ->
  (ls <-- mapr f (iota 0 T) ;; Ok (\sum_(l <- ls) l)) =
  (l1 <-- (ls <-- mapr g (iota 0 k) ;; Ok (\sum_(l <- ls) l)) ;;
   l2 <-- (ls <-- mapr g' (iota 0 (T - k)) ;; Ok (\sum_(l <- ls) l)) ;; Ok (l1 + l2)).
Proof.
move=> kT Hg Hg'; have -> : iota 0 T = iota 0 k ++ iota k (T - k) by rewrite -{1}(subnKC kT) iotaD add0n.
rewrite mapr_cat (@mapr_ext _ _ f g (iota 0 k)); last by move=> t; rewrite mem_iota => /andP[_]; exact: Hg.
have -> : mapr f (iota k (T - k)) = mapr g' (iota 0 (T - k)).
  move: (T - k)%N => h; rewrite -[in iota k _](addn0 k) iotaDl; elim: (iota 0 h) => [|t l IH] //=; by rewrite IH Hg'.
case: (mapr g _) => // l1; rewrite !bindOk; case: (mapr g' _) => // l2; rewrite !bindOk.
by rewrite big_cat.
Qed.

Section Restart.
Variables (R : rcfType) (n m : nat) (o o' : kf R) (T s : nat) (M : lgm R n m) (zs : seq (orow R m)).
Hypothesis Ho : kf_model o T M.
Hypothesis Hsz : size zs = T.
Hypothesis Hk : keeps zs.
Hypothesis Hk' : keeps (drop s.+1 zs).
Hypothesis sT : (s < T)%N.
Variables (rows : seq (arr R * arr R)) (f : 'cV[R]_n * 'M[R]_n).
Hypothesis Hrows : kf_filter o (O2 m zs) = Ok rows.
Hypothesis Hf : List.nth_error rows s = Some (A1 f.1, A2 f.2).
Hypothesis Ho' : kf_model o' (T - s.+1) (shift_model M s.+1 (forecast M s f 1)).
Let y := stream zs.
Let y' := stream (drop s.+1 zs).

Lemma rs_f : f = filt M y s.
Proof.
move: Hrows Hf; rewrite (kf_filter_ok Ho Hsz (keepsT Hsz Hk)) => -[<-]; rewrite rows_nth // => E.
have E1 := A1_eq (congr1 (fun x => if x is Some p then p.1 else A0 0) E).
have E2 := A2_eq (congr1 (fun x => if x is Some p then p.2 else A0 0) E).
by rewrite [LHS]surjective_pairing -E1 -E2 -surjective_pairing.
Qed.
Lemma rs_pred : forecast M s f 1 = pred M y s.+1.
Proof. by rewrite rs_f /= /predict addn0 -mulmxA. Qed.
Lemma rs_y t : y' t = y (s.+1 + t). Proof. exact: stream_drop. Qed.
Lemma rs_size : size (drop s.+1 zs) = (T - s.+1)%N. Proof. by rewrite size_drop Hsz. Qed.
Lemma rs_model : kf_model o' (T - s.+1) (shift_model M s.+1 (pred M y s.+1)).
Proof. by rewrite -rs_pred. Qed.

Lemma restart_filter : kf_filter o' (O2 m (drop s.+1 zs)) = Ok (drop s.+1 rows).
Proof.
move: Hrows; rewrite (kf_filter_ok Ho Hsz (keepsT Hsz Hk)) => -[<-].
rewrite (kf_filter_ok rs_model rs_size (keepsT rs_size Hk')) drop_map_iota; congr Ok.
by apply: iota_map_ext => t _; rewrite (shift_filt M rs_y).
Qed.
Lemma restart_smooth srows : (s.+1 < T)%N -> kf_smooth o (O2 m zs) = Ok srows ->
  kf_smooth o' (O2 m (drop s.+1 zs)) = Ok (drop s.+1 srows).
Proof.
move=> sT1; have T0 : (0 < T)%N by exact: leq_ltn_trans sT1.
rewrite (kf_smooth_ok Ho Hsz (keepsT Hsz Hk) T0) => -[<-].
rewrite (kf_smooth_ok rs_model rs_size (keepsT rs_size Hk')) ?subn_gt0 // drop_map_iota; congr Ok.
apply: iota_map_ext => t; rewrite add0n leq0n andTb => tT; rewrite (shift_smo M rs_y).
by have -> : ((T - s.+1).-1 - t = T.-1 - (s.+1 + t))%N by rewrite -!subn1 -!subnDA addnCA.
Qed.

Variables (ln : R -> R) (ln2pi : R).
Lemma restart_loglik : const2 (k_oc o) -> const2 (k_oc o') -> keeps (take s.+1 zs) ->
  kf_loglikelihood ln ln2pi o (O2 m zs) =
  (l1 <-- kf_loglikelihood ln ln2pi o (O2 m (take s.+1 zs)) ;;
   l2 <-- kf_loglikelihood ln ln2pi o' (O2 m (drop s.+1 zs)) ;; Ok (l1 + l2)).
Proof.
move=> Hc Hc' Hk1.
have Hm1 : kf_model o s.+1 M by apply: (kf_model_le (k := T - s.+1)); rewrite subnKC.
have Hs1 : size (take s.+1 zs) = s.+1 by apply: size_takel; rewrite Hsz.
have E1 t : (t < s.+1)%N -> ll_step M zs ln ln2pi t = ll_step M (take s.+1 zs) ln ln2pi t.
  move=> ts; have EP : pred M (stream zs) t = pred M (stream (take s.+1 zs)) t.
    by apply: pred_ext => r rt; rewrite stream_take //; exact: ltn_trans ts.
  by rewrite /ll_step EP (stream_take _ ts).
have E2 t : ll_step M zs ln ln2pi (s.+1 + t) =
    ll_step (shift_model M s.+1 (pred M y s.+1)) (drop s.+1 zs) ln ln2pi t.
  rewrite /ll_step; have -> := shift_pred M rs_y t; have -> := stream_drop zs s.+1 t; exact: erefl.
apply: (etrans (kf_loglik_steps Ho Hc Hsz Hk ln ln2pi)).
apply: (etrans (mapr_split sT E1 E2)).
have <- := kf_loglik_steps Hm1 Hc Hs1 Hk1 ln ln2pi.
by have <- := kf_loglik_steps rs_model Hc' rs_size Hk' ln ln2pi.
Qed.
End Restart.

(** ** Scaled covariances *)
Section Scale.
Variables (R : rcfType) (n m : nat) (o o' : kf R) (T : nat) (M : lgm R n m) (c : R) (zs : seq (orow R m)).
Hypothesis c0 : c != 0.
Hypothesis Ho : kf_model o T M.
Hypothesis Ho' : kf_model o' T (scale_model M c).
Hypothesis Hsz : size zs = T.
Hypothesis Hk : keeps zs.
Lemma scale_api : exists (mf : nat -> 'cV[R]_n) (Pf : nat -> 'M[R]_n) (ms : nat -> 'cV[R]_n) (Ps : nat -> 'M[R]_n),
  [/\ kf_filter o (O2 m zs) = Ok [seq (A1 (mf t), A2 (Pf t)) | t <- iota 0 T],
      kf_filter o' (O2 m zs) = Ok [seq (A1 (mf t), A2 (c *: Pf t)) | t <- iota 0 T] &
      (0 < T)%N ->
      kf_smooth o (O2 m zs) = Ok [seq (A1 (ms t), A2 (Ps t)) | t <- iota 0 T] /\
      kf_smooth o' (O2 m zs) = Ok [seq (A1 (ms t), A2 (c *: Ps t)) | t <- iota 0 T]].
Proof.
have HkT := keepsT Hsz Hk; set y := stream zs.
exists (fun t => (filt M y t).1), (fun t => (filt M y t).2),
  (fun t => (smo M y (T.-1 - t) t).1), (fun t => (smo M y (T.-1 - t) t).2); split.
- exact: (kf_filter_ok Ho Hsz HkT).
- rewrite (kf_filter_ok Ho' Hsz HkT); apply: f_equal; apply: iota_map_ext => t _.
  by apply: pairE; rewrite scale_filt.
move=> T0; split; first exact: (kf_smooth_ok Ho Hsz HkT T0).
rewrite (kf_smooth_ok Ho' Hsz HkT T0); apply: f_equal; apply: iota_map_ext => t _.
by apply: pairE; rewrite scale_smo.
Qed.
End Scale.

(** ** Known state *)
Section Known.
Variables (R : rcfType) (n m : nat) (o : kf R) (T : nat) (M : lgm R n m) (zs : seq (orow R m)).
Hypothesis Ho : kf_model o T M.
Hypothesis HK : known_state M T.
Hypothesis Hsz : size zs = T.
Hypothesis Hk : keeps zs.
Lemma known_api : kf_filter o (O2 m zs) = Ok [seq (A1 (mean_path M t), A2 (0 : 'M[R]_n)) | t <- iota 0 T] /\
  ((0 < T)%N -> kf_smooth o (O2 m zs) = Ok [seq (A1 (mean_path M t), A2 (0 : 'M[R]_n)) | t <- iota 0 T]).
Proof.
have HkT := keepsT Hsz Hk; split=> [|T0].
  rewrite (kf_filter_ok Ho Hsz HkT); apply: f_equal; apply: iota_map_ext => t; rewrite add0n leq0n andTb => tT.
  by rewrite (known_filt _ HK).
rewrite (kf_smooth_ok Ho Hsz HkT T0); apply: f_equal; apply: iota_map_ext => t; rewrite add0n leq0n andTb => tT.
by rewrite (known_smo _ HK) //; exact: idx_lt.
Qed.
End Known.

(** ** More noise *)
Section Noise.
Variables (R : rcfType) (n m : nat) (T : nat) (M M' : lgm R n m).
Hypothesis HL : less_noise T M M'.
Hypothesis HM : psd_model M T.
Hypothesis HM' : psd_model M' T.

Lemma Pf_noise mis t : (t < T)%N -> lep (Pf M mis t) (Pf M' mis t).
Proof.
have [Sp [x [z [w [v Hob]]]]] := model_exists HM; have [Sp' [x' [z' [w' [v' Hob']]]]] := model_exists HM' => tT.
exact: (blue_mono HL Hob Hob' tT tT (blue_filt Hob mis tT) (blue_filt Hob' mis tT)).
Qed.
Lemma Ps_noise mis t : (t < T)%N -> lep (Ps M mis (T.-1 - t) t) (Ps M' mis (T.-1 - t) t).
Proof.
have [Sp [x [z [w [v Hob]]]]] := model_exists HM; have [Sp' [x' [z' [w' [v' Hob']]]]] := model_exists HM' => tT.
exact: (blue_mono HL Hob Hob' tT (leqnn T) (blue_smo Hob mis tT) (blue_smo Hob' mis tT)).
Qed.

Variables (o o' : kf R).
Hypothesis Ho : kf_model o T M.
Hypothesis Ho' : kf_model o' T M'.
Lemma noise_api (zs zs' : seq (orow R m)) : size zs = T -> size zs' = T -> keeps zs ->
  (forall t r r', List.nth_error zs t = Some r -> List.nth_error zs' t = Some r' -> missing r = missing r') ->
  exists (mf mf' ms ms' : nat -> 'cV[R]_n) (Pf Pf' Ps Ps' : nat -> 'M[R]_n),
  [/\ kf_filter o (O2 m zs) = Ok [seq (A1 (mf t), A2 (Pf t)) | t <- iota 0 T],
      kf_filter o' (O2 m zs') = Ok [seq (A1 (mf' t), A2 (Pf' t)) | t <- iota 0 T],
      forall t, (t < T)%N -> lep (Pf t) (Pf' t) &
      (0 < T)%N -> [/\ kf_smooth o (O2 m zs) = Ok [seq (A1 (ms t), A2 (Ps t)) | t <- iota 0 T],
         kf_smooth o' (O2 m zs') = Ok [seq (A1 (ms' t), A2 (Ps' t)) | t <- iota 0 T] &
         forall t, (t < T)%N -> lep (Ps t) (Ps' t)]].
Proof.
move=> Hsz Hsz' Hk Hmm.
have Hk' : keeps zs' by move: Hk; rewrite /keeps Hsz Hsz'.
have HkT := keepsT Hsz Hk; set y := stream zs; set y' := stream zs'.
have Em t : mask zs' t = mask zs t.
  rewrite /mask; case E: (List.nth_error zs t) => [r|]; case E': (List.nth_error zs' t) => [r'|] //.
  - by rewrite (Hmm _ _ _ E E').
  - by move/List.nth_error_None: E'; rewrite -[List.length _]/(size _) Hsz' -Hsz => /List.nth_error_None; rewrite E.
  - by move/List.nth_error_None: E; rewrite -[List.length _]/(size _) Hsz -Hsz' => /List.nth_error_None; rewrite E'.
exists (fun t => (filt M y t).1), (fun t => (filt M' y' t).1),
  (fun t => (smo M y (T.-1 - t) t).1), (fun t => (smo M' y' (T.-1 - t) t).1),
  (fun t => (filt M y t).2), (fun t => (filt M' y' t).2),
  (fun t => (smo M y (T.-1 - t) t).2), (fun t => (smo M' y' (T.-1 - t) t).2); split.
- exact: (kf_filter_ok Ho Hsz HkT).
- exact: (kf_filter_ok Ho' Hsz' HkT).
- move=> t tT; rewrite !filt_cov.
  have -> : Pf M' (mask zs') t = Pf M' (mask zs) t.
    by rewrite /Pf; apply: f_equal; apply: filt_ext => s _; rewrite /y0 Em.
  exact: Pf_noise.
move=> T0; split; first exact: (kf_smooth_ok Ho Hsz HkT T0).
  exact: (kf_smooth_ok Ho' Hsz' HkT T0).
move=> t tT; rewrite !smo_cov.
have -> : Ps M' (mask zs') (T.-1 - t) t = Ps M' (mask zs) (T.-1 - t) t.
  by rewrite /Ps; apply: f_equal; apply: smo_ext => s _; rewrite /y0 Em.
exact: Ps_noise.
Qed.

(** true noises smaller than modelled *)
Hypothesis HS : same_offsets T M M'.
Variables (Sp : l2space R) (x : nat -> Om Sp -> 'cV[R]_n) (z : nat -> Om Sp -> 'cV[R]_m).
Variables (w : nat -> Om Sp -> 'cV[R]_n) (v : nat -> Om Sp -> 'cV[R]_m).
Hypothesis Hob : obeys M T x z w v.
Variables (mis : nat -> bool) (zs : Om Sp -> seq (orow R m)).
Hypothesis Hd : data_of T z mis zs.
Hypothesis Hk : (T != 1%N) || (m <= 1)%N.

Lemma conservative_filter : exists (xh : nat -> Om Sp -> 'cV[R]_n) (P : nat -> 'M[R]_n),
  (forall om, kf_filter o' (O2 m (zs om)) = Ok [seq (A1 (xh t om), A2 (P t)) | t <- iota 0 T]) /\
  (forall t, (t < T)%N -> safe_estimate (x t) (xh t) (P t)).
Proof.
have [Sp' [x' [z' [w' [v' Hob']]]]] := model_exists HM'.
pose xh t om := (filt M' (ym mis (fun s => z s om)) t).1.
exists xh, (fun t => Pf M' mis t); split=> [om|t tT].
  rewrite (kf_filter_ok Ho' (Hd om).1 Hk); congr Ok; apply: iota_map_ext => t /= tT.
  have E : filt M' (stream (zs om)) t = filt M' (ym mis (fun s => z s om)) t.
    by apply: filt_ext => s st; apply: (stream_rows (Hd om)); apply: leq_ltn_trans tT.
  by apply: pairE; rewrite E //; exact: (cov_indep M' mis t _ (fun _ => 0)).2.
have [c [L H]] := (aff_pred_filt M' mis t).2.
have E om : xh t om = affine_est z mis t.+1 c L om by rewrite /xh H.
have B : blue (x' t) z' mis t.+1 (affine_est z' mis t.+1 c L) (Pf M' mis t).
  have [H1 H2 H3 H4 H5] := blue_filt Hob' mis tT.
  have E' om : Xf Hob' mis t om = affine_est z' mis t.+1 c L om.
    have := H (fun s => Z Hob' s om); rewrite -[ym _ _]/(yy Hob' mis om) filtE => H0; apply: (etrans H0).
    rewrite /affine_est; congr (_ + _); apply: eq_bigr => s _; congr (_ *m _); apply: Z_z.
    exact: leq_trans (ltn_ord s) tT.
  have EE om : x' t om - affine_est z' mis t.+1 c L om = x' t om - Xf Hob' mis t om by rewrite E'.
  split.
  - by exists c, L.
  - by rewrite (mean_ext EE).
  - by move=> s st sm; rewrite (cov_ext EE (frefl _)); exact: H3.
  - by rewrite (cov_ext EE EE).
  - exact: H5.
have EE om : x t om - xh t om = x t om - affine_est z mis t.+1 c L om by rewrite E.
rewrite /safe_estimate (mean_ext EE) (cov_ext EE EE); exact: (blue_conservative HL Hob Hob' HS tT tT B).
Qed.

Lemma conservative_smooth : (0 < T)%N -> exists (xh : nat -> Om Sp -> 'cV[R]_n) (P : nat -> 'M[R]_n),
  (forall om, kf_smooth o' (O2 m (zs om)) = Ok [seq (A1 (xh t om), A2 (P t)) | t <- iota 0 T]) /\
  (forall t, (t < T)%N -> safe_estimate (x t) (xh t) (P t)).
Proof.
move=> T0; have [Sp' [x' [z' [w' [v' Hob']]]]] := model_exists HM'.
pose xh t om := (smo M' (ym mis (fun s => z s om)) (T.-1 - t) t).1.
exists xh, (fun t => Ps M' mis (T.-1 - t) t); split=> [om|t tT].
  rewrite (kf_smooth_ok Ho' (Hd om).1 Hk T0); apply: f_equal; apply: iota_map_ext => t.
  rewrite add0n leq0n andTb => tT.
  have E : smo M' (stream (zs om)) (T.-1 - t) t = smo M' (ym mis (fun s => z s om)) (T.-1 - t) t.
    by apply: smo_ext => s st; apply: (stream_rows (Hd om)); apply: leq_ltn_trans st (idx_lt tT).
  apply: pairE; first exact: (congr1 fst E).
  apply: (etrans (congr1 snd E)); exact: (scov_indep M' mis (T.-1 - t) t _ (fun _ => 0)).
have ET : (t + (T.-1 - t)).+1 = T by rewrite subnKC ?prednK // -ltnS prednK.
have [c [L H]] := aff_smo M' mis (T.-1 - t) t; rewrite ET in H.
have E om : xh t om = affine_est z mis T c L om by rewrite /xh H.
have B : blue (x' t) z' mis T (affine_est z' mis T c L) (Ps M' mis (T.-1 - t) t).
  have [H1 H2 H3 H4 H5] := blue_smo Hob' mis tT.
  have E' om : Xs Hob' mis (T.-1 - t) t om = affine_est z' mis T c L om.
    have := H (fun s => Z Hob' s om); rewrite -[ym _ _]/(yy Hob' mis om) smoE => H0; apply: (etrans H0).
    by rewrite /affine_est; congr (_ + _); apply: eq_bigr => s _; congr (_ *m _); exact: Z_z.
  have EE om : x' t om - affine_est z' mis T c L om = x' t om - Xs Hob' mis (T.-1 - t) t om by rewrite E'.
  split.
  - by exists c, L.
  - by rewrite (mean_ext EE).
  - by move=> s st sm; rewrite (cov_ext EE (frefl _)); exact: H3.
  - by rewrite (cov_ext EE EE).
  - exact: H5.
have EE om : x t om - xh t om = x t om - affine_est z mis T c L om by rewrite E.
rewrite /safe_estimate (mean_ext EE) (cov_ext EE EE); exact: (blue_conservative HL Hob Hob' HS tT (leqnn T) B).
Qed.
End Noise.
