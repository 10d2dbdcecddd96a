(** API-level forms of the KalmanFilter facts, assembled from the lemmas about
    the recursions. *)
From Coq Require Import String List.
From mathcomp Require Import all_ssreflect all_algebra.
From mathcomp Require Import ring.
From Verif Require Import Prelude Zmod LinAlg Numpy NumpyFacts Sklearn SklearnFacts Standard Model KfSpec StandardInit StandardFacts
  KfStruct KfStruct2 SpecL2 L2Facts Lmmse Exists KfOptimal KfModelFacts KfOnline KfEm KfEquiv GaussSpec KfLoglik Joint KfJoint.
Import GRing.Theory Num.Theory Order.Theory.

Set Implicit Arguments.
Unset Strict Implicit.
Unset Printing Implicit Defensive.
Local Open Scope ring_scope.

Lemma idx_lt t T : (t < T)%N -> (t + (T.-1 - t) < T)%N.
Proof. by case: T => // k tT; rewrite /= subnKC. Qed.

(** ** C03 *)
Section Pair.
Variables (R : rcfType) (Sp : l2space R) (n m : nat) (M : lgm R n m) (T : nat).
Variables (x : nat -> Om Sp -> 'cV[R]_n) (z : nat -> Om Sp -> 'cV[R]_m).
Variables (w : nat -> Om Sp -> 'cV[R]_n) (v : nat -> Om Sp -> 'cV[R]_m).
Hypothesis Hob : obeys M T x z w v.
Variables (mis : nat -> bool) (zs : Om Sp -> seq (orow R m)).
Hypothesis Hd : data_of T z mis zs.
Variable p : kfparams R.
Hypothesis Hp : params_model p T M.

Lemma em_iter_correct : (0 < T)%N ->
  exists (xh : nat -> Om Sp -> 'cV[R]_n) (P Lag : nat -> 'M[R]_n),
    (forall om g, em_iter (@filter_ R) (zs om) g p =
       em_ n (zs om) [seq SRow (A1 (xh t om)) (A2 (P t)) | t <- iota 0 T]
         [seq A2 (Lag t) | t <- iota 0 T] (p_to p) (p_oo p) g) /\
    [/\ Lag 0%N = 0, forall t, (t < T)%N -> blue (x t) z mis T (xh t) (P t) &
     forall t, (t.+1 < T)%N ->
       Lag t.+1 = cov (fun om => x t.+1 om - xh t.+1 om) (fun om => x t om - xh t om)].
Proof.
move=> T0; have [xh [P [Lag [H1 H2]]]] := pair_correct Hob Hd Hp T0.
exists xh, P, Lag; split=> // om g; have [rows [ss [gs [E1 E2 E3 E4]]]] := H1 om.
by rewrite /em_iter E1 bindOk (pm_im Hp) [np_len _]/= bindOk E2 bindOk E4 bindOk E3.
Qed.
End Pair.

(** ** C05 *)
Section Causal.
Variable R : rcfType.
Lemma kf_filter_agree (o : kf R) k (zs zs' : seq (orow R k)) rows rows' j :
  keeps zs -> keeps zs' -> take j zs = take j zs' ->
  kf_filter o (O2 k zs) = Ok rows -> kf_filter o (O2 k zs') = Ok rows' -> take j rows = take j rows'.
Proof.
move=> Hk Hk' E; rewrite /kf_filter /filter_with (parse_keep Hk) (parse_keep Hk').
case: (initialize_parameters o) => // p; rewrite !bindOk.
case E1: (filter_ p zs) => [r1|] //; case E2: (filter_ p zs') => [r2|] //.
rewrite !bindOk => -[<-] [<-]; rewrite -!map_take.
have := filter_take j E1; have := filter_take j E2; rewrite E => -> [<-] //.
Qed.
End Causal.

(** ** C07, likelihood part *)
Section MissLoglik.
Variables (R : rcfType) (n m : nat) (o : kf R) (T : nat) (M : lgm R n m).
Hypothesis Ho : kf_model o T.+1 M.
Hypothesis Hc : const2 (k_oc o).
Variables (ln : R -> R) (ln2pi : R).

Lemma kf_modelS : kf_model o T M.
Proof.
have L2 k l (X : arr R) (F : nat -> 'M[R]_(k, l)) a : rep2 X a.+1 F -> rep2 X a F.
  case=> [[Y -> H]|[s [-> Hs H]]]; [left; exists Y => // t tT; apply: H; exact: ltnW|right].
  by exists s; split=> // [|t tT]; [exact: ltnW|apply: H; exact: ltnW].
have L1 k (X : arr R) (F : nat -> 'cV[R]_k) a : rep1 X a.+1 F -> rep1 X a F.
  case=> [[Y -> H]|[s [Y [-> Hs H]]]]; [left; exists Y => // t tT; apply: H; exact: ltnW|right].
  by exists s, Y; split=> // [|t tT]; [exact: ltnW|apply: H; exact: ltnW].
have P2 k l (X : arr R) (F : nat -> 'M[R]_(k, l)) : rep2 X T F -> rep2 X T.-1 F.
  by case: T => // a; exact: L2.
have P1 k (X : arr R) (F : nat -> 'cV[R]_k) : rep1 X T F -> rep1 X T.-1 F.
  by case: T => // a; exact: L1.
have PT t : (t < T.-1)%N -> (t < T)%N by case: T => // a /ltnW.
case: Ho => H1 H2 H3 H4 H5 H6 H7 H8 H9 H10 H11; split=> //.
- by case: (k_tm o) H4 => [X|] /= H; [exact: P2|move=> t /PT; exact: H].
- by case: (k_to o) H5 => [X|] /= H; [exact: P1|move=> t /PT; exact: H].
- by case: (k_tc o) H6 => [X|] /= H; [exact: P2|move=> t /PT; exact: H].
- by case: (k_om o) H7 => [X|] /= H; [exact: L2|move=> t /ltnW; exact: H].
- by case: (k_oo o) H8 => [X|] /= H; [exact: L1|move=> t /ltnW; exact: H].
- by case: (k_oc o) H9 => [X|] /= H; [exact: L2|move=> t /ltnW; exact: H].
Qed.

Lemma mapr_cat (U V : Type) (f : U -> res V) s1 s2 :
  mapr f (s1 ++ s2) = (l1 <-- mapr f s1 ;; l2 <-- mapr f s2 ;; Ok (l1 ++ l2)).
Proof.
elim: s1 => [|a s1 IH] /=; first by case: (mapr f s2).
case: (f a) => // b; rewrite !bindOk IH.
by case: (mapr f s1) => // l1; rewrite !bindOk; case: (mapr f s2).
Qed.
Lemma mapr_ext (U : eqType) (V : Type) (f g : U -> res V) s :
  (forall a, a \in s -> f a = g a) -> mapr f s = mapr g s.
Proof.
elim: s => [|a s IH] //= H; rewrite H ?mem_head // IH // => b bs.
by apply: H; rewrite in_cons bs orbT.
Qed.

Lemma mapr_snoc_sum (f g : nat -> res R) k : (forall t, (t < k)%N -> f t = g t) -> f k = Ok 0 ->
  (ls <-- mapr f (iota 0 k.+1) ;; Ok (\sum_(l <- ls) l)) = (ls <-- mapr g (iota 0 k) ;; Ok (\sum_(l <- ls) l)).
Proof.
move=> H E; have -> : iota 0 k.+1 = iota 0 k ++ [:: k] by rewrite -[k.+1]addn1 iotaD.
rewrite mapr_cat (@mapr_ext _ _ f g (iota 0 k)); last by move=> t; rewrite mem_iota => /andP[_]; exact: H.
case: (mapr g _) => // ls; rewrite !bindOk /= E /= big_cat /= big_seq1 addr0 //.
Qed.

(** a trailing missing observation contributes nothing *)
Lemma loglik_missing (zs : seq (orow R m)) r : size zs = T -> keeps zs -> keeps (rcons zs r) ->
  missing r ->
  kf_loglikelihood ln ln2pi o (O2 m (rcons zs r)) = kf_loglikelihood ln ln2pi o (O2 m zs).
Proof.
move=> Hsz Hk Hk' Hr; have Hsz' : size (rcons zs r) = T.+1 by rewrite size_rcons Hsz.
rewrite (kf_loglik_steps Ho Hc Hsz' Hk') (kf_loglik_steps kf_modelS Hc Hsz Hk).
have Es t : (t < T)%N -> stream (rcons zs r) t = stream zs t.
  move=> tT; rewrite /stream -cats1 List.nth_error_app1 //.
  by apply/ssrnat.ltP; rewrite -[List.length zs]/(size zs) Hsz.
have EN : stream (rcons zs r) T = None.
  rewrite /stream -cats1 List.nth_error_app2 -[List.length zs]/(size zs) Hsz //.
  by rewrite PeanoNat.Nat.sub_diag /= Hr.
apply: mapr_snoc_sum => [t tT|]; last by rewrite /ll_step EN.
have EP : pred M (stream (rcons zs r)) t = pred M (stream zs) t.
  by apply: pred_ext => s st; apply: Es; exact: ltn_trans tT.
by rewrite /ll_step EP (Es t tT).
Qed.
End MissLoglik.

(** ** C09 *)
Section Shrink.
Variables (R : rcfType) (n m : nat) (o : kf R) (T : nat) (M : lgm R n m).
Hypothesis Ho : kf_model o T M.
Hypothesis HM : psd_model M T.
Hypothesis Hk : (T != 1%N) || (m <= 1)%N.

Lemma cov_shrink : exists Pf Ps : seq bool -> nat -> 'M[R]_n,
  [/\ forall zs : seq (orow R m), size zs = T -> exists mf ms : nat -> 'cV[R]_n,
        kf_filter o (O2 m zs) = Ok [seq (A1 (mf t), A2 (Pf (map (@missing R m) zs) t)) | t <- iota 0 T] /\
        ((0 < T)%N -> kf_smooth o (O2 m zs) =
                      Ok [seq (A1 (ms t), A2 (Ps (map (@missing R m) zs) t)) | t <- iota 0 T]),
      forall b t, (t < T)%N -> [/\ psd (Pf b t), psd (Ps b t) & lep (Ps b t) (Pf b t)],
      forall b t, (t < T)%N -> lep (Pf b t)
        (if t is t'.+1 then mA M t' *m Pf b t' *m (mA M t')^T + mQ M t' else mP M) &
      forall b b' t, (t < T)%N -> size b = T -> size b' = T ->
        (forall s, nth true b s -> nth true b' s) ->
        lep (Pf b t) (Pf b' t) /\ lep (Ps b t) (Ps b' t)].
Proof.
exists (fun b t => Lmmse.Pf M (nth true b) t), (fun b t => Lmmse.Ps M (nth true b) (T.-1 - t) t).
have jt t : (t < T)%N -> (t + (T.-1 - t) < T)%N.
  exact: idx_lt.
split.
- move=> zs Hsz.
  have Em t : nth true (map (@missing R m) zs) t = mask zs t.
    rewrite /mask; elim: zs t {Hsz} => [|r zs IH] [|t] //=.
  have Ey mis mis' (H : mis =1 mis') t : y0 R m mis t = y0 R m mis' t by rewrite /y0 H.
  exists (fun t => (filt M (stream zs) t).1), (fun t => (smo M (stream zs) (T.-1 - t) t).1).
  split=> [|T0].
    rewrite (kf_filter_ok Ho Hsz Hk); apply: f_equal; apply: iota_map_ext => t _.
    apply: pairE; first exact: erefl.
    rewrite filt_cov /Pf; apply: f_equal; apply: filt_ext => s _; by rewrite (Ey _ _ Em).
  rewrite (kf_smooth_ok Ho Hsz Hk T0); apply: f_equal; apply: iota_map_ext => t _.
  apply: pairE; first exact: erefl.
  rewrite smo_cov /Ps; apply: f_equal; apply: smo_ext => s _; by rewrite (Ey _ _ Em).
- move=> b t tT; split.
  + exact: (Pf_psd HM (nth true b) tT).
  + exact: (Ps_psd HM (nth true b) (jt t tT)).
  + exact: (Ps_le_Pf HM (nth true b) tT).
- move=> b t tT; have := Pf_le_Pp HM (nth true b) tT; case: t tT => [|t] tT //.
  have -> : Lmmse.Pp M (nth true b) t.+1 = mA M t *m (Pf M (nth true b) t *m (mA M t)^T) + mQ M t by [].
  by rewrite mulmxA.
- move=> b b' t tT _ _ H; split.
    by apply: (Pf_mono HM tT) => s _; exact: H.
  by apply: (Ps_mono HM tT) => s _; exact: H.
Qed.
End Shrink.

(** ** C10 *)
Section Online.
Variables (R : rcfType) (n m : nat) (o : kf R) (T : nat) (M : lgm R n m).
Hypothesis Ho : kf_model o T M.
Hypothesis m0 : (0 < m)%N.
Variable zs : seq (orow R m).
Hypothesis Hsz : size zs = T.
Hypothesis Hk : keeps zs.

Lemma online_batch rows s st us : kf_filter o (O2 m zs) = Ok rows ->
  List.nth_error rows s = Some st -> size us = (T - s.+1)%N ->
  (forall j u r, List.nth_error us j = Some u -> List.nth_error zs (s.+1 + j) = Some r ->
     step_args o M (s + j) r u) ->
  updates o st us = Ok (drop s.+1 rows).
Proof.
have HkT := keepsT Hsz Hk.
rewrite (kf_filter_ok Ho Hsz HkT) => -[<-] Hs Hus Hst.
have sT : (s < T)%N.
  have := List.nth_error_Some [seq (A1 (filt M (stream zs) t).1, A2 (filt M (stream zs) t).2) | t <- iota 0 T] s.
  rewrite Hs => -[H _]; have {H} := H (fun e => ltac:(discriminate e)).
  by move/ssrnat.ltP; rewrite -[List.length _]/(size _) size_map size_iota.
move: Hs; rewrite rows_nth // => -[<-].
rewrite (updates_batch Ho m0 Hsz sT Hus Hst); apply: f_equal.
by rewrite -map_drop drop_iota add0n.
Qed.
End Online.

(** ** C11 *)
Section Refuse.
Variable R : rcfType.
Lemma update_refuses (o : kf R) fm fc z tm to tc om oo oc : seed_ok (k_rs o) ->
  (tm = None /\ ~ const2 (k_tm o)) \/ (to = None /\ ~ const1 (k_to o)) \/
  (tc = None /\ ~ const2 (k_tc o)) \/ (om = None /\ ~ const2 (k_om o)) \/
  (oo = None /\ ~ const1 (k_oo o)) \/ (oc = None /\ ~ const2 (k_oc o)) ->
  kf_filter_update o fm fc z tm to tc om oo oc = Err ValueError.
Proof.
move=> Hs H; apply: update_time_varying => //.
have B2 a (d : arr R) : ~ const2 a -> too_big None (array2d (odflt d a)) 2.
  by case: a => [[]|] //= *; case.
have B1 a (d : arr R) : ~ const1 a -> too_big None (array1d (odflt d a)) 1.
  by case: a => [[]|] //= *; case.
case: H => [[->]|[[->]|[[->]|[[->]|[[->]|[->]]]]]];
  rewrite /init_value [p_tm _]/= [p_to _]/= [p_tc _]/= [p_om _]/= [p_oo _]/= [p_oc _]/=;
  do ?[move/B2 | move/B1] => ->; rewrite ?orbT //.
Qed.
End Refuse.

(** ** C16 *)
Section Defaults.
Variable R : rcfType.
Lemma init_fields (o : kf R) : seed_ok (k_rs o) ->
  exists2 p, initialize_parameters o = Ok p & forall x, field p x = initial_value o x.
Proof.
move=> H; exists (init_value o); first exact: initialize_parametersE.
by move=> x; rewrite initial_valueE.
Qed.
End Defaults.

(** ** C26 and C27 *)
Section Equiv.
Variables (R : rcfType) (n m : nat) (M : lgm R n m) (T : nat) (o o' : kf R).
Hypothesis Hk : (T != 1%N) || (m <= 1)%N.
Hypothesis HM : psd_model M T.

Section Coord.
Variables (G : 'M[R]_n) (h : 'cV[R]_n).
Hypothesis UG : G \in unitmx.
Hypothesis Ho : kf_model o T M.
Hypothesis Ho' : kf_model o' T (coord_model M G h).

Lemma coord_api (zs : seq (orow R m)) : size zs = T -> exists (mf : nat -> 'cV[R]_n) (Pf : nat -> 'M[R]_n) (ms : nat -> 'cV[R]_n) (Ps : nat -> 'M[R]_n),
  [/\ kf_filter o (O2 m zs) = Ok [seq (A1 (mf t), A2 (Pf t)) | t <- iota 0 T],
      kf_filter o' (O2 m zs) = Ok [seq (A1 (G *m mf t + h), A2 (G *m Pf t *m G^T)) | t <- iota 0 T] &
      (0 < T)%N ->
      kf_smooth o (O2 m zs) = Ok [seq (A1 (ms t), A2 (Ps t)) | t <- iota 0 T] /\
      kf_smooth o' (O2 m zs) = Ok [seq (A1 (G *m ms t + h), A2 (G *m Ps t *m G^T)) | t <- iota 0 T]].
Proof.
move=> Hsz; set y := stream zs.
exists (fun t => (filt M y t).1), (fun t => (filt M y t).2),
  (fun t => (smo M y (T.-1 - t) t).1), (fun t => (smo M y (T.-1 - t) t).2); split.
- exact: (kf_filter_ok Ho Hsz Hk).
- rewrite (kf_filter_ok Ho' Hsz Hk); apply: f_equal; apply: iota_map_ext => t _.
  by apply: pairE; rewrite coord_filt.
move=> T0; split; first exact: (kf_smooth_ok Ho Hsz Hk T0).
rewrite (kf_smooth_ok Ho' Hsz Hk T0); apply: f_equal; apply: iota_map_ext => t.
rewrite add0n leq0n andTb => tT.
have jt := idx_lt tT.
by apply: pairE; rewrite (coord_smo h UG erefl HM jt).
Qed.

Lemma coord_loglik (zs : seq (orow R m)) ln ln2pi : size zs = T ->
  const2 (k_oc o) -> const2 (k_oc o') ->
  kf_loglikelihood ln ln2pi o' (O2 m zs) = kf_loglikelihood ln ln2pi o (O2 m zs).
Proof.
move=> Hsz Hc Hc'; have Hk' : keeps zs by rewrite /keeps Hsz.
rewrite (kf_loglik_steps Ho Hc Hsz Hk') (kf_loglik_steps Ho' Hc' Hsz Hk').
congr (bind _ _); apply: mapr_ext => t _; rewrite /ll_step.
case: (stream zs t) => // z; rewrite (coord_pred _ _ UG).
move: (pred M _ t) => [a P]; rewrite /moved.
have -> : innov_cov (coord_model M G h) t (G *m P *m G^T) = innov_cov M t P by exact: coord_innov.
congr (lmnd _ _ _ (A1 _) _); rewrite /=.
rewrite mulmxDr -!mulmxA GiG //; move: (mC M t *m (invmx G *m h)) => u.
by rewrite addrAC addrA addrNK addrC.
Qed.
End Coord.

Section Recode.
Variables (N : 'M[R]_m) (g : 'cV[R]_m).
Hypothesis UN : N \in unitmx.
Hypothesis HR : forall t, (t < T)%N -> pd (mR M t).
Hypothesis Ho : kf_model o T M.
Hypothesis Ho' : kf_model o' T (recode_model M N g).

Lemma recode_size (zs zs' : seq (orow R m)) : recoded N g zs zs' -> size zs' = size zs.
Proof. by elim=> //= *; congr S. Qed.

Lemma recode_api (zs zs' : seq (orow R m)) : size zs = T -> recoded N g zs zs' ->
  kf_filter o' (O2 m zs') = kf_filter o (O2 m zs) /\
  ((0 < T)%N -> kf_smooth o' (O2 m zs') = kf_smooth o (O2 m zs)).
Proof.
move=> Hsz Hz; have Hsz' : size zs' = T by rewrite (recode_size Hz).
split=> [|T0].
  rewrite (kf_filter_ok Ho Hsz Hk) (kf_filter_ok Ho' Hsz' Hk).
  apply: f_equal; apply: iota_map_ext => t; rewrite add0n leq0n andTb => tT.
  by apply: pairE; rewrite (recode_filt UN Hz HM (fun _ h _ => HR h) tT).
rewrite (kf_smooth_ok Ho Hsz Hk T0) (kf_smooth_ok Ho' Hsz' Hk T0).
apply: f_equal; apply: iota_map_ext => t; rewrite add0n leq0n andTb => tT.
have jt := idx_lt tT.
by apply: pairE; rewrite (recode_smo UN Hz HM (fun _ h _ => HR h) jt).
Qed.
End Recode.
End Equiv.

(** ** C06 *)
Section MaskApi.
Variable R : rcfType.
Lemma mask_hides (o : kf R) k (zs zs' : seq (orow R k)) : keeps zs -> same_visible_rows zs zs' ->
  [/\ kf_filter o (O2 k zs) = kf_filter o (O2 k zs'), kf_smooth o (O2 k zs) = kf_smooth o (O2 k zs'),
      forall ln ln2pi, kf_loglikelihood ln ln2pi o (O2 k zs) = kf_loglikelihood ln ln2pi o (O2 k zs') &
      forall i ev, kf_em o (O2 k zs) i ev = kf_em o (O2 k zs') i ev].
Proof.
move=> Hk H; have Hf : flt_sv (@filter_ R) by move=> p j a b; exact: filter_sv.
split=> *; [exact: filter_with_sv|exact: smooth_with_sv|exact: loglik_with_sv|exact: em_with_sv].
Qed.
Lemma mask_hides1 (o : kf R) (s s' : seq (R * bool)) : s <> [::] -> List.Forall2 (@same_visible1 R) s s' ->
  [/\ kf_filter o (O1 s) = kf_filter o (O1 s'), kf_smooth o (O1 s) = kf_smooth o (O1 s'),
      forall ln ln2pi, kf_loglikelihood ln ln2pi o (O1 s) = kf_loglikelihood ln ln2pi o (O1 s') &
      forall i ev, kf_em o (O1 s) i ev = kf_em o (O1 s') i ev].
Proof.
move=> Hs H; have Hs' : s' <> [::] by case: H Hs.
have Hk : keeps [seq scalar_row x | x <- s] by rewrite /keeps orbT.
have [E1 E2 E3 E4] := mask_hides o Hk (sv_scalar H).
split=> *.
- by rewrite /kf_filter /filter_with (parse_O1 Hs) (parse_O1 Hs'); exact: E1.
- by rewrite /kf_smooth /smooth_with (parse_O1 Hs) (parse_O1 Hs'); exact: E2.
- by rewrite /kf_loglikelihood /loglikelihood_with (parse_O1 Hs) (parse_O1 Hs'); exact: E3.
- by rewrite /kf_em /em_with (parse_O1 Hs) (parse_O1 Hs'); exact: E4.
Qed.
End MaskApi.

(** ** EM through the API *)
Section EmApi.
Variable R : rcfType.
Lemma kf_emE (o : kf R) X i ev : kf_em o X i ev = em_with (@filter_ R) (Some (requested o ev)) o X i.
Proof. by rewrite /kf_em /requested; case: ev. Qed.
Lemma kf_em_only_selected (o : kf R) X i ev x : seed_ok (k_rs o) -> ~ selects (requested o ev) x ->
  attribute (kf_em o X i ev).1 x = Some (initial_value o x).
Proof. by rewrite kf_emE; exact: em_only_selected. Qed.
Lemma kf_em_same_selection (o : kf R) X i ev ev' :
  (forall x, selects (requested o ev) x <-> selects (requested o ev') x) ->
  kf_em o X i ev = kf_em o X i ev'.
Proof. by rewrite !kf_emE; exact: em_same_selection. Qed.
Lemma kf_em_other (o : kf R) X i ev : let o' := (kf_em o X i ev).1 in
  [/\ k_n o' = k_n o, k_m o' = k_m o, k_em o' = k_em o, k_em_ o' = k_em_ o & k_rs o' = k_rs o].
Proof. by rewrite kf_emE; exact: em_other. Qed.
Lemma kf_em_compose (o : kf R) X a b ev o1 : seed_ok (k_rs o) ->
  kf_em o X a ev = (o1, Ok tt) -> kf_em o1 X b ev = kf_em o X (a + b) ev.
Proof.
move=> Hs E; have [_ _ _ E4 _] := kf_em_other o X a ev; rewrite E in E4.
move: E; rewrite !kf_emE /requested E4 => E.
exact: (em_compose b (@filter_flt_ok R) Hs E).
Qed.
Lemma kf_em_stuck (o : kf R) X a b ev o1 x : seed_ok (k_rs o) ->
  kf_em o X a ev = (o1, Err x) -> kf_em o X (a + b) ev = (o1, Err x).
Proof. by rewrite !kf_emE; exact: em_stuck. Qed.
Lemma kf_em_zero (o : kf R) X ev : seed_ok (k_rs o) ->
  (kf_em o X 0 ev).2 = Ok tt /\ forall x, attribute (kf_em o X 0 ev).1 x = Some (initial_value o x).
Proof. by rewrite kf_emE; exact: em_zero. Qed.
Lemma kf_em_fail (o : kf R) X N ev o' x : seed_ok (k_rs o) -> kf_em o X N ev = (o', Err x) ->
  exists i, [/\ (i < N)%N, kf_em o X i ev = (o', Ok tt) & kf_em o X i.+1 ev = (o', Err x)].
Proof.
rewrite !kf_emE => Hs E; have [i [H1 H2 H3]] := em_fail Hs E.
by exists i; rewrite !kf_emE; split.
Qed.
Lemma kf_em_init_fail (o : kf R) X N ev : ~ seed_ok (k_rs o) -> exists e, kf_em o X N ev = (o, Err e).
Proof. by rewrite kf_emE; exact: em_init_fail. Qed.
Lemma selects_all x : selects (EmNames [seq name_of y | y <- [:: Tm; To; Tc; Om'; Oo; Oc; Ism; Isc]]) x.
Proof. by case: x => /=; tauto. Qed.
Lemma kf_em_all (o : kf R) X i :
  kf_em o X i (Some (EmStr "all")) =
  kf_em o X i (Some (EmNames [seq name_of y | y <- [:: Tm; To; Tc; Om'; Oo; Oc; Ism; Isc]])).
Proof. by apply: kf_em_same_selection => x; split=> // _; exact: selects_all. Qed.
Lemma kf_em_default (a : kfargs R) o X i : kf_init a = Ok o -> a_em a = None ->
  kf_em o X i None = kf_em o X i (Some (EmNames [seq name_of y | y <- [:: Tc; Oc; Ism; Isc]])).
Proof.
move=> Hi Ha; have [_ _ _ E] := kf_init_attrs Hi.
apply: kf_em_same_selection => x; rewrite /requested E Ha /=; case: x => /=; intuition.
Qed.
End EmApi.

(** ** C18 *)
Section SingleRow.
Variable R : rcfType.
Definition dflt_args (n m : nat) : kfargs R :=
  KFArgs None None None None None None None None None None (Some n) (Some m).
Definition dflt_obj (n m : nat) : kf R :=
  KF None None None None None None None None None None n m (EmNames default_em_vars).
Definition dflt_model (n m : nat) : lgm R n m :=
  LGM (fun _ => 1%:M) (fun _ => 0) (fun _ => 1%:M) (fun _ => eye R m n) (fun _ => 0) (fun _ => 1%:M) 0 1%:M.
Lemma dflt_init n m : kf_init (dflt_args n m) = Ok (dflt_obj n m).
Proof. by rewrite /kf_init /determine_dimensionality /= !eqxx. Qed.
Lemma dflt_is_model n m T : kf_model (dflt_obj n m) T (dflt_model n m).
Proof. by split. Qed.
Lemma single_row_refuted m : (1 < m)%N -> exists a o (r : orow R m),
  [/\ kf_init a = Ok o, k_m o = m, missing r = false & kf_filter o (O2 m [:: r]) = Err ValueError].
Proof.
move=> m1; exists (dflt_args 1 m), (dflt_obj 1 m), (0, const_mx false); split=> //.
- exact: dflt_init.
- by apply/existsP => -[j]; rewrite mxE.
- exact: (single_row (dflt_is_model 1 m 1)).
Qed.
Lemma parse_series (s : seq (R * bool)) :
  s <> [::] -> parse_observations (O1 s) = existT _ 1%N [seq @scalar_row R x | x <- s].
Proof. by move=> /parse_O1 ->; rewrite parse_keep ?orbT. Qed.
Lemma single_row_1d n (o : kf R) (M : lgm R n 1) : kf_model o 1 M -> forall r : orow R 1,
  exists row, kf_filter o (O2 1 [:: r]) = Ok [:: row].
Proof.
move=> Ho r; have [rows [-> H _]] := filter_shapes Ho (erefl : size [:: r] = 1%N) erefl.
by case: rows H => [|row []] // _; exists row.
Qed.
End SingleRow.
