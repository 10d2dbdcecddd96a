(** Online updates of the unscented filters, causality, function arrays. *)
From Coq Require Import String List.
From mathcomp Require Import all_ssreflect all_algebra.
From Verif Require Import Prelude Zmod LinAlg Numpy NumpyFacts Sklearn Standard Model KfSpec StandardInit StandardFacts KfGlue Rng
  Unscented UscSpec UscFacts UscRefine UscLoop UscInit UscMain UscLinear.
Import GRing.Theory Num.Theory Order.Theory.

Set Implicit Arguments.
Unset Strict Implicit.
Unset Printing Implicit Defensive.
Local Open Scope ring_scope.

Section Online.
Variable R : rcfType.

Section Model.
Variables (n m : nat) (AF AG : Type) (RF : pyfun R -> AF -> Prop) (RG : pyfun R -> AG -> Prop).
Variables (DF : AF -> Prop) (DG : AG -> Prop) (o : ukf R) (T : nat) (f : nat -> AF) (g : nat -> AG).
Variables (Q : 'M[R]_n) (Rn : 'M[R]_m) (mu0 : 'cV[R]_n) (P0 : 'M[R]_n) (dflt : pyfun R).
Hypothesis HM : unscented_model RF RG DF DG o T f g Q Rn mu0 P0.
Hypotheses (Hf : forall F, DF F -> RF dflt F) (Hg : forall G, DG G -> RG dflt G).
Let p := uinit_value dflt o.

Lemma default_F t arg : (t < T.-1)%N -> gives_fun RF (o_f o) arg (f t) ->
  exists2 h, default_function arg (u_f p) = Ok h & RF h (f t).
Proof.
move=> tT; case: arg => [h|] /= H; first by exists h.
move: (um_f HM) H; rewrite /p /=; case: (o_f o) => [[h|[|h [|h' s]]|rows]|] //= H _; [exists h|exists h|exists dflt] => //.
- exact: H.
- exact: H.
- by apply/Hf/H.
Qed.
Lemma default_G t arg : (t < T)%N -> gives_fun RG (o_g o) arg (g t) ->
  exists2 h, default_function arg (u_g p) = Ok h & RG h (g t).
Proof.
move=> tT; case: arg => [h|] /= H; first by exists h.
move: (um_g HM) H; rewrite /p /=; case: (o_g o) => [[h|[|h [|h' s]]|rows]|] //= H _; [exists h|exists h|exists dflt] => //.
- exact: H.
- exact: H.
- by apply/Hg/H.
Qed.
Lemma default_C k (arg : option (arr R)) (X : arr R) (V : 'M[R]_k) : X = A2 V -> gives_cov arg V ->
  arg_or_default arg X 2 = Ok (A2 V).
Proof. by move=> -> [->|->]. Qed.
Lemma uobsE (r : orow R m) z : shows r z ->
  exists2 v : 'cV[R]_m, uobs (A2 Rn) z = Ok (A1 v, missing r) & missing r = false -> v = r.1.
Proof.
case=> [->|[Hm [->|[v ->]]]]; first by exists r.1.
  exists 0; last by rewrite Hm.
  have m0 : (0 < m)%N by case/existsP: (Hm) => i _; exact: leq_ltn_trans (leq0n i) (ltn_ord i).
  by rewrite Hm /= m0.
by exists v; rewrite /= Hm.
Qed.
Lemma cut_same (r : orow R m) v : (missing r = false -> v = r.1) ->
  (if missing r then None else Some v) = cut r.
Proof. by rewrite /cut; case: (missing r) => // ->. Qed.
End Model.

Lemma aukf_updateE n m o T f g (Q : 'M[R]_n) (Rn : 'M[R]_m) mu0 P0 t r u (s : 'cV[R]_n * 'M[R]_n) :
  aukf_model o T f g Q Rn mu0 P0 -> (t.+1 < T)%N -> aukf_args o f g Q Rn t r u ->
  uupdate (@aukf_filter_update R) o (lift_s s) u = lift_o (add_next Q Rn f g t s (cut r)).
Proof.
move=> HM tT [Hz Hf Hq Hg Hr]; rewrite /uupdate /aukf_filter_update (um_init _ HM) bO.
have [F -> HF] := default_F HM (@dflt1 R n n) (predn_lt tT) Hf; rewrite bO.
have [G -> HG] := default_G HM (@dflt1 R n m) tT Hg; rewrite bO.
rewrite (default_C (um_EQ _ HM) Hq) bO (default_C (um_ER _ HM) Hr) bO.
have [v -> Hv] := uobsE Rn Hz; rewrite bO m2p_defE /add_next /add_pred.
case: (spts _ _) => [P|//]; rewrite bO /unscented_filter_predict (ut1E _ _ _ (Some Q) HF) bO m2p_defE.
rewrite -[obind _ _]/(add_corr Rn g t.+1 (wmean (fmap (f t) P) (wdef R n), wcov (fmap (f t) P) (wdef R n) (wdef R n) + Q) (cut r)).
rewrite /add_corr /onoise -[odflt _ _]/Q -[fst _]/(wmean _ _) -[snd _]/(_ + Q).
case: (spts _ _) => [P'|//]; rewrite bO (fc1E _ _ (_, _) _ _ _ HG) (cut_same Hv) //.
Qed.

Lemma ukf_updateE n m o T f g (Q : 'M[R]_n) (Rn : 'M[R]_m) mu0 P0 t r u (s : 'cV[R]_n * 'M[R]_n) :
  ukf_model o T f g Q Rn mu0 P0 -> (t.+1 < T)%N -> ukf_args o f g Q Rn t r u ->
  uupdate (@ukf_filter_update R) o (lift_s s) u = lift_o (aug_next Q Rn f g t s (cut r)).
Proof.
move=> HM tT [Hz Hf Hq Hg Hr]; rewrite /uupdate /ukf_filter_update (um_init _ HM) bO.
have [F -> HF] := default_F HM (@dflt2 R n n n) (predn_lt tT) Hf; rewrite bO.
have [G -> HG] := default_G HM (@dflt2 R n m m) tT Hg; rewrite bO.
rewrite (default_C (um_EQ _ HM) Hq) bO (default_C (um_ER _ HM) Hr) bO.
have [v -> Hv] := uobsE Rn Hz; rewrite bO aug3E /aug_next.
case: (aug_pts _ _ _) => [P|//]; rewrite bO /unscented_filter_predict (ut2E _ _ _ _ _ _ HF) bO.
by rewrite (fc2E _ _ _ (_, _) _ _ _ _ HG) (cut_same Hv).
Qed.
End Online.

Section Batch.
Variable R : rcfType.
Lemma mapr_lift_ok n (F : nat -> option ('cV[R]_n * 'M[R]_n)) l rows :
  mapr (fun i => lift_o (F i)) l = Ok rows ->
  (forall i, i \in l -> exists s, F i = Some s) /\ rows = [seq lift_s (odflt (0, 0) (F i)) | i <- l].
Proof.
elim: l rows => [|i l IH] rows; first by case=> <-.
rewrite mapr_cons; case Ei: (F i) => [s|//]; rewrite -[lift_o _]/(Ok (lift_s s)) bO.
case El: (mapr _ _) => [l'|//]; rewrite bO => [] [<-].
have [H1 H2] := IH _ El; split; last by rewrite H2 /= Ei.
by move=> j; rewrite inE => /orP [/eqP ->|/H1 //]; exists s.
Qed.

Section Generic.
Variables (n m T : nat) (first : option 'cV[R]_m -> option ('cV[R]_n * 'M[R]_n)).
Variables (next : nat -> 'cV[R]_n * 'M[R]_n -> option 'cV[R]_m -> option ('cV[R]_n * 'M[R]_n)).
Variables (upd : uupdate_fn R) (o : ukf R) (zs : seq (orow R m)) (Hsz : size zs = T) (args : nat -> orow R m -> uuargs R -> Prop).
Hypothesis Hupd : forall t r u s, (t.+1 < T)%N -> args t r u -> uupdate upd o (lift_s s) u = lift_o (next t s (cut r)).
Let F := ufold first next (stream zs).

Lemma stream_nth t r : List.nth_error zs t = Some r -> stream zs t = cut r.
Proof. by rewrite /stream => ->. Qed.

Lemma online_gen rows s st us :
  mapr (fun t => lift_o (F t)) (iota 0 T) = Ok rows -> List.nth_error rows s = Some st ->
  size us = (T - s.+1)%N ->
  (forall j u r, List.nth_error us j = Some u -> List.nth_error zs (s.+1 + j) = Some r -> args (s + j) r u) ->
  uupdates upd o st us = Ok (drop s.+1 rows).
Proof.
move=> /mapr_lift_ok [Hx Er] Hst Hus Ha.
pose x t := odflt (0, 0) (F t).
have HF t : (t < T)%N -> F t = Some (x t).
  by move=> tT; have [|q E] := Hx t; [rewrite mem_iota|rewrite /x E].
have sT : (s < T)%N.
  have : (s < size rows)%N by move: Hst; clear; elim: rows s => [|a l IH] [|s] //=; exact: IH.
  by rewrite Er size_map size_iota.
have Est : st = lift_s (x s).
  move: Hst; rewrite Er List.nth_error_map -[List.nth_error _ _]/(List.nth_error (iota 0 T) s).
  have -> : List.nth_error (iota 0 T) s = Some s.
    have gen k j l : (j < l)%N -> List.nth_error (iota k l) j = Some (k + j)%N.
      by elim: l j k => [//|l IH] [|j] k; rewrite ?addn0 // addnS => /(IH j k.+1); rewrite addSn.
    by rewrite gen.
  by case=> <-.
have -> : drop s.+1 rows = [seq lift_s (x t) | t <- iota s.+1 (T - s.+1)].
  by rewrite Er -map_drop drop_iota add0n.
rewrite {}Est {Hst Er}.
elim: us s sT Hus Ha => [|u us IH] s sT; first by move=> /= <-.
move=> Hus Ha.
have ET : (T - s.+1 = (T - s.+2).+1)%N.
  by rewrite [(T - s.+2)%N]subnS -Hus.
have sT' : (s.+1 < T)%N by rewrite -subn_gt0 ET.
have [r Hr] : exists r, List.nth_error zs s.+1 = Some r.
  case E: (List.nth_error zs s.+1) => [r|]; first by exists r.
  by move: E => /List.nth_error_None /ssrnat.leP; rewrite -[List.length zs]/(size zs) Hsz leqNgt sT'.
have Au : args s r u by have := Ha 0%N u r erefl; rewrite !addn0; apply.
rewrite -[uupdates _ _ _ _]/(s' <-- uupdate upd o (lift_s (x s)) u ;; l <-- uupdates upd o s' us ;; Ok (s' :: l)).
rewrite (Hupd _ sT' Au) -(stream_nth Hr).
have -> : next s (x s) (stream zs s.+1) = Some (x s.+1).
  by have := HF s.+1 sT'; rewrite {1}/F (ufold_next (HF _ sT)).
rewrite -[lift_o _]/(Ok (lift_s (x s.+1))) bO IH //.
- by rewrite ET.
- by move: Hus; rewrite ET => [] [].
- by move=> j u' r' H1 H2; rewrite addSnnS; apply: (Ha j.+1) => //; rewrite addnS -addSn.
Qed.

(** one step, whatever its outcome *)
Lemma ufold_ext y y' t : (forall i, (i <= t)%N -> y i = y' i) -> ufold first next y t = ufold first next y' t.
Proof.
elim: t => [|t IH] H; first by rewrite /= H.
rewrite -[LHS]/(obind (fun s => next t s (y t.+1)) (ufold first next y t)).
by rewrite IH; [rewrite H|move=> i it; apply: H; exact: leqW].
Qed.
End Generic.

Lemma nth_error_cat1 T (l : seq T) a i : (i < size l)%N -> List.nth_error (l ++ [:: a]) i = List.nth_error l i.
Proof. by elim: l i => [//|b l IH] [|i] //=; exact: IH. Qed.
Lemma nth_error_end T (l : seq T) a : List.nth_error (l ++ [:: a]) (size l) = Some a.
Proof. by elim: l. Qed.

Lemma online_step n m first next (upd : uupdate_fn R) o (zs : seq (orow R m)) args rows st r u :
  let T := size zs in
  (forall t r u (s : 'cV[R]_n * 'M[R]_n), (t.+1 < T.+1)%N -> args t r u ->
     uupdate upd o (lift_s s) u = lift_o (next t s (cut r))) ->
  mapr (fun t => lift_o (ufold first next (stream zs) t)) (iota 0 T) = Ok rows ->
  List.nth_error rows T.-1 = Some st ->
  args T.-1 r u ->
  mapr (fun t => lift_o (ufold first next (stream (zs ++ [:: r])) t)) (iota 0 T.+1) =
  (s <-- uupdate upd o st u ;; Ok (rows ++ [:: s])).
Proof.
move=> T Hupd Hrows Hst Ha.
have T0 : (0 < T)%N.
  by rewrite lt0n; apply/eqP => T0; move: Hst; move: Hrows; rewrite T0 => [] [<-].
have [Hx Er] := mapr_lift_ok Hrows.
have ES : forall i, (i < T)%N -> stream (zs ++ [:: r]) i = stream zs i.
  by move=> i iT; rewrite /stream nth_error_cat1.
have -> : iota 0 T.+1 = iota 0 T ++ [:: T] by rewrite -[T.+1]addn1 iotaD add0n.
rewrite KfGlue.mapr_cat.
have -> : mapr (fun t => lift_o (ufold first next (stream (zs ++ [:: r])) t)) (iota 0 T) = Ok rows.
  rewrite -Hrows; apply: KfGlue.mapr_ext => i; rewrite mem_iota add0n => /= iT.
  by rewrite (ufold_ext _ _ (y' := stream zs)) // => j ji; apply: ES; exact: leq_ltn_trans ji iT.
rewrite bO.
have [x Ex] : exists x, ufold first next (stream zs) T.-1 = Some x by apply: Hx; rewrite mem_iota add0n /= prednK.
have Est : st = lift_s x.
  move: Hst; rewrite Er List.nth_error_map -[List.nth_error _ _]/(List.nth_error (iota 0 T) T.-1).
  have -> : List.nth_error (iota 0 T) T.-1 = Some T.-1.
    have gen k j l : (j < l)%N -> List.nth_error (iota k l) j = Some (k + j)%N.
      by elim: l j k => [//|l IH] [|j] k; rewrite ?addn0 // addnS => /(IH j k.+1); rewrite addSn.
    by rewrite gen // prednK.
  by case=> <-; rewrite Ex.
rewrite Est (Hupd _ _ _ _ _ Ha) ?prednK //.
rewrite mapr_cons.
have -> : ufold first next (stream (zs ++ [:: r])) T = next T.-1 x (cut r).
  rewrite -{1}(prednK T0) (ufold_next (s := x)) ?prednK //; first by rewrite /stream nth_error_end.
  by rewrite -Ex; apply: ufold_ext => j jT; apply: ES; rewrite -(prednK T0) ltnS.
case: (next _ _ _) => [s|//].
by rewrite -[lift_o _]/(Ok (lift_s s)) !bO.
Qed.

Section Classes.
Variables (n m : nat) (o : ukf R) (Q : 'M[R]_n) (Rn : 'M[R]_m) (mu0 : 'cV[R]_n) (P0 : 'M[R]_n) (zs : seq (orow R m)).

Lemma aukf_online f g T rows s st us : aukf_model o T f g Q Rn mu0 P0 -> size zs = T -> keeps zs ->
  aukf_filter o (O2 m zs) = Ok rows -> List.nth_error rows s = Some st -> size us = (T - s.+1)%N ->
  (forall j u r, List.nth_error us j = Some u -> List.nth_error zs (s.+1 + j) = Some r ->
     aukf_args o f g Q Rn (s + j) r u) ->
  uupdates (@aukf_filter_update R) o st us = Ok (drop s.+1 rows).
Proof.
move=> HM Hsz Hk; rewrite (aukf_filterE HM Hsz Hk); apply: (online_gen Hsz).
by move=> t r u x tT Ha; exact: (aukf_updateE _ HM tT Ha).
Qed.
Lemma ukf_online f g T rows s st us : ukf_model o T f g Q Rn mu0 P0 -> size zs = T -> keeps zs ->
  ukf_filter o (O2 m zs) = Ok rows -> List.nth_error rows s = Some st -> size us = (T - s.+1)%N ->
  (forall j u r, List.nth_error us j = Some u -> List.nth_error zs (s.+1 + j) = Some r ->
     ukf_args o f g Q Rn (s + j) r u) ->
  uupdates (@ukf_filter_update R) o st us = Ok (drop s.+1 rows).
Proof.
move=> HM Hsz Hk; rewrite (ukf_filterE HM Hsz Hk); apply: (online_gen Hsz).
by move=> t r u x tT Ha; exact: (ukf_updateE _ HM tT Ha).
Qed.

Lemma fgives_le A (Rel : pyfun R -> A -> Prop) fs T T' f : (T' <= T)%N -> fgives Rel fs T f -> fgives Rel fs T' f.
Proof.
move=> le; case: fs => [h|[|h s]|rows] /=; try by move=> H t tT; apply: H; exact: leq_trans tT le.
by move=> E; move: le; rewrite E leqn0 => /eqP.
Qed.
Lemma model_le AF AG (RF : pyfun R -> AF -> Prop) (RG : pyfun R -> AG -> Prop) DF DG T T' f g : (T' <= T)%N ->
  unscented_model RF RG DF DG o T f g Q Rn mu0 P0 -> unscented_model RF RG DF DG o T' f g Q Rn mu0 P0.
Proof.
move=> le [H1 H2 H3 H4 H5 H6 H7 H8 H9]; have le' : (T'.-1 <= T.-1)%N by case: T' T le {H4 H5} => [|a] [|b].
split=> //.
  move: H4; case: (o_f o) => [fs|] H; first exact: fgives_le H.
  by move=> t tT; apply: H; exact: leq_trans tT le'.
move: H5; case: (o_g o) => [fs|] H; first exact: fgives_le H.
by move=> t tT; apply: H; exact: leq_trans tT le.
Qed.

Lemma aukf_step f g rows st r u : aukf_model o (size zs).+1 f g Q Rn mu0 P0 -> keeps zs -> keeps (zs ++ [:: r]) ->
  aukf_filter o (O2 m zs) = Ok rows -> List.nth_error rows (size zs).-1 = Some st ->
  aukf_args o f g Q Rn (size zs).-1 r u ->
  aukf_filter o (O2 m (zs ++ [:: r])) = (s <-- uupdate (@aukf_filter_update R) o st u ;; Ok (rows ++ [:: s])).
Proof.
move=> HM Hk Hk'; rewrite (aukf_filterE (model_le (leqnSn _) HM) erefl Hk).
rewrite (aukf_filterE HM _ Hk'); last by rewrite size_cat addn1.
apply: (online_step (args := aukf_args o f g Q Rn)) => t r' u' s tT Ha.
exact: (aukf_updateE _ HM tT Ha).
Qed.
Lemma ukf_step f g rows st r u : ukf_model o (size zs).+1 f g Q Rn mu0 P0 -> keeps zs -> keeps (zs ++ [:: r]) ->
  ukf_filter o (O2 m zs) = Ok rows -> List.nth_error rows (size zs).-1 = Some st ->
  ukf_args o f g Q Rn (size zs).-1 r u ->
  ukf_filter o (O2 m (zs ++ [:: r])) = (s <-- uupdate (@ukf_filter_update R) o st u ;; Ok (rows ++ [:: s])).
Proof.
move=> HM Hk Hk'; rewrite (ukf_filterE (model_le (leqnSn _) HM) erefl Hk).
rewrite (ukf_filterE HM _ Hk'); last by rewrite size_cat addn1.
apply: (online_step (args := ukf_args o f g Q Rn)) => t r' u' s tT Ha.
exact: (ukf_updateE _ HM tT Ha).
Qed.
End Classes.
End Batch.
