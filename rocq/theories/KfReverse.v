(** Smoothing backwards in time. *)
From Coq Require Import String List.
From mathcomp Require Import all_ssreflect all_algebra.
From mathcomp Require Import ring.
From Verif Require Import Prelude Zmod LinAlg Numpy Sklearn Standard Model KfSpec StandardFacts KfModelFacts KfGlue KfSensors KfLsSpec KfLs KfCurvSpec KfCurv Examples ExamplesEm.
Import Order.Theory GRing.Theory Num.Theory.

Set Implicit Arguments.
Unset Strict Implicit.
Unset Printing Implicit Defensive.
Local Open Scope ring_scope.

Lemma nth_errorE (U : Type) (d : U) (s : seq U) t : (t < size s)%N -> List.nth_error s t = Some (nth d s t).
Proof. by elim: s t => [|a s IH] [|t] //= H; rewrite IH. Qed.
Lemma nth_error_rev (U : Type) (d : U) (s : seq U) t : (t < size s)%N -> List.nth_error (seq.rev s) t = List.nth_error s (size s - t.+1)%N.
Proof.
move=> H; rewrite (nth_errorE d) ?size_rev // nth_rev // (nth_errorE d) //.
by rewrite ltn_subrL /= (leq_ltn_trans _ H).
Qed.
Lemma rev_map_iota (U : Type) (F : nat -> U) T : seq.rev [seq F t | t <- iota 0 T] = [seq F (T.-1 - t)%N | t <- iota 0 T].
Proof.
case: T => // T; apply: (@eq_from_nth _ (F 0%N)); first by rewrite size_rev !size_map.
move=> i; rewrite size_rev size_map size_iota => H.
rewrite nth_rev ?size_map ?size_iota // subSS !(nth_map 0%N) ?size_iota //; last by rewrite ltnS leq_subr.
by rewrite !nth_iota // ltnS leq_subr.
Qed.

Section Reverse.
Variables (R : rcfType) (n m : nat) (M : lgm R n m) (zs : seq (orow R m)) (k : nat).
Hypothesis Hsz : size zs = k.+1.
Hypothesis HW : weights_exist M zs k.+1.
Let M' := reversed M k.+1.
Let V t := (prior M t).2.
Let mu t := (prior M t).1.
Let B t := V t - back M t *m mA M t *m V t.

Lemma back_step t x x' : pd (V t) -> pd (mQ M t) ->
  [/\ pd (V t.+1), pd (B t) & wsq (V t) (x - mu t) + wsq (mQ M t) (x' - (mA M t *m x + mb M t)) =
    wsq (V t.+1) (x' - mu t.+1) + wsq (B t) (x - (back M t *m x' + (mu t - back M t *m mu t.+1)))].
Proof.
move=> HP HQ.
have EV : V t.+1 = mA M t *m (V t *m (mA M t)^T) + mQ M t by rewrite mulmxA.
have PV : pd (V t.+1) by rewrite EV; exact: (inn_pd (mA M t) (pd_psd HP) HQ).
have EJ : sg (V t) (mA M t) (mQ M t) = back M t by rewrite /sg -EV (pinv_unit (pd_unit PV)) mulmxA.
have EB : KfSensors.sc (V t) (mA M t) (mQ M t) = B t by rewrite /KfSensors.sc EJ mulmxA.
split=> //; first by rewrite -EB; exact: (sc_pd (mA M t) HP HQ).
have := complete (mA M t) HP HQ (x - mu t) (x' - mu t.+1).
rewrite EJ EB -EV !wsqE => H.
have -> : x' - (mA M t *m x + mb M t) = x' - mu t.+1 - mA M t *m (x - mu t).
  by rewrite /mu /= -/(mu t) mulmxBr; move: (mA M t *m x) (mA M t *m mu t) (mb M t) => v1 v2 v3; zmod.
have -> : x - (back M t *m x' + (mu t - back M t *m mu t.+1)) = x - mu t - back M t *m (x' - mu t.+1).
  by rewrite mulmxBr; move: (back M t *m x') (back M t *m mu t.+1) (mu t) => v1 v2 v3; zmod.
exact: H.
Qed.
Lemma back_cost j x : (j <= k)%N -> [/\ pd (V j), forall t, (t < j)%N -> pd (B t) &
  wsq (mP M) (x 0%N - mmu M) + \sum_(t < j) wsq (mQ M t) (x t.+1 - (mA M t *m x t + mb M t)) =
  wsq (V j) (x j - mu j) + \sum_(t < j) wsq (B t) (x t - (back M t *m x t.+1 + (mu t - back M t *m mu t.+1)))].
Proof.
have [HP HQ HR] := HW; elim: j => [|j IH] jk; first by split=> //; rewrite !big_ord0.
have [H1 H2 H3] := IH (ltnW jk); have [H4 H5 H6] := back_step (x j) (x j.+1) H1 (HQ _ jk).
split=> // [t|]; first by rewrite ltnS leq_eqVlt => /orP[/eqP->|]; [exact: H5|exact: H2].
by rewrite !big_ord_recr /= addrA H3 addrAC H6 -!addrA; apply: f_equal; rewrite addrC.
Qed.
Lemma rev_stream t : (t <= k)%N -> stream (seq.rev zs) t = stream zs (k - t)%N.
Proof. by move=> tk; rewrite /stream (nth_error_rev (0, const_mx false)) Hsz ?subSS. Qed.
Lemma rev_cost x : cost M' (seq.rev zs) k (fun t => x (k - t)%N) = cost M zs k x.
Proof.
have [_ _ E] := back_cost x (leqnn k); rewrite /cost [in RHS]E /= subn0; apply: (f_equal2 +%R); last first.
  rewrite [in RHS](reindex_inj rev_ord_inj) /=; apply: eq_bigr => -[t tk] _ /=.
  by rewrite /misfit rev_stream ?subSS.
apply: f_equal; rewrite [in RHS](reindex_inj rev_ord_inj) /=; apply: eq_bigr => -[t tk] _ /=.
rewrite -subn1 -subnDA add1n subnSK //.
have -> : mu (k - t)%N = mu (k - t.+1).+1 by rewrite subnSK.
exact: erefl.
Qed.
Lemma rev_weights : weights_exist M' (seq.rev zs) k.+1.
Proof.
have [HP HQ HR] := HW; have [H1 H2 _] := back_cost (fun=> 0) (leqnn k); split=> [|t|t] //= tk.
  by apply: H2; rewrite -subn1 -subnDA add1n ltn_subrL (leq_ltn_trans _ tk).
by rewrite rev_stream //; apply: HR; rewrite ltnS leq_subr.
Qed.
Lemma cost_ext (N : lgm R n m) ys x x' : (forall t, (t <= k)%N -> x' t = x t) -> cost N ys k x' = cost N ys k x.
Proof.
move=> H; rewrite /cost H //; apply: (f_equal2 +%R); last by apply: eq_bigr => -[t tk] _ /=; rewrite H.
by apply: f_equal; apply: eq_bigr => -[t tk] _ /=; rewrite !H // ltnW.
Qed.
Lemma rev_cost' x : cost M zs k (fun t => x (k - t)%N) = cost M' (seq.rev zs) k x.
Proof. by rewrite -rev_cost; apply: cost_ext => t tk; rewrite subKn. Qed.

Lemma rev_path t : (t <= k)%N -> path M' (seq.rev zs) k t = path M zs k (k - t)%N.
Proof.
move: t; have H := path_best HW (ltnSn k); have H' := path_best rev_weights (ltnSn k).
move: (path M zs k) (path M' (seq.rev zs) k) H H' => x x' H H'.
have [E|L] := H' (fun t => x (k - t)%N); first by move=> t tk; rewrite -E.
have [E|L'] := H (fun t => x' (k - t)%N); first by move=> t tk; rewrite -E ?leq_subr // subKn.
by rewrite rev_cost' in L'; rewrite rev_cost in L; have := lt_trans L L'; rewrite ltxx.
Qed.
Lemma wsq_inj (P Q : 'M[R]_n) : pd P -> pd Q -> (forall v, wsq P v = wsq Q v) -> P = Q.
Proof.
move=> HP HQ H.
suff E : invmx P = invmx Q by rewrite -[P]invmxK E invmxK.
have S (A C : 'M[R]_n) : pd A -> pd C -> (forall v, wsq A v = wsq C v) -> lep (invmx A) (invmx C).
  move=> HA HC E; split; first by rewrite linearB /= !trmx_inv (proj1 HA) (proj1 HC).
  by move=> v; rewrite qfD qfN -!wsqE E subrr.
by apply: lep_antisym; apply: S => // v; rewrite H.
Qed.
Lemma rev_cov t : (t <= k)%N -> (smo M' (stream (seq.rev zs)) (k - t) t).2 = (smo M (stream zs) t (k - t)%N).2.
Proof.
move=> tk; have [HP Hc] := path_curv HW (leq_subr t k) (ltnSn k); have [HP' Hc'] := path_curv rev_weights tk (ltnSn k).
rewrite (subKn tk) in HP Hc; have Ex := rev_path tk.
have Ec : cost M' (seq.rev zs) k (path M' (seq.rev zs) k) = cost M zs k (path M zs k).
  by rewrite -rev_cost; apply: cost_ext => s sk; exact: rev_path.
move: HP HP' Hc Hc'; rewrite Ec Ex.
move: (smo _ _ _ _).2 (smo _ _ _ _).2 (path M zs k (k - t)%N) (cost M zs k _) => P P' xt c0 HP HP' Hc Hc'.
apply: wsq_inj => // v; apply/eqP; rewrite eq_le; apply/andP.
have -> : v = (v + xt) - xt by rewrite addrK.
split.
- have [L _] := Hc' (v + xt); have [_ [x Hx E]] := Hc (v + xt); rewrite -(ler_add2l c0) -E -rev_cost.
  by apply: L.
- have [L _] := Hc (v + xt); have [_ [x Hx E]] := Hc' (v + xt); rewrite -(ler_add2l c0) -E -rev_cost'.
  by apply: L; rewrite subKn.
Qed.
End Reverse.

Lemma reverse_api (R : rcfType) n m (M : lgm R n m) T (o o' : kf R) (zs : seq (orow R m)) : kf_model o T M -> kf_model o' T (reversed M T) ->
  size zs = T -> keeps zs -> weights_exist M zs T -> (0 < T)%N ->
  exists L, kf_smooth o (O2 m zs) = Ok L /\ kf_smooth o' (O2 m (seq.rev zs)) = Ok (seq.rev L).
Proof.
case: T => // k Ho Ho' Hsz Hk HW T0; eexists; split; first exact: (kf_smooth_ok Ho Hsz (keepsT Hsz Hk) T0).
have Hsz' : size (seq.rev zs) = k.+1 by rewrite size_rev.
rewrite (kf_smooth_ok Ho' Hsz' (keepsT Hsz Hk) T0); apply: f_equal.
rewrite rev_map_iota; apply/eq_in_map => t; rewrite mem_iota add0n ltnS => /andP[_ tk].
have E1 := rev_path Hsz HW tk; have E2 := rev_cov Hsz HW tk.
rewrite /path (subKn tk) in E1.
by apply: (f_equal2 (fun u v => (A1 u, A2 v))); rewrite /= ?(subKn tk) //.
Qed.

Lemma reverse_met (R : rcfType) : exists o o' : kf R,
  [/\ kf_model o 3 (em_M R), kf_model o' 3 (reversed (em_M R) 3), size (ex_zs R) = 3%N, keeps (ex_zs R) & weights_exist (em_M R) (ex_zs R) 3].
Proof.
have [h1 h2 h3 h4] := ls_met R.
by exists (em_o R), (obj_of (reversed (em_M R) 3) 3 false); split=> //; exact: obj_model.
Qed.
