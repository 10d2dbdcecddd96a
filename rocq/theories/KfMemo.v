(** Filtering the remembering state is fixed-point smoothing. *)
From Coq Require Import String List.
From mathcomp Require Import all_ssreflect all_algebra.
From Verif Require Import Prelude Zmod LinAlg Numpy NumpyFacts Sklearn Standard Model KfSpec StandardInit StandardFacts
  SpecL2 L2Facts Lmmse Exists KfOptimal KfModelFacts KfEquiv KfGlue KfMore MemoSpec KfExact.
Import GRing.Theory Num.Theory Order.Theory.

Set Implicit Arguments.
Unset Strict Implicit.
Unset Printing Implicit Defensive.
Local Open Scope ring_scope.

Section Memo.
Variables (R : rcfType) (n m : nat) (M : lgm R n m) (T : nat) (zs : seq (orow R m)) (s : nat).
Notation y := (stream zs).
Notation M' := (memo_model M s).
Hypothesis HM : psd_model M T.

(** state of the pair: second half correlated with the first through [L] *)
Definition pk (x h : 'cV[R]_n) (P L Y : 'M[R]_n) : 'cV[R]_(n + n) * 'M[R]_(n + n) :=
  (col_mx x h, block_mx P (P *m L^T) (L *m P) Y).

Lemma memo_innov t P L Y : innov_cov M' t (block_mx P (P *m L^T) (L *m P) Y) = innov_cov M t P.
Proof. by rewrite /innov_cov /= tr_row_mx trmx0 mul_block_col !mulmx0 !addr0 mul_row_col mul0mx addr0. Qed.
Lemma memo_gain t P L Y : gain M' t (block_mx P (P *m L^T) (L *m P) Y) = col_mx (gain M t P) (L *m gain M t P).
Proof.
rewrite /gain memo_innov /= tr_row_mx trmx0 [col_mx _ 0 *m _]mul_col_mx mul0mx mul_block_col !mulmx0 !addr0.
by rewrite !mulmxA.
Qed.
Lemma memo_correct t x h P L Y : let c := correct M y t (x, P) in
  correct M' y t (pk x h P L Y) = pk c.1 (h + L *m (c.1 - x)) c.2 L (Y + L *m (c.2 - P) *m L^T).
Proof.
rewrite /correct /pk; case: (y t) => [z|] /=; last by rewrite !subrr !mulmx0 mul0mx !addr0.
rewrite memo_gain mul_row_col mul0mx addr0; set K := gain M t P; set e := z - _.
congr pair; first by rewrite mul_col_mx add_col_mx -mulmxA [x + _ - x]addrAC subrr add0r.
rewrite mul_row_block !mul0mx !addr0 mul_col_row opp_block_mx add_block_mx.
rewrite [P - _ - P]addrAC subrr add0r mulmxN mulNmx !mulmxBl !mulmxBr.
by congr block_mx; rewrite ?mulmxA.
Qed.
Lemma memo_copy t x P : (t < s)%N -> predict M' t (pk x x P 1%:M P) =
  pk (predict M t (x, P)).1 (predict M t (x, P)).1 (predict M t (x, P)).2 1%:M (predict M t (x, P)).2.
Proof.
move=> ts; rewrite /predict /pk /= ts trmx1 !mulmx1 !mul1mx; congr pair.
  by rewrite mul_block_col !mul0mx !addr0 add_col_mx.
by rewrite tr_block_mx !trmx0 mulmx_block !mulmx0 !addr0 mulmx_block !mul0mx !addr0 add_block_mx.
Qed.
Lemma memo_keep t x h P L Y : (s <= t)%N -> psd P -> psd (mQ M t) ->
  let p := predict M t (x, P) in let G := P *m ((mA M t)^T *m pinv p.2) in
  predict M' t (pk x h P L Y) = pk p.1 h p.2 (L *m G) Y.
Proof.
move=> st HP HQ p G; have EG : G *m p.2 = P *m (mA M t)^T by exact: sgain_pred.
have SPp : p.2^T = p.2.
  by rewrite /p /= linearD /= !trmx_mul trmxK (psd_sym HP) (psd_sym HQ) mulmxA.
have EGT : p.2 *m G^T = mA M t *m P by rewrite -{1}SPp -trmx_mul EG trmx_mul trmxK (psd_sym HP).
rewrite /predict /pk /= ltnNge st /=; congr pair.
  by rewrite mul_block_col !mul0mx mul1mx add0r addr0 add_col_mx addr0.
rewrite tr_block_mx !trmx0 trmx1 mulmx_block !mulmx0 !mulmx1 !addr0 !add0r mulmx_block !mul0mx !mul1mx !addr0 !add0r add_block_mx !addr0.
have E2 : mA M t *m (P *m (mA M t)^T) + mQ M t = p.2 by [].
rewrite E2; move: (p.2) (G) EG EGT => P2 G2 EG EGT.
congr block_mx; first by rewrite [(L *m _)^T]trmx_mul [RHS]mulmxA EGT mulmxA.
by rewrite -!mulmxA EG.
Qed.

Fixpoint Lam j : 'M[R]_n := if j is j'.+1 then Lam j' *m sgain M y (s + j') else 1%:M.
Definition incr k i (L : 'M[R]_n) := (smo M y i.+1 k).1 = (smo M y i k).1 + L *m ((filt M y (k + i.+1)).1 - (pred M y (k + i.+1)).1) /\
  (smo M y i.+1 k).2 = (smo M y i k).2 + L *m ((filt M y (k + i.+1)).2 - (pred M y (k + i.+1)).2) *m L^T.
Fixpoint LamF k j : 'M[R]_n := if j is j'.+1 then sgain M y k *m LamF k.+1 j' else 1%:M.
Lemma LamFE k j : LamF k j.+1 = LamF k j *m sgain M y (k + j).
Proof.
elim: j k => [|j IH] k; first by rewrite /= mulmx1 mul1mx addn0.
have E i l : LamF i l.+1 = sgain M y i *m LamF i.+1 l by [].
by rewrite E IH mulmxA -E addSnnS.
Qed.
Lemma LamE j : Lam j = LamF s j.
Proof. by elim: j => [//|j IH]; rewrite LamFE -IH. Qed.
Lemma smo_incr k i : incr k i (LamF k i.+1).
Proof.
elim: i k => [|i IH] k.
  rewrite /incr addn1; split; first by rewrite /LamF mulmx1 smoS.
  by rewrite /LamF mulmx1 smoS -mulmxA.
have [I1 I2] := IH k.+1; rewrite addSnnS in I1 I2.
have E l : LamF k l.+1 = sgain M y k *m LamF k.+1 l by [].
have E1 l : (smo M y l.+1 k).1 = (filt M y k).1 + sgain M y k *m ((smo M y l k.+1).1 - (pred M y k.+1).1) by exact: erefl.
have E2 l : (smo M y l.+1 k).2 = (filt M y k).2 + sgain M y k *m (((smo M y l k.+1).2 - (pred M y k.+1).2) *m (sgain M y k)^T) by exact: erefl.
rewrite /incr E !E1 !E2 I1 I2; clear E E1 E2 I1 I2 IH.
move: (LamF k.+1 i.+1) (sgain M y k) => L G.
move: (smo M y i k.+1) (filt M y k) (filt M y (k + i.+2)) (pred M y (k + i.+2)) (pred M y k.+1) => [a A] [b B] [c C] [d D] [e F] /=.
move: (c - d) (C - D) => u U; split.
  have -> : a + L *m u - e = a - e + L *m u by zmod.
  by rewrite mulmxDr addrA mulmxA.
have -> : A + L *m U *m L^T - F = A - F + L *m U *m L^T by zmod.
by rewrite mulmxDl mulmxDr addrA trmx_mul !mulmxA.
Qed.

Lemma memo_before t : (t <= s)%N -> pred M' y t = pk (pred M y t).1 (pred M y t).1 (pred M y t).2 1%:M (pred M y t).2.
Proof.
elim: t => [|t IH] ts; first by rewrite /pk trmx1 mulmx1 mul1mx.
have E k (K : lgm R k m) : pred K y t.+1 = predict K t (correct K y t (pred K y t)) by [].
rewrite !E (IH (ltnW ts)) memo_correct; move: (pred M y t) => [x P] /=.
have -> : x + 1%:M *m ((correct M y t (x, P)).1 - x) = (correct M y t (x, P)).1 by rewrite mul1mx; zmod.
have -> : P + 1%:M *m ((correct M y t (x, P)).2 - P) *m 1%:M^T = (correct M y t (x, P)).2 by rewrite trmx1 mul1mx mulmx1; zmod.
by rewrite (memo_copy _ _ ts); case: (correct M y t (x, P)).
Qed.
Lemma memo_filt j : (s + j < T)%N -> filt M' y (s + j) =
  pk (filt M y (s + j)).1 (smo M y j s).1 (filt M y (s + j)).2 (Lam j) (smo M y j s).2.
Proof.
elim: j => [|j IH] sT.
  rewrite addn0 [LHS]/filt (memo_before (leqnn s)) memo_correct [smo M y 0 s]/=.
  rewrite [filt M y s]/filt; move: (pred M y s) => [x P] /=.
  by congr pk; rewrite ?trmx1 ?mulmx1 mul1mx; zmod.
have sT' : (s + j < T)%N by apply: leq_ltn_trans sT; rewrite leq_add2l.
rewrite addnS in sT *.
have [I1 I2] := smo_incr s j; rewrite -LamE addnS in I1 I2; rewrite I1 I2.
have Ep k (K : lgm R k m) : pred K y (s + j).+1 = predict K (s + j) (filt K y (s + j)) by exact: erefl.
have HQ : psd (mQ M (s + j)) by case: HM => _ + _; apply; rewrite -ltnS prednK //; exact: leq_ltn_trans sT.
have HP := pf_psd zs HM sT'.
have EL : Lam j.+1 = Lam j *m sgain M y (s + j) by [].
rewrite [LHS]/filt Ep (IH sT') memo_keep ?leq_addr //.
have -> : (filt M y (s + j)).2 *m ((mA M (s + j))^T *m pinv (predict M (s + j) ((filt M y (s + j)).1, (filt M y (s + j)).2)).2) =
  sgain M y (s + j) by exact: erefl.
have EP : predict M (s + j) ((filt M y (s + j)).1, (filt M y (s + j)).2) = pred M y (s + j).+1 by exact: erefl.
by rewrite -EL EP memo_correct -surjective_pairing.
Qed.
End Memo.

Section MemoApi.
Variables (R : rcfType) (n m : nat) (M : lgm R n m) (T : nat) (zs : seq (orow R m)) (s : nat) (o o' : kf R).
Hypotheses (Ho : kf_model o T M) (Ho' : kf_model o' T (memo_model M s)) (HM : psd_model M T) (Hsz : size zs = T) (Hk : keeps zs).
Lemma nth_error_map_iota (U : Type) (f : nat -> U) k t : (t < k)%N -> List.nth_error [seq f i | i <- iota 0 k] t = Some (f t).
Proof.
have H : forall a, (t < k)%N -> List.nth_error [seq f i | i <- iota a k] t = Some (f (a + t)%N).
  elim: k t => [|k IH] [|t] a //=; first by rewrite addn0.
  by move=> tk; rewrite IH // addSnnS.
by move=> tk; rewrite H.
Qed.
Lemma memo_api : exists (x h : nat -> 'cV[R]_n) (P X Y : nat -> 'M[R]_n) rows,
  [/\ kf_filter o (O2 m zs) = Ok [seq (A1 (x t), A2 (P t)) | t <- iota 0 T],
      kf_filter o' (O2 m zs) = Ok rows,
      forall t, (s <= t < T)%N -> List.nth_error rows t =
        Some (A1 (col_mx (x t) (h t)), A2 (block_mx (P t) (X t)^T (X t) (Y t))) &
      forall t, (s <= t < T)%N -> keeps (take t.+1 zs) -> exists2 srows,
        kf_smooth o (O2 m (take t.+1 zs)) = Ok srows & List.nth_error srows s = Some (A1 (h t), A2 (Y t))].
Proof.
have K : (T != 1%N) || (m <= 1)%N by rewrite -Hsz.
exists (fun t => (filt M (stream zs) t).1), (fun t => (smo M (stream zs) (t - s) s).1).
exists (fun t => (filt M (stream zs) t).2), (fun t => Lam M zs s (t - s) *m (filt M (stream zs) t).2), (fun t => (smo M (stream zs) (t - s) s).2).
eexists; split.
- exact: (kf_filter_ok Ho Hsz K).
- exact: (kf_filter_ok Ho' Hsz K).
- move=> t /andP[st tT]; rewrite nth_error_map_iota //.
  have E : (s + (t - s) = t)%N by rewrite subnKC.
  have := @memo_filt _ _ _ M T zs s HM (t - s); rewrite E => /(_ tT) ->.
  by rewrite /pk trmx_mul (psd_sym (pf_psd zs HM tT)).
move=> t /andP[st tT] Hkt.
have Hst : size (take t.+1 zs) = t.+1 by rewrite size_takel ?Hsz.
have Hot : kf_model o t.+1 M by apply: (@kf_model_le _ _ _ _ _ (T - t.+1)); rewrite subnKC.
have Kt : (t.+1 != 1%N) || (m <= 1)%N by move: Hkt; rewrite /keeps Hst.
eexists; first exact: (kf_smooth_ok Hot Hst Kt isT).
have st1 : (s < t.+1)%N by rewrite ltnS.
have E : smo M (stream (take t.+1 zs)) (t - s) s = smo M (stream zs) (t - s) s.
  by apply: smo_ext => r; rewrite subnKC // => rt; exact: stream_take.
by rewrite (nth_error_map_iota _ st1) -E.
Qed.
End MemoApi.
