(** Facts about the KalmanFilter model: refinement to the textbook
    recursions. *)
From Coq Require Import String List.
From mathcomp Require Import all_ssreflect all_algebra.
From Verif Require Import Prelude LinAlg Numpy NumpyFacts Sklearn SklearnFacts Standard Model StandardInit.
Import GRing.Theory Num.Theory.

Set Implicit Arguments.
Unset Strict Implicit.
Unset Printing Implicit Defensive.
Local Open Scope ring_scope.

Section Refine.
Variable R : rcfType.

Lemma rep2_last_dims m n (X : arr R) T (F : nat -> 'M[R]_(m, n)) t :
  rep2 X T F -> (t < T)%N -> last_dims X t 2 = Ok (A2 (F t)).
Proof.
case=> [[M -> H] tT|[s [-> Hs H]] tT]; rewrite /last_dims /=.
  by rewrite H.
by rewrite (getidx_nth 0) ?H //=; apply: leq_trans Hs.
Qed.

Lemma rep1_last_dims n (X : arr R) T (F : nat -> 'cV[R]_n) t :
  rep1 X T F -> (t < T)%N -> last_dims X t 1 = Ok (A1 (F t)).
Proof.
case=> [[v -> H] tT|[k [M [-> Hk H]]] tT]; rewrite /last_dims /=.
  by rewrite H.
have tk : (t < k)%N by apply: leq_trans Hk.
rewrite insubT; congr (Ok (A1 _)); apply/matrixP=> i j; rewrite (ord1 j) !mxE.
by rewrite H // (mgetE M (Ordinal tk) i).
Qed.

Lemma rep2_const m n (M : 'M[R]_(m, n)) T F : (forall t, (t < T)%N -> F t = M) -> rep2 (A2 M) T F.
Proof. by move=> H; left; exists M. Qed.

Lemma kf_model_params n m (o : kf R) T (M : lgm R n m) :
  kf_model o T M -> params_model (init_value o) T M.
Proof.
case=> Hn Hm _ Htm Hto Htc Hom Hoo Hoc Him Hic.
have e2 a : as_mat a = array2d a by case: a.
have e1 a : as_vec a = array1d a by case: a.
rewrite /init_value Hn Hm; split=> /=.
- case: (k_tm o) Htm => [X|] /=; first by rewrite e2.
  by rewrite eye2E; exact: rep2_const.
- case: (k_to o) Hto => [X|] /=; first by rewrite e1.
  by left; exists 0.
- case: (k_tc o) Htc => [X|] /=; first by rewrite e2.
  by rewrite eye2E; exact: rep2_const.
- case: (k_om o) Hom => [X|] /=; first by rewrite e2.
  exact: rep2_const.
- case: (k_oo o) Hoo => [X|] /=; first by rewrite e1.
  by left; exists 0.
- case: (k_oc o) Hoc => [X|] /=; first by rewrite e2.
  by rewrite eye2E; exact: rep2_const.
- by case: (k_im o) Him => [X|] /=; [rewrite e1|move=> ->].
- case: (k_ic o) Hic => [X|] /=; first by rewrite e2.
  by rewrite eye2E => ->.
Qed.

Variables (n m : nat) (M : lgm R n m) (p : kfparams R) (T : nat).
Hypothesis Hp : params_model p T M.
Variable (zs0 : seq (orow R m)).
Hypothesis Hsz : size zs0 = T.
Let y := stream zs0.

Definition kgain t : 'M[R]_(n, m) :=
  if y t is Some _ then gain M t (pred M y t).2 else 0.
Definition frow_of t : frow R :=
  FRow (A1 (pred M y t).1) (A2 (pred M y t).2) (A2 (kgain t))
       (A1 (filt M y t).1) (A2 (filt M y t).2).

Lemma stream_nth t z : List.nth_error zs0 t = Some z ->
  y t = if missing z then None else Some z.1.
Proof. by rewrite /y /stream => ->. Qed.

Lemma filter_step_ok t z prev :
  (t < T)%N -> List.nth_error zs0 t = Some z ->
  prev = (if t is t'.+1 then Some (frow_of t') else None) ->
  filter_step p n t prev z = Ok (frow_of t).
Proof.
case: Hp => Htm Hto Htc Hom Hoo Hoc Him Hic tT Hz ->.
rewrite /filter_step.
set P := (X in bind X _).
have -> : P = Ok (A1 (pred M y t).1, A2 (pred M y t).2).
  rewrite /P; case: t tT {Hz P} => [|t] tT; first by rewrite Him Hic; np.
  have tT' : (t < T.-1)%N by rewrite -ltnS prednK //; apply: leq_ltn_trans tT.
  rewrite (rep2_last_dims Htm tT') (rep2_last_dims Htc tT') (rep1_last_dims Hto tT') /=.
  by rewrite /filter_predict; np.
rewrite /= (rep2_last_dims Hom tT) (rep2_last_dims Hoc tT) (rep1_last_dims Hoo tT) /=.
rewrite /filter_correct /frow_of /kgain /filt /correct (stream_nth Hz).
case: (missing z) => /=.
  by rewrite /zeros2; np.
by np.
Qed.

Lemma nth_error_drop U (s : seq U) t z zs : drop t s = z :: zs ->
  List.nth_error s t = Some z /\ drop t.+1 s = zs.
Proof. by elim: s t => [|x s IH] [|t] //= => [[-> ->]|/IH //]; rewrite drop0. Qed.

Lemma filter_loop_ok t zs prev :
  zs = drop t zs0 ->
  prev = (if t is t'.+1 then Some (frow_of t') else None) ->
  filter_loop p n t prev zs = Ok [seq frow_of s | s <- iota t (size zs)].
Proof.
elim: zs t prev => [|z zs IH] t prev Hzs Hprev //=.
have [Hz Hd] := nth_error_drop (esym Hzs).
have tT : (t < T)%N.
  rewrite -Hsz ltnNge; apply/negP => /drop_oversize; by rewrite -Hzs.
by rewrite (filter_step_ok tT Hz Hprev) /= (IH t.+1).
Qed.

Lemma filter_ok : filter_ p zs0 = Ok [seq frow_of s | s <- iota 0 T].
Proof.
rewrite /filter_ (pm_im Hp) /= (@filter_loop_ok 0 zs0) ?Hsz //.
by rewrite drop0.
Qed.

Definition srow_of j s : srow R := SRow (A1 (smo M y j s).1) (A2 (smo M y j s).2).

Lemma smooth_loop_ok t j :
  (t + j < T)%N ->
  smooth_loop (p_tm p) n t [seq frow_of s | s <- iota t j.+1] =
  Ok ([seq srow_of (t + j - s) s | s <- iota t j.+1],
      [seq A2 (sgain M y s) | s <- iota t j]).
Proof.
elim: j t => [|j IH] t tT.
  by rewrite /= addn0 subnn.
have := IH t.+1; rewrite addSnnS => /(_ tT) /= -> /=.
have tT' : (t < T.-1)%N.
  rewrite -ltnS prednK; last by apply: leq_ltn_trans tT.
  by apply: leq_ltn_trans tT; rewrite addnS ltnS leq_addr.
rewrite (rep2_last_dims (pm_tm Hp) tT') /= /smooth_update; np.
by rewrite addnS subSS addKn subSn ?leq_addr // addKn.
Qed.

Lemma smooth_ok : (0 < T)%N ->
  smooth_ (p_tm p) n [seq frow_of s | s <- iota 0 T] =
  Ok ([seq srow_of (T.-1 - s) s | s <- iota 0 T],
      [seq A2 (sgain M y s) | s <- iota 0 T.-1]).
Proof.
by move=> T0; have := @smooth_loop_ok 0 T.-1; rewrite /smooth_ add0n !prednK // => ->.
Qed.

(** lag-one covariances; entry 0 is a dummy *)
Definition pair_of t : arr R :=
  if t is t'.+1 then A2 ((smo M y (T.-1 - t) t).2 *m (sgain M y t')^T) else zeros2 n n.

Lemma smooth_pair_ok : (0 < T)%N ->
  smooth_pair n [seq srow_of (T.-1 - s) s | s <- iota 0 T]
    [seq A2 (sgain M y s) | s <- iota 0 T.-1] = Ok [seq pair_of t | t <- iota 0 T].
Proof.
move=> T0; rewrite /smooth_pair size_map size_iota.
rewrite (@mapr_all_ok _ _ _ pair_of); last first.
  move=> t /In_mem; rewrite mem_iota => /andP[t1 t2].
  have tT : (t < T)%N by apply: leq_trans t2 _; rewrite add1n prednK.
  rewrite (getidx_nth (srow_of 0 0)) ?size_map ?size_iota //=.
  rewrite (nth_map 0%N) ?size_iota // nth_iota // add0n.
  have tT' : (t.-1 < T.-1)%N by rewrite -ltnS !prednK.
  rewrite (getidx_nth (zeros2 0 0)) ?size_map ?size_iota //=.
  rewrite (nth_map 0%N) ?size_iota // nth_iota // add0n; np.
  by case: t t1 {t2 tT tT'} => // t _; np.
by case: T T0 => //=.
Qed.
End Refine.

Section Api.
Variable R : rcfType.
Variables (n m : nat).

(** [parse_observations] keeps an array with several rows, or one column *)
Lemma parse_keep (zs : seq (orow R m)) :
  (size zs != 1%N) || (m <= 1)%N -> parse_observations (O2 m zs) = existT _ m zs.
Proof. by case: zs => [|z [|z' zs]] //= H; rewrite ltnNge H. Qed.

Variables (o : kf R) (T : nat) (M : lgm R n m).
Hypothesis Ho : kf_model o T M.
Variable zs : seq (orow R m).
Hypothesis Hsz : size zs = T.
Hypothesis Hk : (T != 1%N) || (m <= 1)%N.
Let y := stream zs.

Lemma kf_filter_ok :
  kf_filter o (O2 m zs) = Ok [seq (A1 (filt M y t).1, A2 (filt M y t).2) | t <- iota 0 T].
Proof.
rewrite /kf_filter /filter_with parse_keep ?Hsz //.
rewrite (initialize_parametersE (km_rs Ho)) /=.
by rewrite (filter_ok (kf_model_params Ho) Hsz) /= -map_comp.
Qed.

Lemma kf_smooth_ok : (0 < T)%N ->
  kf_smooth o (O2 m zs) =
  Ok [seq (A1 (smo M y (T.-1 - t) t).1, A2 (smo M y (T.-1 - t) t).2) | t <- iota 0 T].
Proof.
move=> T0; rewrite /kf_smooth /smooth_with parse_keep ?Hsz //.
rewrite (initialize_parametersE (km_rs Ho)) /bind.
have Hp := kf_model_params Ho.
rewrite (filter_ok Hp Hsz) (pm_im Hp) /np_len /shape.
by rewrite (smooth_ok Hp zs) //= -map_comp.
Qed.
End Api.
