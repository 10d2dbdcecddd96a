(** loglikelihood of a KalmanFilter object is the joint Gaussian log density of
    the available observations. *)
From Coq Require Import String List.
From mathcomp Require Import all_ssreflect all_algebra.
From mathcomp Require Import ring.
From Verif Require Import Prelude Zmod LinAlg Numpy NumpyFacts Sklearn SklearnFacts Standard Model KfSpec StandardInit StandardFacts
  KfStruct SpecL2 L2Facts Lmmse Exists KfOptimal KfModelFacts KfOnline KfEquiv GaussSpec KfLoglik Joint.
Import GRing.Theory Num.Theory Order.Theory.

Set Implicit Arguments.
Unset Strict Implicit.
Unset Printing Implicit Defensive.
Local Open Scope ring_scope.

Section Steps.
Variables (R : rcfType) (n m : nat) (o : kf R) (T : nat) (M : lgm R n m).
Hypothesis Ho : kf_model o T M.
Hypothesis Hc : const2 (k_oc o).
Variable zs : seq (orow R m).
Hypothesis Hsz : size zs = T.
Hypothesis Hk : keeps zs.
Variables (ln : R -> R) (ln2pi : R).
Let y := stream zs.
Let p := init_value o.

(** value of one step: the density of the observation *)
Definition ll_step (t : nat) : res R :=
  if y t is Some z then lmnd ln ln2pi (A1 z) (A1 (mC M t *m (pred M y t).1 + md M t))
                             (A2 (innov_cov M t (pred M y t).2)) else Ok 0.

Lemma p_oc_const t : (t < T)%N -> p_oc p = A2 (mR M t).
Proof.
move=> tT; have := pm_oc (kf_model_params Ho); rewrite -/p => -[[X -> H]|[s [E _ _]]].
  by rewrite H.
exfalso; move: Hc E; rewrite /p /init_value /=; case: (k_oc o) => [[]|] //=.
Qed.

Lemma loglik_step_ok t r : List.nth_error zs t = Some r -> (t < T)%N ->
  loglik_step ln ln2pi p t (frow_of M zs t) r = ll_step t.
Proof.
move=> Hr tT; have Hp := kf_model_params Ho; rewrite /loglik_step /ll_step /y (stream_nth Hr).
have Eoc := p_oc_const tT; rewrite -/p in Hp; move: p Hp Eoc => q Hp Eoc.
case: (missing r) => //=.
rewrite (rep2_last_dims (pm_om Hp) tT) (rep1_last_dims (pm_oo Hp) tT) Eoc.
by move: (pred M _ t) => [a P] /=; np.
Qed.

Lemma loglik_loop_ok t rs : rs = drop t zs ->
  loglik_loop ln ln2pi p t [seq frow_of M zs s | s <- iota t (size rs)] rs =
  mapr ll_step (iota t (size rs)).
Proof.
elim: rs t => [|r rs IH] t Hzs //.
have [Hr Hd] := nth_error_drop (esym Hzs).
have tT : (t < T)%N.
  rewrite -Hsz ltnNge; apply/negP => /drop_oversize; by rewrite -Hzs.
have E1 : [seq frow_of M zs s | s <- iota t (size (r :: rs))] =
   frow_of M zs t :: [seq frow_of M zs s | s <- iota t.+1 (size rs)] by [].
have E2 : iota t (size (r :: rs)) = t :: iota t.+1 (size rs) by [].
rewrite E1 E2 [loglik_loop _ _ _ _ _ _]/= (loglik_step_ok Hr tT) (IH t.+1) //.
Qed.

Lemma kf_loglik_steps : kf_loglikelihood ln ln2pi o (O2 m zs) =
  (ls <-- mapr ll_step (iota 0 T) ;; Ok (\sum_(l <- ls) l)).
Proof.
rewrite /kf_loglikelihood /loglikelihood_with parse_keep //.
rewrite (initialize_parametersE (km_rs Ho)) bindOk -/p.
rewrite (filter_ok (kf_model_params Ho) Hsz) bindOk -Hsz loglik_loop_ok //.
by rewrite drop0.
Qed.
End Steps.

Section Api.
Variables (R : rcfType) (n m : nat) (o : kf R) (T : nat) (M : lgm R n m).
Hypothesis Ho : kf_model o T M.
Hypothesis Hc : const2 (k_oc o).
Variable mis : nat -> bool.
Hypothesis Hk : (T != 1%N) || (m <= 1)%N.
Variables (ln : R -> R) (ln2pi : R).
Hypothesis Hln : multiplicative_log ln.

Lemma loglik_sum (d : nat -> 'cV[R]_m) zs : rows_of T mis d zs ->
  (forall t, (t < T)%N -> ~~ mis t -> pd (innov_cov M t (Pp M mis t))) ->
  kf_loglikelihood ln ln2pi o (O2 m zs) = Ok (\sum_(t < T) step_term M mis ln ln2pi d t).
Proof.
move=> Hd Hpd; have Hsz : size zs = T by case: Hd.
have Hk' : keeps zs by rewrite /keeps Hsz.
rewrite (kf_loglik_steps Ho Hc Hsz Hk').
rewrite (@mapr_all_ok _ _ _ (step_term M mis ln ln2pi d)); last first.
  move=> t /In_mem; rewrite mem_iota leq0n andTb add0n => tT.
  rewrite /ll_step /step_term (stream_rows Hd tT) {1}/ym.
  have E : pred M (stream zs) t = pred M (ym mis d) t.
    by apply: pred_ext => s st; apply: (stream_rows Hd); exact: ltn_trans tT.
  have Hp := Hpd t tT.
  case: (mis t) Hp => // Hp; rewrite E (cov_indep M mis t d (fun _ => 0)).1.
  by apply: lmnd_pd => //; exact: Hp.
rewrite bindOk big_map -(subn0 T) -[iota 0 _]/(index_iota 0 _) big_mkord subn0 //.
Qed.

Lemma stack_ext (d d' : nat -> 'cV[R]_m) t : (forall s, (s < t)%N -> d s = d' s) ->
  stack_obs mis d t = stack_obs mis d' t.
Proof. by elim: t => [|t IH] //= H; rewrite IH ?H // => s st; apply: H; exact: ltnW. Qed.

Lemma loglik_joint (Sp : l2space R) x z w v : @obeys R Sp n m M T x z w v ->
  forall (d : nat -> 'cV[R]_m) zs, rows_of T mis d zs ->
  let Z om := stack_obs mis (fun t => z t om) T in
  pd (cov Z Z) ->
  kf_loglikelihood ln ln2pi o (O2 m zs) =
  Ok (gauss_logpdf ln ln2pi (stack_obs mis d T) (mean Z) (cov Z Z)).
Proof.
move=> Hob d zs Hd Z; have E : SU Hob mis T =1 Z.
  by move=> om; apply: stack_ext => s sT; exact: Z_z.
rewrite -(cov_ext E E) -(mean_ext E) => HP.
rewrite (joint_density ln2pi Hln d (leqnn T) HP); apply: loglik_sum => //.
by move/(joint_pd Hob mis (leqnn T)): HP.
Qed.

(** positive definite observation noise suffices *)
Lemma joint_pd_R (Sp : l2space R) x z w v : @obeys R Sp n m M T x z w v ->
  (forall t, (t < T)%N -> ~~ mis t -> pd (mR M t)) ->
  let Z om := stack_obs mis (fun t => z t om) T in pd (cov Z Z).
Proof.
move=> Hob HR Z; have E : SU Hob mis T =1 Z.
  by move=> om; apply: stack_ext => s sT; exact: Z_z.
rewrite -(cov_ext E E); apply/(joint_pd Hob mis (leqnn T)) => t tT Hm.
apply: pdD; last exact: HR.
by rewrite mulmxA; apply: psd_congr; exact: (Pp_psd (obeys_psd Hob) mis tT).
Qed.
End Api.
