(** loglikelihood with a stack of observation covariances (C47). *)
From Coq Require Import String List.
From mathcomp Require Import all_ssreflect all_algebra.
From Verif Require Import Prelude Zmod LinAlg Numpy NumpyFacts Sklearn SklearnFacts Standard Model KfSpec StandardInit StandardFacts
  KfStruct SpecL2 L2Facts Lmmse Exists KfOptimal KfModelFacts KfOnline KfEquiv GaussSpec KfLoglik Joint KfJoint KfGlue.
Import GRing.Theory Num.Theory Order.Theory.

Set Implicit Arguments.
Unset Strict Implicit.
Unset Printing Implicit Defensive.
Local Open Scope ring_scope.

Section StackR.
Variables (R : rcfType) (n m : nat) (o : kf R) (T : nat) (M : lgm R n m).
Hypothesis Ho : kf_model o T M.
Variables (zs : seq (orow R m)) (r : orow R m).
Hypothesis Hsz : size zs = T.
Hypothesis Hk : keeps zs.
Variables (ln : R -> R) (ln2pi : R).

Lemma loglik_stack p q (s : seq 'M[R]_(p, q)) : k_oc o = Some (A3 s) ->
  List.nth_error zs 0 = Some r -> missing r = false ->
  kf_loglikelihood ln ln2pi o (O2 m zs) = Err ValueError.
Proof.
move=> Hs Hr Hm; rewrite /kf_loglikelihood /loglikelihood_with parse_keep //.
rewrite (initialize_parametersE (km_rs Ho)) bindOk.
have Hp := kf_model_params Ho.
rewrite (filter_ok Hp Hsz) bindOk.
case: zs Hr Hsz => // r' zs' [->] HT.
have T0 : (0 < T)%N by rewrite -HT.
have -> : [seq frow_of M (r :: zs') t | t <- iota 0 T] =
  frow_of M (r :: zs') 0 :: [seq frow_of M (r :: zs') t | t <- iota 1 (size zs')] by rewrite -HT.
rewrite [loglik_loop _ _ _ _ _ _]/= /loglik_step Hm [~~ _]/=.
rewrite (rep2_last_dims (pm_om Hp) T0) (rep1_last_dims (pm_oo Hp) T0).
have -> : p_oc (init_value o) = A3 s by rewrite /init_value /= Hs.
have [s' [E Es]] : exists s' : seq 'M[R]_m, A3 s = A3 s' /\ (T <= size s')%N.
  have := km_oc Ho; rewrite Hs /= => -[[Y E _]|[s' [E H _]]]; first by discriminate E.
  by exists s'.
rewrite E [f_pm _]/= [f_pc _]/=.
rewrite /=; np.
by rewrite /add /bop !eqxx.
Qed.
End StackR.

Lemma stack_refuted (R : rcfType) n m (o : kf R) T (M : lgm R n m)
    (Ho : kf_model o T M) (zs : seq (orow R m)) (r : orow R m) (Hsz : size zs = T) (Hk : keeps zs)
    (ln : R -> R) (ln2pi : R) p q (s : seq 'M[R]_(p, q)) (Hs : k_oc o = Some (A3 s))
    (Hr : List.nth_error zs 0 = Some r) (Hm : missing r = false) :
  (exists rows, kf_filter o (O2 m zs) = Ok rows) /\
  kf_loglikelihood ln ln2pi o (O2 m zs) = Err ValueError.
Proof.
split; last exact: (loglik_stack Ho Hsz Hk ln ln2pi Hs Hr Hm).
by have [rows [H _ _]] := filter_shapes Ho Hsz Hk; exists rows.
Qed.
Lemma loglik_succeeds (R : rcfType) n m (o : kf R) T (M : lgm R n m)
    (Ho : kf_model o T M) (HM : psd_model M T) (Hc : const2 (k_oc o)) (mis : nat -> bool)
    (HR : forall t, (t < T)%N -> ~~ mis t -> pd (mR M t))
    (Hk : (T != 1%N) || (m <= 1)%N) (ln : R -> R) (ln2pi : R) (Hln : multiplicative_log ln)
    (d : nat -> 'cV[R]_m) zs (Hd : rows_of T mis d zs) :
  exists l, kf_loglikelihood ln ln2pi o (O2 m zs) = Ok l.
Proof.
eexists; apply: (loglik_sum Ho Hc Hk ln2pi Hln Hd) => t tT Hm.
apply: pdD; last exact: HR.
by rewrite mulmxA; apply: psd_congr; exact: (Pp_psd HM mis tT).
Qed.
