(** The innovations of the filter are white. *)
From Coq Require Import String List.
From mathcomp Require Import all_ssreflect all_algebra.
From Verif Require Import Prelude Zmod LinAlg Numpy NumpyFacts Sklearn Standard Model StandardFacts SpecL2 L2Facts Lmmse Exists KfOptimal KfInnovSpec Examples.
Import GRing.Theory Num.Theory Order.Theory.

Set Implicit Arguments.
Unset Strict Implicit.
Unset Printing Implicit Defensive.
Local Open Scope ring_scope.

Section Innov.
Variables (R : rcfType) (Sp : l2space R) (n m : nat) (M : lgm R n m) (T : nat).
Variables (x : nat -> Om Sp -> 'cV[R]_n) (z : nat -> Om Sp -> 'cV[R]_m).
Variables (w : nat -> Om Sp -> 'cV[R]_n) (v : nat -> Om Sp -> 'cV[R]_m).
Hypothesis Hob : obeys M T x z w v.
Variables (mis : nat -> bool).
Let xh t om := Xf Hob mis t om.
Let e t om := innovation M (xh^~ om) (z^~ om) t.

Lemma one_stepE t om : one_step M (xh^~ om) t = Xp Hob mis t om.
Proof. by case: t => [|t] //=; rewrite -/(Xf Hob mis t). Qed.
Lemma one_step_covE t : one_step_cov M (Pf M mis) t = Pp M mis t.
Proof. by case: t => [|t] //=; rewrite /Pp /= /predict -/(filt M (y0 R m mis) t) /= -mulmxA. Qed.
Lemma innovE t : (t < T)%N -> e t =1 In Hob mis t.
Proof.
move=> tT om; rewrite /e /innovation one_stepE -(Z_z Hob tT om).
have -> : In Hob mis t om = mC M t *m (X Hob t om - Xp Hob mis t om) + V Hob t om by rewrite -rvsE.
have -> : Z Hob t om = mC M t *m X Hob t om + md M t + V Hob t om by [].
move: (X Hob t om) (Xp Hob mis t om) (V Hob t om) => a b c; mx.
Qed.
Lemma innov_mean t : (t < T)%N -> mean (e t) = 0.
Proof.
move=> tT; have [Hm _ _] := opt_pred Hob mis tT.
by rewrite (mean_ext (innovE tT)) (meanD (rvm _ _) (V Hob t)) (meanM (mC M t)) Hm mV mulmx0 addr0.
Qed.
Lemma innov_cov t : (t < T)%N -> cov (e t) (e t) = mC M t *m Pp M mis t *m (mC M t)^T + mR M t.
Proof.
move=> tT; have [_ _ Hc] := opt_pred Hob mis tT; rewrite -/(Ep Hob mis t) in Hc.
rewrite (cov_ext (innovE tT) (innovE tT)) {1}/In covDl covMl !covDr !covMr Hc cEpV.
by rewrite -(cov_tr (Ep Hob mis t)) cEpV trmx0 mul0mx addr0 add0r cR // mulmxA.
Qed.
Lemma innov_past t s : (t < T)%N -> (s < t)%N -> ~~ mis s -> cov (In Hob mis t) (Z Hob s) = 0.
Proof.
move=> tT st Hs; have [_ Hz _] := opt_pred Hob mis tT.
rewrite (covDl (rvm _ _) (V Hob t)) (covMl (mC M t)) Hz // mulmx0 add0r -(cov_tr (Z Hob s)) cZV ?trmx0 // => E.
by rewrite E ltnn in st.
Qed.
Lemma innov_aff s : ~~ mis s -> aff (fun t => rvf (Z Hob t)) mis s.+1 (rvs (Z Hob s) (rva (rvm (mC M s) (Xp Hob mis s)) (rvc Sp (md M s)))).
Proof.
move=> Hs; apply: affD; first exact: aff_z.
by apply: affM; apply: affD; [apply: affM; apply: affS; exact: affXp|exact: affc].
Qed.
Lemma innov_white t s : (t < T)%N -> (s < t)%N -> ~~ mis s -> cov (e t) (e s) = 0.
Proof.
move=> tT st Hs; have sT := ltn_trans st tT.
rewrite (@cov_ext _ _ _ _ _ (In Hob mis t) _ (rvs (Z Hob s) (rva (rvm (mC M s) (Xp Hob mis s)) (rvc Sp (md M s)))) (innovE tT)).
  apply: (@orth_aff _ _ _ _ M T x z w v Hob mis t _ _ (In Hob mis t)) => [r rt Hr|]; first exact: innov_past.
  have := innov_aff Hs; elim: t st {tT} => // t IH; rewrite ltnS leq_eqVlt => /orP[/eqP->//|st] H.
  by apply: affS; exact: IH.
by move=> om; rewrite /e /innovation one_stepE -(Z_z Hob sT om) [RHS]rvsE.
Qed.
Lemma innov_obs t s : (t < T)%N -> (s < t)%N -> ~~ mis s -> cov (e t) (z s) = 0.
Proof.
move=> tT st Hs; rewrite -(innov_past tT st Hs); apply: cov_ext; first exact: innovE.
by move=> om; rewrite (Z_z Hob (ltn_trans st tT)).
Qed.

Variable zs : Om Sp -> seq (orow R m).
Hypothesis Hd : data_of T z mis zs.
Variable o : kf R.
Hypothesis Ho : kf_model o T M.
Hypothesis Hk : (T != 1%N) || (m <= 1)%N.

Lemma innov_api : exists (xh : nat -> Om Sp -> 'cV[R]_n) (P : nat -> 'M[R]_n),
  let e t om := innovation M (xh^~ om) (z^~ om) t in
  [/\ forall om, kf_filter o (O2 m (zs om)) = Ok [seq (A1 (xh t om), A2 (P t)) | t <- iota 0 T],
      forall t, (t < T)%N -> mean (e t) = 0,
      forall t, (t < T)%N -> cov (e t) (e t) = mC M t *m one_step_cov M P t *m (mC M t)^T + mR M t,
      forall s t, (s < T)%N -> (t < T)%N -> s <> t -> ~~ mis s -> ~~ mis t -> cov (e s) (e t) = 0 &
      forall s t, (t < T)%N -> (s < t)%N -> ~~ mis s -> cov (e t) (z s) = 0].
Proof.
exists (fun t => Xf Hob mis t), (fun t => Pf M mis t) => e'; split.
- move=> om; rewrite (kf_filter_ok Ho (size_data Hd om) Hk); congr Ok.
  apply: iota_map_ext => t /= tT.
  rewrite (@filt_ext _ _ _ M _ (yy Hob mis om)) ?filtE // => s st.
  by apply: (stream_data Hob Hd); apply: leq_ltn_trans tT.
- exact: innov_mean.
- by move=> t tT; rewrite one_step_covE; exact: innov_cov.
- move=> s t sT tT; case: (ltngtP s t) => // st _ Hs Ht; last exact: innov_white.
  by rewrite -cov_tr (innov_white tT st Hs) trmx0.
- by move=> s t; exact: innov_obs.
Qed.
End Innov.
