(** The methods shared by KalmanFilter and its square-root variants only depend
    on the means and covariances the filter produces. *)
From Coq Require Import String List.
From mathcomp Require Import all_ssreflect all_algebra.
From Verif Require Import Prelude LinAlg Numpy NumpyFacts Sklearn SklearnFacts Standard Model StandardInit StandardFacts KfSpec KfEm.
From Verif Require Import Sqrt SqrtFacts SqrtSpec.
Import GRing.Theory Num.Theory.

Set Implicit Arguments.
Unset Strict Implicit.
Unset Printing Implicit Defensive.
Local Open Scope ring_scope.

Section Erase.
Variable R : rcfType.

Definition er (r : frow R) : frow R := FRow (f_pm r) (f_pc r) (zeros2 0 0) (f_fm r) (f_fc r).
Definition same_flt (flt flt' : filter_fun R) p k (zs : seq (orow R k)) : Prop :=
  rmap (map er) (flt p k zs) = rmap (map er) (flt' p k zs).

Lemma bind_er U (F : seq (frow R) -> res U) x x' :
  (forall rows, F (map er rows) = F rows) -> rmap (map er) x = rmap (map er) x' -> bind x F = bind x' F.
Proof.
move=> HF; case: x x' => [r|e] [r'|e'] //= [E].
  by rewrite -(HF r) E HF.
by rewrite E.
Qed.

Lemma smooth_er tm n t rows : smooth_loop tm n t (map er rows) = smooth_loop tm n t rows.
Proof.
elim: rows t => [|r [|r' rows] IH] t //.
have := IH t.+1; rewrite [map _ _]/= => E.
rewrite [map _ _]/= [smooth_loop _ _ _ (er r :: _)]/= [RHS]/=.
by move: E; rewrite [smooth_loop _ _ _ (er r' :: _)]/= [smooth_loop _ _ _ (r' :: _)]/= => ->.
Qed.

Lemma loglik_er ln ln2pi (p : kfparams R) k t rows (zs : seq (orow R k)) :
  loglik_loop ln ln2pi p t (map er rows) zs = loglik_loop ln ln2pi p t rows zs.
Proof. by elim: rows t zs => [|r rows IH] t [|z zs] //=; rewrite IH. Qed.

Variables (flt flt' : filter_fun R).

Section One.
Variables (o : kf R) (p : kfparams R) (X : obs R) (k : nat) (zs : seq (orow R k)).
Hypothesis Ho : initialize_parameters o = Ok p.
Hypothesis HX : parse_observations X = existT _ k zs.
Hypothesis H : same_flt flt flt' p zs.

Lemma filter_with_same : filter_with flt o X = filter_with flt' o X.
Proof.
rewrite /filter_with HX Ho !bO; apply: bind_er H => rows.
by rewrite -map_comp.
Qed.
Lemma smooth_with_same : smooth_with flt o X = smooth_with flt' o X.
Proof.
rewrite /smooth_with HX Ho !bO; apply: bind_er H => rows.
by rewrite /smooth_ ; apply: bind_ext => n; rewrite smooth_er.
Qed.
Lemma loglik_with_same ln ln2pi : loglikelihood_with flt ln ln2pi o X = loglikelihood_with flt' ln ln2pi o X.
Proof. by rewrite /loglikelihood_with HX Ho !bO; apply: bind_er H => rows; rewrite loglik_er. Qed.
End One.

Lemma em_iter_same p k (zs : seq (orow R k)) g :
  same_flt flt flt' p zs -> em_iter flt zs g p = em_iter flt' zs g p.
Proof.
rewrite /em_iter => H; apply: bind_er H => rows; apply: bind_ext => n.
by rewrite /smooth_ smooth_er.
Qed.

Lemma em_loop_same k (zs : seq (orow R k)) g N p :
  (forall i, (i < N)%N -> same_flt flt flt' (em_loop flt' zs g i p).1 zs) ->
  em_loop flt zs g N p = em_loop flt' zs g N p.
Proof.
elim: N p => [|N IH] p H //; rewrite [LHS]/= [RHS]/= em_iter_same; last exact: (H 0%N).
case E: (em_iter flt' zs g p) => [p'|] //; apply: IH => i iN.
by have := H i.+1 iN; rewrite [em_loop _ _ _ _.+1 _]/= E.
Qed.

Lemma em_with_same e (o : kf R) X N : seed_ok (k_rs o) -> flt_ok flt' ->
  (forall i, (i < N)%N -> forall k zs, parse_observations X = existT _ k zs ->
     same_flt flt flt' (init_value (em_with flt' (Some e) o X i).1) zs) ->
  em_with flt (Some e) o X N = em_with flt' (Some e) o X N.
Proof.
move=> Hs Hf; rewrite /em_with; case E: (parse_observations X) => [k zs] H.
rewrite (initialize_parametersE Hs) in H *; set p := init_value o in H *.
rewrite em_loop_same // => i iN.
have := H i iN k zs erefl.
have := em_loop_promoted zs e i Hf (init_promoted o) (init_promoted o); rewrite -/p.
by case: (em_loop flt' zs (mk_given p e) i p) => p1 r /= Hp1; rewrite init_set.
Qed.
End Erase.

Section CovIs.
Variable R : rcfType.
Lemma cov_is_tc n m (o : kf R) T (M : lgm R n m) (Q : 'M[R]_n) :
  kf_model o T M -> cov_is (k_tc o) Q -> p_tc (init_value o) = A2 Q.
Proof.
move=> Ho; rewrite /cov_is /init_value /= (km_n Ho); case: (k_tc o) => [X|] /=.
  by case: X.
by move=> ->; rewrite eye2E.
Qed.
Lemma cov_is_oc n m (o : kf R) T (M : lgm R n m) (Rc : 'M[R]_m) :
  kf_model o T M -> cov_is (k_oc o) Rc -> p_oc (init_value o) = A2 Rc.
Proof.
move=> Ho; rewrite /cov_is /init_value /= (km_m Ho); case: (k_oc o) => [X|] /=.
  by case: X.
by move=> ->; rewrite eye2E.
Qed.
End CovIs.
