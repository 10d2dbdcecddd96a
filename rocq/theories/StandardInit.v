(** Facts about the KalmanFilter model: initialisation. *)
From Coq Require Import String List.
From mathcomp Require Import all_ssreflect all_algebra.
From Verif Require Import Prelude LinAlg Numpy NumpyFacts Sklearn SklearnFacts Standard Model.
Import GRing.Theory Num.Theory.

Set Implicit Arguments.
Unset Strict Implicit.
Unset Printing Implicit Defensive.
Local Open Scope ring_scope.

Section Init.
Variable R : rcfType.
Implicit Types (o : kf R).

Lemma nodup_conv : NoDup (keys (kf_converters R)).
Proof. by repeat (apply: NoDup_cons; first by move=> /=; intuition discriminate); exact: NoDup_nil. Qed.
Lemma nodup_params o : NoDup (keys (get_params o)).
Proof. by repeat (apply: NoDup_cons; first by move=> /=; intuition discriminate); exact: NoDup_nil. Qed.
Lemma nodup_defaults n m : NoDup (keys (kf_defaults R n m)).
Proof. by repeat (apply: NoDup_cons; first by move=> /=; intuition discriminate); exact: NoDup_nil. Qed.

Lemma known_params o : known (kf_converters R) (get_params o).
Proof. by move=> k /=; intuition. Qed.
Lemma known_defaults n m : known (kf_converters R) (kf_defaults R n m).
Proof. by move=> k /=; intuition. Qed.

Lemma omap_some T U (f : T -> U) x v : omap f x = Some v -> exists u, v = f u.
Proof. by case: x => [u|] //= [<-]; exists u. Qed.

Lemma seed_ok_check r : seed_ok r -> exists g, check_random_state r = Ok g.
Proof.
case: r => [[|z|i|]|] //= H; try by eexists.
by rewrite H; eexists.
Qed.

Lemma conv_total_params o : seed_ok (k_rs o) -> conv_total (kf_converters R) (get_params o).
Proof.
move=> Hs k v c; rewrite [get_params]lock /=.
do 12 (case: String.eqb_spec => [->|_]; first by
  rewrite -lock /= => [] [/esym Hv] [<-];
  try (case: (omap_some (esym Hv)) => u ->; by eexists);
  try (rewrite Hv; by eexists);
  move: Hv; case E: (k_rs o) => [r|] //= [->];
  rewrite E in Hs; have [g Hg] := seed_ok_check Hs; rewrite /conv_rs Hg; by eexists).
by [].
Qed.

Lemma conv_total_defaults n m : conv_total (kf_converters R) (kf_defaults R n m).
Proof.
move=> k v c; rewrite [kf_defaults]lock /=.
do 12 (case: String.eqb_spec => [->|_]; first by
  rewrite -lock //= => [] [<-] [<-]; eexists).
by [].
Qed.

Definition init_value o : kfparams R :=
  let n := k_n o in let m := k_m o in
  KFParams (array2d (odflt (eye2 n n) (k_tm o)))
           (array1d (odflt (zeros1 n) (k_to o)))
           (array2d (odflt (eye2 n n) (k_tc o)))
           (array2d (odflt (eye2 m n) (k_om o)))
           (array1d (odflt (zeros1 m) (k_oo o)))
           (array2d (odflt (eye2 m m) (k_oc o)))
           (array1d (odflt (zeros1 n) (k_im o)))
           (array2d (odflt (eye2 n n) (k_ic o))).

Lemma initialize_parametersE o : seed_ok (k_rs o) ->
  initialize_parameters o = Ok (init_value o).
Proof.
move=> Hs; rewrite /initialize_parameters.
set sets := [:: _; _].
have Hsets : forall a, In a sets ->
    [/\ NoDup (keys a), known (kf_converters R) a & conv_total (kf_converters R) a].
  move=> a [<-|[<-|[]]]; split.
  - exact: nodup_params.
  - exact: known_params.
  - exact: conv_total_params.
  - exact: nodup_defaults.
  - exact: known_defaults.
  - exact: conv_total_defaults.
have [|d -> Hd] := preprocess_ok nodup_conv Hsets.
  move=> k Hk; rewrite [kf_converters]lock in Hk; move: Hk; rewrite -lock /=.
  case=> [<-|]; first by case: (k_tm o) => [?|]; eexists.
  case=> [<-|]; first by case: (k_to o) => [?|]; eexists.
  case=> [<-|]; first by case: (k_tc o) => [?|]; eexists.
  case=> [<-|]; first by case: (k_om o) => [?|]; eexists.
  case=> [<-|]; first by case: (k_oo o) => [?|]; eexists.
  case=> [<-|]; first by case: (k_oc o) => [?|]; eexists.
  case=> [<-|]; first by case: (k_im o) => [?|]; eexists.
  case=> [<-|]; first by case: (k_ic o) => [?|]; eexists.
  case=> [<-|]; first by case: (k_rs o) => [?|]; eexists.
  case=> [<-|]; first by eexists.
  case=> [<-|]; first by eexists.
  by case=> [<-|[]]; case: (k_em o) => [?|]; eexists.
have get name (x : option (arr R)) (y : arr R) (f : arr R -> arr R) :
    first_some sets name = Some (PArr (odflt y x)) ->
    (forall a, conv_val (kf_converters R) name (PArr a) = Some (PArr (f a))) ->
    pget d name = Ok (f (odflt y x)).
  by move=> E1 E2; rewrite /pget (Hd _ _ E1) E2.
rewrite /=.
rewrite (get "transition_matrices"%string (k_tm o) (eye2 (k_n o) (k_n o)) (@array2d R)) //=; last by case: (k_tm o).
rewrite (get "transition_offsets"%string (k_to o) (zeros1 (k_n o)) (@array1d R)) //=; last by case: (k_to o).
rewrite (get "transition_covariance"%string (k_tc o) (eye2 (k_n o) (k_n o)) (@array2d R)) //=; last by case: (k_tc o).
rewrite (get "observation_matrices"%string (k_om o) (eye2 (k_m o) (k_n o)) (@array2d R)) //=; last by case: (k_om o).
rewrite (get "observation_offsets"%string (k_oo o) (zeros1 (k_m o)) (@array1d R)) //=; last by case: (k_oo o).
rewrite (get "observation_covariance"%string (k_oc o) (eye2 (k_m o) (k_m o)) (@array2d R)) //=; last by case: (k_oc o).
rewrite (get "initial_state_mean"%string (k_im o) (zeros1 (k_n o)) (@array1d R)) //=; last by case: (k_im o).
rewrite (get "initial_state_covariance"%string (k_ic o) (eye2 (k_n o) (k_n o)) (@array2d R)) //=; last by case: (k_ic o).
Qed.
End Init.

