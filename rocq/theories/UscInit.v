(** Initialisation of the unscented classes. *)
From Coq Require Import String List.
From mathcomp Require Import all_ssreflect all_algebra.
From Verif Require Import Prelude LinAlg Numpy NumpyFacts Sklearn SklearnFacts Standard Model StandardInit Rng Unscented.
Import GRing.Theory Num.Theory.

Set Implicit Arguments.
Unset Strict Implicit.
Unset Printing Implicit Defensive.
Local Open Scope ring_scope.

Section Init.
Variable R : rcfType.
Implicit Types (o : ukf R).

Lemma unodup_conv : NoDup (keys (uconverters R)).
Proof. by repeat (apply: NoDup_cons; first by move=> /=; intuition discriminate); exact: NoDup_nil. Qed.
Lemma unodup_params o : NoDup (keys (uget_params o)).
Proof. by repeat (apply: NoDup_cons; first by move=> /=; intuition discriminate); exact: NoDup_nil. Qed.
Lemma unodup_defaults f n m : NoDup (keys (@udefaults R f n m)).
Proof. by repeat (apply: NoDup_cons; first by move=> /=; intuition discriminate); exact: NoDup_nil. Qed.
Lemma uknown_params o : known (uconverters R) (uget_params o).
Proof. by move=> k /=; intuition. Qed.
Lemma uknown_defaults f n m : known (uconverters R) (udefaults f n m).
Proof. by move=> k /=; intuition. Qed.

Lemma uconv_total_params o : seed_ok (o_rs o) -> conv_total (uconverters R) (uget_params o).
Proof.
move=> Hs k v c; rewrite [uget_params]lock /=.
do 9 (case: String.eqb_spec => [->|_]; first by
  rewrite -lock /= => [] [/esym Hv] [<-];
  try (case: (omap_some (esym Hv)) => u ->; by eexists);
  try (rewrite Hv; by eexists);
  move: Hv; case E: (o_rs o) => [r|] //= [->];
  rewrite E in Hs; have [g Hg] := seed_ok_check Hs; rewrite /uconv_rs Hg; by eexists).
by [].
Qed.
Lemma uconv_total_defaults f n m : conv_total (uconverters R) (udefaults f n m).
Proof.
move=> k v c; rewrite [udefaults]lock /=.
do 9 (case: String.eqb_spec => [->|_]; first by
  rewrite -lock //= => [] [<-] [<-]; eexists).
by [].
Qed.

Definition uinit_value (dflt : pyfun R) o : uparams R :=
  let n := o_n o in let m := o_m o in
  UParams (farray1d (odflt (F0 dflt) (o_f o))) (farray1d (odflt (F0 dflt) (o_g o)))
    (array2d (odflt (eye2 n n) (o_tc o))) (array2d (odflt (eye2 m m) (o_oc o)))
    (array1d (odflt (zeros1 n) (o_im o))) (array2d (odflt (eye2 n n) (o_ic o))).

Lemma uinitializeE dflt o : seed_ok (o_rs o) -> uinitialize dflt o = Ok (uinit_value dflt o).
Proof.
move=> Hs; rewrite /uinitialize.
set sets := [:: _; _].
have Hsets : forall a, In a sets ->
    [/\ NoDup (keys a), known (uconverters R) a & conv_total (uconverters R) a].
  move=> a [<-|[<-|[]]]; split.
  - exact: unodup_params.
  - exact: uknown_params.
  - exact: uconv_total_params.
  - exact: unodup_defaults.
  - exact: uknown_defaults.
  - exact: uconv_total_defaults.
have [|d -> Hd] := preprocess_ok unodup_conv Hsets.
  move=> k Hk; rewrite [uconverters]lock in Hk; move: Hk; rewrite -lock /=.
  case=> [<-|]; first by case: (o_f o) => [?|]; eexists.
  case=> [<-|]; first by case: (o_g o) => [?|]; eexists.
  case=> [<-|]; first by case: (o_tc o) => [?|]; eexists.
  case=> [<-|]; first by case: (o_oc o) => [?|]; eexists.
  case=> [<-|]; first by case: (o_im o) => [?|]; eexists.
  case=> [<-|]; first by case: (o_ic o) => [?|]; eexists.
  case=> [<-|]; first by eexists.
  case=> [<-|]; first by eexists.
  by case=> [<-|[]]; case: (o_rs o) => [?|]; eexists.
have get name (x : option (arr R)) (y : arr R) (f : arr R -> arr R) :
    first_some sets name = Some (UArr (odflt y x)) ->
    (forall a, conv_val (uconverters R) name (UArr a) = Some (UArr (f a))) ->
    uget_arr d name = Ok (f (odflt y x)).
  by move=> E1 E2; rewrite /uget_arr (Hd _ _ E1) E2.
have getf name (x : option (fcont R)) (y : fcont R) :
    first_some sets name = Some (UFun (odflt y x)) ->
    (forall a, conv_val (uconverters R) name (UFun a) = Some (UFun (farray1d a))) ->
    uget_fun d name = Ok (farray1d (odflt y x)).
  by move=> E1 E2; rewrite /uget_fun (Hd _ _ E1) E2.
rewrite /=.
rewrite (getf "transition_functions"%string (o_f o) (F0 dflt)) //=; last by case: (o_f o).
rewrite (getf "observation_functions"%string (o_g o) (F0 dflt)) //=; last by case: (o_g o).
rewrite (get "transition_covariance"%string (o_tc o) (eye2 (o_n o) (o_n o)) (@array2d R)) //=; last by case: (o_tc o).
rewrite (get "observation_covariance"%string (o_oc o) (eye2 (o_m o) (o_m o)) (@array2d R)) //=; last by case: (o_oc o).
rewrite (get "initial_state_mean"%string (o_im o) (zeros1 (o_n o)) (@array1d R)) //=; last by case: (o_im o).
rewrite (get "initial_state_covariance"%string (o_ic o) (eye2 (o_n o) (o_n o)) (@array2d R)) //=; last by case: (o_ic o).
Qed.
End Init.
