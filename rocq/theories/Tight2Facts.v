(** filter_update of the unscented classes: arguments and attributes; em after a
    failure; generators in call sequences. *)
From Coq Require Import String List.
From mathcomp Require Import all_ssreflect all_algebra.
From Verif Require Import Prelude LinAlg Numpy NumpyFacts Sklearn Standard Rng Sample Client Sqrt Unscented SqrtUnscented Model KfSpec
  UscSpec StandardInit KfGlue UscInit SampleFacts ExamplesUsc Unscented Tight2Spec.
Import GRing.Theory Num.Theory.

Set Implicit Arguments.
Unset Strict Implicit.
Unset Printing Implicit Defensive.
Local Open Scope ring_scope.

Section Upd.
Variables (R : rcfType) (o : ukf R).
Hypothesis Hs : seed_ok (o_rs o).

Lemma default_refuses fs dflt : not_single fs -> default_function None (farray1d (odflt (F0 dflt) fs)) = Err AssertionError :> res (pyfun R).
Proof. by case: fs => [[h|[|h [|h' l]]|[|r [|r' l]]]|]. Qed.
Lemma default_or f (fs : option (fcont R)) dflt : (exists h, default_function f (farray1d (odflt (F0 dflt) fs)) = Ok h) \/
  exists e, default_function f (farray1d (odflt (F0 dflt) fs)) = Err e /\ (f = None /\ not_single fs -> e = AssertionError).
Proof.
case: f => [h|]; first by left; exists h.
case: fs => [[h|[|h [|h' l]]|[|r [|r' l]]]|] /=; try by [left; eexists|right; eexists; split].
by right; eexists; split; first by []; case=> _ [].
Qed.

Lemma refuses_two dflt (K : uparams R -> pyfun R -> pyfun R -> res (moments R)) f g :
  (f = None /\ not_single (o_f o)) \/ [/\ g = None, not_single (o_g o) & ~ (f = None /\ exists r, o_f o = Some (F2 [:: r]))] ->
  (p <-- uinitialize dflt o ;; ft <-- default_function f (u_f p) ;; gt <-- default_function g (u_g p) ;; K p ft gt) = Err AssertionError.
Proof.
rewrite uinitializeE //= => [[[-> /(default_refuses dflt) E]|[-> /(default_refuses dflt) E N]]]; first by rewrite E.
move: E; set d := default_function None (farray1d (odflt _ (o_g o))) => E.
case: f N => [f|] N /=; first by rewrite E.
by case: (o_f o) N => [[h|[|h [|h' l]]|[|r [|r' l]]]|] N //=; rewrite ?E //; case: N; split=> //; exists r.
Qed.
Lemma ukf_refuses : refuses (@ukf_filter_update R) o.
Proof. by move=> fm fc z f tc g oc H; exact: refuses_two. Qed.
Lemma aukf_refuses : refuses (@aukf_filter_update R) o.
Proof. by move=> fm fc z f tc g oc H; exact: refuses_two. Qed.
Lemma sukf_refuses qr : refuses (@sukf_filter_update R qr) o.
Proof. by move=> fm fc z f tc g oc H; exact: refuses_two. Qed.

Lemma arg_over (x y : option (arr R)) d : nd_ok 2 x ->
  arg_or_default x (array2d (odflt d y)) 2 = arg_or_default None (array2d (odflt d (if x is Some a then Some a else y))) 2.
Proof. by case: x => [[]|]. Qed.
Lemma fun_over (x : option (pyfun R)) y d : default_function x (farray1d (odflt d y)) =
  default_function None (farray1d (odflt d (if x is Some h then Some (F0 h) else y))).
Proof. by case: x. Qed.
Lemma wins_gen dflt (K : pyfun R -> pyfun R -> arr R -> arr R -> res (moments R)) f tc g oc : nd_ok 2 tc -> nd_ok 2 oc ->
  (p <-- uinitialize dflt o ;; ft <-- default_function f (u_f p) ;; gt <-- default_function g (u_g p) ;;
   Q <-- arg_or_default tc (u_tc p) 2 ;; Rc <-- arg_or_default oc (u_oc p) 2 ;; K ft gt Q Rc) =
  (p <-- uinitialize dflt (with_uargs o f tc g oc) ;; ft <-- default_function None (u_f p) ;; gt <-- default_function None (u_g p) ;;
   Q <-- arg_or_default None (u_tc p) 2 ;; Rc <-- arg_or_default None (u_oc p) 2 ;; K ft gt Q Rc).
Proof.
move=> H1 H2; rewrite (@uinitializeE R dflt o Hs) (@uinitializeE R dflt (with_uargs o f tc g oc) Hs) /bind.
cbn [u_f u_g u_tc u_oc uinit_value o_f o_g o_tc o_oc o_n o_m with_uargs].
by rewrite (fun_over f) (fun_over g) (arg_over _ _ H1) (arg_over _ _ H2).
Qed.
Lemma ukf_wins : wins (@ukf_filter_update R) o.
Proof. by move=> fm fc z f tc g oc H1 H2; exact: (wins_gen _ (fun ft gt Q Rc => _)). Qed.
Lemma aukf_wins : wins (@aukf_filter_update R) o.
Proof. by move=> fm fc z f tc g oc H1 H2; exact: (wins_gen _ (fun ft gt Q Rc => _)). Qed.
Lemma sukf_wins qr : wins (@sukf_filter_update R qr) o.
Proof. by move=> fm fc z f tc g oc H1 H2; exact: (wins_gen _ (fun ft gt Q Rc => _)). Qed.
End Upd.

(** ** em after a failure *)
Lemma em_resumes (R : rcfType) (o : kf R) X N ev o' e : seed_ok (k_rs o) -> kf_em o X N ev = (o', Err e) ->
  (forall b, (0 < b)%N -> kf_em o' X b ev = (o', Err e)) /\ (forall q, attribute o' q = Some (initial_value o' q)).
Proof.
move=> Hs E; have [i [_ E1 E2]] := kf_em_fail Hs E.
have Hs' : seed_ok (k_rs o') by have [_ _ _ _ H] := kf_em_other o X i ev; rewrite E1 /= in H; rewrite H.
split=> [[//|b] _|q].
  by rewrite (kf_em_compose _ Hs E1) -addSnnS; exact: kf_em_stuck.
have := kf_em_compose 0 Hs E1; rewrite addn0 E1 => E0.
by have [_ H] := kf_em_zero X ev Hs'; rewrite -H E0.
Qed.

(** ** generators in call sequences *)
Section Gen.
Variables (R : rcfType) (G : Type) (rl : rng_lib R G) (ln : R -> R) (ln2pi : R).
Lemma run_generators cs (o : kf R) w : ~~ has (@changes R) cs ->
  (run rl ln ln2pi (o, w) cs).1 =
  (o, foldl (fun w c => if c is CSample T x0 rs then (kf_sample rl o T x0 rs w).1 else w) w cs).
Proof.
elim: cs w => [|c cs IH] w //=; rewrite negb_or => /andP[Hc /IH {}IH].
case: c Hc => //= [X|X|X|a b z tm to tc om oo oc|T x0 rs] _.
1-4: by rewrite -(IH w); case: (run _ _ _ _ _) => [[? ?] ?].
case E: (kf_sample _ _ _ _ _ _) => [w' r] /=.
by rewrite -(IH w'); case: (run _ _ _ _ _) => [[? ?] ?].
Qed.
End Gen.

Section Examples.
Variable R : rcfType.
Lemma several_met : [/\ seed_ok (o_rs (sq_o R)), not_single (o_f (sq_o R)) & not_single (o_g (sq_o R))].
Proof. by split. Qed.
Lemma history_met : ~~ has (@changes R) [:: CSample 3 None None; CFilter (O2 2 [::]); CSample 2 None (Some (RsSeed 7))].
Proof. by []. Qed.
End Examples.
