(** Several objects in one memory behave like separate objects. *)
From mathcomp Require Import all_ssreflect all_algebra.
From Verif Require Import Prelude LinAlg Numpy Sklearn Standard StandardInit Model Rng Sample Client.
From Verif Require Import Heap HeapSpec HeapFacts HeapFilter HeapEm HeapClass HeapClient HeapClientSpec.

Set Implicit Arguments.
Unset Strict Implicit.
Unset Printing Implicit Defensive.

Section Overwrite.
Variable R : rcfType.
Lemma stands_overwrite (h : heap R) a c o (o' : kf R) : ~ refers o a ->
  stands_for h o o' -> stands_for (overwrite h a c) o o'.
Proof.
move=> Hr [[? ? ? ?] [? ? ? ?] ? ?].
have Hn v : List.In (Some v) [:: h_tm o; h_om o; h_tc o; h_oc o; h_to o; h_oo o; h_im o; h_ic o] ->
    v_addr v <> a by move=> Hv E; apply: Hr; exists v.
split=> //; split; apply: shows_overwrite => // u E; apply: Hn; rewrite /= E; tauto.
Qed.
End Overwrite.

Section Facts.
Variables (R : rcfType) (ln : R -> R) (ln2pi : R) (G : Type) (rl : rng_lib R G).
Implicit Types (h : heap R).

Lemma stands_ext h h' o (o' : kf R) : extends h h' -> stands_for h o o' -> stands_for h' o o'.
Proof.
move=> He [[? ? ? ?] [? ? ? ?] ? ?].
by split=> //; split; exact: shows_ext He _.
Qed.
Lemma moments_ext h0 h h' ab rows : extends h h' -> moments_at h0 h ab rows -> moments_at h0 h' ab rows.
Proof. by move=> He [? ? ? ?]; split=> //; exact: getidx_ext He _. Qed.
Lemma moments_nil h0 h ab rows : moments_at h0 h ab rows -> moments_at [::] h ab rows.
Proof. by move=> [? ? ? ?]; split. Qed.
Lemma state_ext h0 h h' ab r : extends h h' -> state_at h0 h ab r -> state_at h0 h' ab r.
Proof. by move=> He [? ? ? ?]; split=> //; exact: vread_ext He _. Qed.
Lemma state_nil h0 h ab r : state_at h0 h ab r -> state_at [::] h ab r.
Proof. by move=> [? ? ? ?]; split. Qed.
Lemma agree_impl A B (K K' : A -> B -> Prop) x y :
  (forall a b, K a b -> K' a b) -> agree K x y -> agree K' x y.
Proof. by move=> H; case: x y => [a|e] [b|e'] //=; exact: H. Qed.
Lemma same_reply_ext h h' r (r' : reply R) : extends h h' -> same_reply h r r' -> same_reply h' r r'.
Proof.
move=> He; case: r r' => [r|r|r|r] [r'|r'|r'|r'|r'] //=; apply: agree_impl => a b.
- exact: moments_ext.
- exact: state_ext.
Qed.

Lemma em_rs (o : kf R) X n ev : k_rs (kf_em o X n ev).1 = k_rs o.
Proof.
rewrite /kf_em /em_with; case: parse_observations => k zs.
by case: initialize_parameters => // p; case: ev => [e|]; case: em_loop.
Qed.

Lemma hstep_sim h o (o' : kf R) c c' w : stands_for h o o' -> seed_ok (k_rs o') -> same_call h c c' ->
  let y := hstep ln ln2pi h o c in let y' := step rl ln ln2pi (o', w) c' in
  [/\ extends h y.1.1, stands_for y.1.1 y.1.2 y'.1.1, same_reply y.1.1 y.2 y'.2,
      seed_ok (k_rs y'.1.1) & y'.1.2 = w].
Proof.
move=> Ho Hs; case: c c' => [x|x|x|m c z tm to tc om oo oc|x n ev]
  [X|X|X|m' c' z' tm' to' tc' om' oo' oc'|T x0 rs|X n' ev'|o2] //= Hc.
- case E: (parse_observations X) => [k zs].
  have [H1 H2] := filter_call Ho Hs Hc E; move: H1 H2.
  case: (kf_filter_h o x h) => h' r /= H1 H2; split=> //; first exact: stands_ext H1 Ho.
  by apply: agree_impl H2; exact: moments_nil.
- case E: (parse_observations X) => [k zs].
  have [H1 H2] := smooth_call Ho Hs Hc E; move: H1 H2.
  case: (kf_smooth_h o x h) => h' r /= H1 H2; split=> //; first exact: stands_ext H1 Ho.
  by apply: agree_impl H2; exact: moments_nil.
- case E: (parse_observations X) => [k zs].
  have [H1 H2] := loglik_call Ho Hs Hc E ln ln2pi; move: H1 H2.
  by case: (kf_loglikelihood_h ln ln2pi o x h) => h' r /= H1 H2; split=> //; exact: stands_ext H1 Ho.
- move: Hc => [[H1 H2 H3] H4 H5].
  have [] := filter_update_call Ho Hs H1 H2 H3 H4 H5.
  case: kf_filter_update_h => h' r /= H6 H7; split=> //; first exact: stands_ext H6 Ho.
  by apply: agree_impl H7; exact: state_nil.
- move: Hc => [Hx <- <-].
  case E: (parse_observations X) => [k zs].
  have [] := em_call Ho Hs Hx E n ev.
  have := em_rs o' X n ev.
  case: kf_em => o2 r2; case: kf_em_h => h' [o1 r1] /= Er H1 H2 H3; split=> //.
  by rewrite Er.
Qed.

Lemma of_object_eq T i (x : T) s : of_object i ((i, x) :: s) = x :: of_object i s.
Proof. by rewrite /of_object /= eqxx. Qed.
Lemma of_object_neq T i j (x : T) s : j != i -> of_object i ((j, x) :: s) = of_object i s.
Proof. by rewrite /of_object /= => /negbTE ->. Qed.
Lemma run_cons s c cs : run rl ln ln2pi s (c :: cs) =
  let '(s', r) := step rl ln ln2pi s c in let '(s'', rs) := run rl ln ln2pi s' cs in (s'', r :: rs).
Proof. by []. Qed.
Lemma hrun_cons h os i c cs : hrun ln ln2pi h os ((i, c) :: cs) =
      let '(h1, o1, r) := hstep ln ln2pi h (os i) c in
      let '(h2, os2, rs) := hrun ln ln2pi h1 (fun j => if j == i then o1 else os j) cs in
      (h2, os2, (i, r) :: rs).
Proof. by []. Qed.

Lemma hrun_sim i cs cs' h (os : nat -> hkf) (os' : nat -> kf R) w :
  (forall j, stands_for h (os j) (os' j)) -> (forall j, seed_ok (k_rs (os' j))) ->
  same_calls ln ln2pi h os cs cs' ->
  let y := hrun ln ln2pi h os cs in
  let y' := run rl ln ln2pi (os' i, w) (of_object i cs') in
  [/\ extends h y.1.1, stands_for y.1.1 (y.1.2 i) y'.1.1 &
      pairwise (same_reply y.1.1) (of_object i y.2) y'.2].
Proof.
elim: cs cs' h os os' => [|[j c] cs IH] [|[j' c'] cs'] h os os' Ho Hs // Hcc y y'.
  rewrite {}/y {}/y' /=; split=> //.
  by exists [::]; rewrite cats0.
rewrite {}/y {}/y'.
case: Hcc => <- Hc Hcs0; move: Hcs0.
rewrite hrun_cons.
have := hstep_sim w (Ho j) (Hs j) Hc.
case: hstep => [[h1 o1] r]; case E: (step _ _ _ _ _) => [[o1' w1] r'] [He Ho1 Hr Hs1 Ew] Hcs.
change (extends h h1) in He; change (stands_for h1 o1 o1') in Ho1.
change (same_reply h1 r r') in Hr; change (seed_ok (k_rs o1')) in Hs1; change (w1 = w) in Ew.
subst w1.
set os1 := fun j0 => if j0 == j then o1 else os j0.
set os1' := fun j0 => if j0 == j then o1' else os' j0.
have Ho' j0 : stands_for h1 (os1 j0) (os1' j0).
  by rewrite /os1 /os1'; case: (j0 == j) => //; exact: stands_ext He (Ho j0).
have Hs' j0 : seed_ok (k_rs (os1' j0)) by rewrite /os1'; case: (j0 == j).
have := IH cs' h1 os1 os1' Ho' Hs' Hcs.
case: (hrun ln ln2pi h1 os1 cs) => [[h2 os2] rs] [He2 H2 H3].
have He02 : extends h h2 by exact: extends_trans He He2.
case: (eqVneq j i) => [Eji|Nji]; last first.
  have Ei : os1' i = os' i by rewrite /os1' eq_sym (negbTE Nji).
  by rewrite Ei in H2 H3; rewrite !of_object_neq.
subst j.
have Ei : os1' i = o1' by rewrite /os1' eqxx.
rewrite Ei in H2 H3; rewrite !of_object_eq run_cons E.
move: H2 H3; case: run => [[o2 w2] rs2] H2 H3.
by split=> //; split=> //; exact: same_reply_ext He2 Hr.
Qed.
End Facts.
