(** Calls after the user wrote to an array the object does not refer to. *)
From mathcomp Require Import all_ssreflect all_algebra.
From Verif Require Import Prelude LinAlg Numpy Sklearn Standard Model Rng.
From Verif Require Import Heap HeapSpec HeapFacts HeapFilter HeapEm HeapClass HeapClientFacts.

Set Implicit Arguments.
Unset Strict Implicit.
Unset Printing Implicit Defensive.

Section Writes.
Variable R : rcfType.

Lemma getidx_overwrite (h : heap R) a c x : x <> a -> getidx (overwrite h a c) x = getidx h x.
Proof.
by elim: h a x => [|b h IH] [|a] [|x] //= H; apply: IH => E; apply: H; rewrite E.
Qed.

Lemma filter_all (h : heap R) o (o' : kf R) x X : stands_for h o o' -> seed_ok (k_rs o') ->
  getidx h x = Ok (CObs X) ->
  extends h (kf_filter_h o x h).1 /\
  agree (moments_at h (kf_filter_h o x h).1) (kf_filter_h o x h).2 (kf_filter o' X).
Proof. by move=> Ho Hs Hx; case E: (parse_observations X) => [k zs]; exact: filter_call E. Qed.
Lemma smooth_all (h : heap R) o (o' : kf R) x X : stands_for h o o' -> seed_ok (k_rs o') ->
  getidx h x = Ok (CObs X) ->
  extends h (kf_smooth_h o x h).1 /\
  agree (moments_at h (kf_smooth_h o x h).1) (kf_smooth_h o x h).2 (kf_smooth o' X).
Proof. by move=> Ho Hs Hx; case E: (parse_observations X) => [k zs]; exact: smooth_call E. Qed.
Lemma loglik_all ln ln2pi (h : heap R) o (o' : kf R) x X : stands_for h o o' -> seed_ok (k_rs o') ->
  getidx h x = Ok (CObs X) ->
  extends h (kf_loglikelihood_h ln ln2pi o x h).1 /\
  (kf_loglikelihood_h ln ln2pi o x h).2 = kf_loglikelihood ln ln2pi o' X.
Proof. by move=> Ho Hs Hx; case E: (parse_observations X) => [k zs]; exact: (loglik_call Ho Hs Hx E). Qed.
Lemma em_all (h : heap R) o (o' : kf R) x X n_iter ev : stands_for h o o' -> seed_ok (k_rs o') ->
  getidx h x = Ok (CObs X) ->
  let y := kf_em_h o x n_iter ev h in let y' := kf_em o' X n_iter ev in
  [/\ extends h y.1, stands_for y.1 y.2.1 y'.1 & y.2.2 = y'.2].
Proof. by move=> Ho Hs Hx; case E: (parse_observations X) => [k zs]; exact: (em_call Ho Hs Hx E). Qed.

Lemma update_all (h : heap R) o (o' : kf R)
    fmv fm fcv fc zv z tmv tm tov to tcv tc omv om oov oo ocv oc :
  stands_for h o o' -> seed_ok (k_rs o') ->
  vread h fmv = Ok fm -> vread h fcv = Ok fc -> shows_obs h zv z ->
  [/\ shows h tmv tm, shows h tov to & shows h tcv tc] ->
  [/\ shows h omv om, shows h oov oo & shows h ocv oc] ->
  let y := kf_filter_update_h o fmv fcv zv tmv tov tcv omv oov ocv h in
  extends h y.1 /\ agree (state_at h y.1) y.2 (kf_filter_update o' fm fc z tm to tc om oo oc).
Proof. by move=> Ho Hs H1 H2 H3 H4 H5; exact: (filter_update_call Ho Hs H1 H2 H3 H4 H5). Qed.

Lemma unrelated_filter (h : heap R) o (o' : kf R) x X a c : stands_for h o o' -> seed_ok (k_rs o') ->
  getidx h x = Ok (CObs X) -> ~ refers o a -> x <> a ->
  let h' := overwrite h a c in
  [/\ agree (moments_at h' (kf_filter_h o x h').1) (kf_filter_h o x h').2 (kf_filter o' X),
      agree (moments_at h' (kf_smooth_h o x h').1) (kf_smooth_h o x h').2 (kf_smooth o' X) &
      forall ln ln2pi, (kf_loglikelihood_h ln ln2pi o x h').2 = kf_loglikelihood ln ln2pi o' X].
Proof.
move=> Ho Hs Hx Hr Ha h'.
have Ho' : stands_for h' o o' by exact: (stands_overwrite c Hr Ho).
have Hx' : getidx h' x = Ok (CObs X) by rewrite getidx_overwrite.
split; first by have [] := filter_all Ho' Hs Hx'.
  by have [] := smooth_all Ho' Hs Hx'.
by move=> ln ln2pi; have [] := loglik_all ln ln2pi Ho' Hs Hx'.
Qed.

Lemma em_detaches (h : heap R) o (o' : kf R) x X n_iter ev : stands_for h o o' -> seed_ok (k_rs o') ->
  getidx h x = Ok (CObs X) -> (0 < n_iter)%N -> em_is_all (odflt (h_em_ o) ev) ->
  let y := kf_em_h o x n_iter ev h in let y' := kf_em o' X n_iter ev in
  y.2.2 = Ok tt -> forall a c, (a < size h)%N -> stands_for (overwrite y.1 a c) y.2.1 y'.1.
Proof.
move=> Ho Hs Hx Hn Hall y y' Hok a c Ha; rewrite {}/y {}/y' in Hok *.
case E: (parse_observations X) => [k zs].
have [_ H2 _ H4] := em_call_all Ho Hs Hx E n_iter ev.
apply: stands_overwrite H2 => Hr.
by have := H4 Hn Hok Hall a Hr; rewrite leqNgt Ha.
Qed.

(** every object can be laid out in memory *)
Lemma layout (o' : kf R) (X : obs R) : exists (h : heap R) (o : hkf) (x : nat),
  [/\ stands_for h o o', getidx h x = Ok (CObs X), h_em_ o = k_em_ o' & ~ refers o x].
Proof.
case: o' => tm om tc oc to oo im ic rs em n m em_.
pose c (a : option (arr R)) : cell R := if a is Some x then CArr x else CObs X.
pose r (a : option (arr R)) i := if a is Some _ then Some (View i VWhole) else None.
exists [:: CObs X; c tm; c om; c tc; c oc; c to; c oo; c im; c ic].
exists (HKF (r tm 1) (r om 2) (r tc 3) (r oc 4) (r to 5) (r oo 6) (r im 7) (r ic 8) rs em n m em_), 0.
split=> //.
  by split=> //; split; rewrite /= ; [case: tm|case: om|case: tc|case: oc|case: to|case: oo|case: im|case: ic].
case=> v /= Hv E; move: Hv; rewrite /r.
have N (a : option (arr R)) i : (if a is Some _ then Some (View i.+1 VWhole) else None) = Some v -> False.
  by case: a => [?|] // [] F; rewrite -F in E.
by do 8!(case; first exact: N).
Qed.
End Writes.
