(** Arrays handed to the constructor are not copied: an example. *)
From Coq Require Import String List.
From mathcomp Require Import all_ssreflect all_algebra.
From Verif Require Import Prelude LinAlg Numpy Sklearn Standard StandardInit Model Rng Client.
From Verif Require Import Heap HeapSpec HeapFacts HeapFilter HeapEm HeapClass
  HeapClient HeapClientSpec HeapClientFacts HeapWrites Examples ExamplesEm.
Import GRing.Theory Num.Theory.

Set Implicit Arguments.
Unset Strict Implicit.
Unset Printing Implicit Defensive.
Local Open Scope ring_scope.

Section Neg.
Variable R : rcfType.

(** an initial state mean and a masked observation *)
Definition ar1 (v : R) : arr R := A1 (const_mx v : 'cV[R]_1).
Definition ex_obs : obs R := @O2 R 1 [:: (0, const_mx true)].
Definition ex_heap (v : R) : heap R := [:: CArr (ar1 v); CObs ex_obs].
Definition ex_args : hargs :=
  HArgs None None None None None None (Some (View 0 VWhole)) None None None None None.
Definition ex_vargs (v : R) : kfargs R :=
  KFArgs None None None None None None (Some (ar1 v)) None None None None None.
Definition ex_obj : hkf :=
  HKF None None None None None None (Some (View 0 VWhole)) None None None 1 1
      (EmNames default_em_vars).
Definition ex_kf (v : R) : kf R :=
  KF None None None None None None (Some (ar1 v)) None None None 1 1 (EmNames default_em_vars).

Lemma ex_init v : kf_init_h ex_args (ex_heap v) = (ex_heap v, Ok ex_obj).
Proof. by []. Qed.
Lemma ex_stands v : stands_for (ex_heap v) ex_obj (ex_kf v).
Proof. by split; split. Qed.

Lemma ex_filter v : exists c, kf_filter (ex_kf v) ex_obs = Ok [:: (ar1 v, c)].
Proof.
rewrite /kf_filter /filter_with initialize_parametersE // /ex_obs.
have -> : parse_observations (@O2 R 1 [:: (0, const_mx true)])
          = existT _ 1%N [:: (0, const_mx true)] by [].
have Hm : missing ((0, const_mx true) : orow R 1) by apply/existsP; exists 0; rewrite mxE.
eexists; rewrite bOk.
rewrite /filter_ /filter_loop /filter_step Hm.
exact: erefl.
Qed.

Lemma ex_filter_h v : exists ab c, (kf_filter_h ex_obj 1 (ex_heap v)).2 = Ok ab /\
  moments_at (ex_heap v) (kf_filter_h ex_obj 1 (ex_heap v)).1 ab [:: (ar1 v, c)].
Proof.
have [c Hc] := ex_filter v.
have Hx : getidx (ex_heap v) 1 = Ok (CObs ex_obs) by [].
have HX : parse_observations ex_obs = existT _ 1%N [:: (0, const_mx true)] by [].
have Hs : seed_ok (k_rs (ex_kf v)) by [].
have [_] := filter_call (ex_stands v) Hs Hx HX; rewrite Hc.
by case: (_.2) => [ab|] // Hm; exists ab, c.
Qed.

(** the user overwrites the array passed as initial_state_mean *)
Lemma not_copied : exists (h : heap R) (a : hargs) (o : hkf) (x : nat) (ad : nat) (c : cell R),
  kf_init_h a h = (h, Ok o) /\
  exists ab ab' : nat * nat,
    [/\ (kf_filter_h o x h).2 = Ok ab, (kf_filter_h o x (overwrite h ad c)).2 = Ok ab',
        getidx (kf_filter_h o x h).1 ab.1 = Ok (CRows [:: A1 (0 : 'cV[R]_1)]) &
        getidx (kf_filter_h o x (overwrite h ad c)).1 ab'.1 = Ok (CRows [:: A1 (const_mx 1 : 'cV[R]_1)])].
Proof.
exists (ex_heap 0), ex_args, ex_obj, 1%N, 0%N, (CArr (ar1 1)); split; first exact: ex_init.
have -> : overwrite (ex_heap 0) 0 (CArr (ar1 1)) = ex_heap 1 by [].
have [ab [c [E [_ _ H _]]]] := ex_filter_h 0; have [ab' [c' [E' [_ _ H' _]]]] := ex_filter_h 1.
by exists ab, ab'; split=> //; rewrite H.
Qed.

(** two objects that share their initial state mean *)
Lemma sharing_met : let h := ex_heap 0 in
  [/\ forall j : nat, stands_for h ex_obj (ex_kf 0), seed_ok (k_rs (ex_kf 0)), refers ex_obj 0,
      ~ refers ex_obj 1 &
      forall (ln : R -> R) (ln2pi : R), same_calls ln ln2pi h (fun=> ex_obj)
        [:: (0%N, HFilter 1); (1%N, HFilter 1)]
        [:: (0%N, CFilter ex_obs); (1%N, CFilter ex_obs)]].
Proof.
move=> h; split=> //.
- by exists (View 0 VWhole) => //=; do 6 right; left.
- by case=> v /= Hv; do 8?[case: Hv => Hv]; move: Hv => // [<-].
move=> ln ln2pi.
have Hx : getidx (ex_heap 0) 1 = Ok (CObs ex_obs) by [].
have HX : parse_observations ex_obs = existT _ 1%N [:: (0, const_mx true)] by [].
have Hs : seed_ok (k_rs (ex_kf 0)) by [].
have [He _] := filter_call (ex_stands 0) Hs Hx HX.
rewrite /same_calls; split=> //.
rewrite /hstep; move: He; case: kf_filter_h => h1 r [tl Ht]; split=> //.
  by move: Ht; rewrite /same_call /= => ->.
by rewrite /= ; case: kf_filter_h.
Qed.
(** em with em_vars="all" on an object whose arrays are in memory *)
Lemma detach_met : exists (h : heap R) o (o' : kf R) x X,
  [/\ stands_for h o o' /\ seed_ok (k_rs o'), getidx h x = Ok (CObs X), em_is_all (EmStr "all"),
      (kf_em_h o x 2 (Some (EmStr "all")) h).2.2 = Ok tt & exists a, refers o a /\ (a < size h)%N].
Proof.
have [Hs [/(_ 2%N (Some (EmStr "all"))) [o1 E] _]] := ex_em_runs R.
have [h [o [x [Ho Hx _ _]]]] := layout (ex_o R) (O2 2 (ex_zs R)).
exists h, o, (ex_o R), x, (O2 2 (ex_zs R)); split=> //.
  by have [_ _] := em_all 2 (Some (EmStr "all")) Ho Hs Hx; rewrite E.
case: Ho => [[H _ _ _] _ _ _]; move: H; rewrite /shows.
case E1: (h_tm o) => [v|] //; rewrite /vread => Hv; exists (v_addr v); split.
  by exists v => //; rewrite E1; left.
by case: (ltnP (v_addr v) (size h)) Hv => // /getidx_oob ->.
Qed.
End Neg.
