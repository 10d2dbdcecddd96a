(** Property theorems: the unscented classes (C07, C15, C16, C42) and em inside
    call sequences (C20). *)
From Coq Require Import String List.
From mathcomp Require Import all_ssreflect all_algebra.
From Verif Require Import Prelude LinAlg Numpy Sklearn Standard Rng Sample Client Sqrt Unscented SqrtUnscented Model KfSpec UscSpec
  StandardInit KfGlue UscInit UscMain UscPsd UscProps Exists TightSpec TightFacts Examples ExamplesEm ExamplesUsc.
Import GRing.Theory Num.Theory.

Set Implicit Arguments.
Unset Strict Implicit.
Unset Printing Implicit Defensive.
Local Open Scope ring_scope.

(** ** C07: at masked times the observation functions play no role *)
Theorem C07_unscented_missing (R : rcfType) n m T (Q : 'M[R]_n) (Rn : 'M[R]_m) mu0 P0 (zs : seq (orow R m))
    (Hsz : size zs = T) (Hk : keeps zs) (o o' : ukf R) f g g'
    (Ho : aukf_model o T f g Q Rn mu0 P0) (Ho' : aukf_model o' T f g' Q Rn mu0 P0)
    (Hg : forall t r, List.nth_error zs t = Some r -> ~~ missing r -> g t = g' t) :
  aukf_filter o (O2 m zs) = aukf_filter o' (O2 m zs).
Proof. exact: (aukf_masked_obs Hsz Hk Ho Ho' Hg). Qed.
Print Assumptions C07_unscented_missing.

Theorem C07_augmented_missing (R : rcfType) n m T (Q : 'M[R]_n) (Rn : 'M[R]_m) mu0 P0 (zs : seq (orow R m))
    (Hsz : size zs = T) (Hk : keeps zs) (o o' : ukf R) f g g'
    (Ho : ukf_model o T f g Q Rn mu0 P0) (Ho' : ukf_model o' T f g' Q Rn mu0 P0)
    (Hg : forall t r, List.nth_error zs t = Some r -> ~~ missing r -> g t = g' t) :
  ukf_filter o (O2 m zs) = ukf_filter o' (O2 m zs).
Proof. exact: (ukf_masked_obs Hsz Hk Ho Ho' Hg). Qed.
Print Assumptions C07_augmented_missing.

(** two different observation functions at the masked time 1 *)
Example C07_unscented_hypotheses_met (R : rcfType) :
  let g (b : bool) (t : nat) (x : 'cV[R]_2) : 'cV[R]_2 := if b && (t == 1%N) then x + const_mx 1 else x in
  let f (_ : nat) (x : 'cV[R]_2) : 'cV[R]_2 := x in
  [/\ size (ex_zs R) = 3%N /\ keeps (ex_zs R), g true 1%N <> g false 1%N,
      exists o, aukf_model o 3 f (g true) 1%:M 1%:M 0 1%:M, exists o, aukf_model o 3 f (g false) 1%:M 1%:M 0 1%:M &
      forall t r, List.nth_error (ex_zs R) t = Some r -> ~~ missing r -> g true t = g false t].
Proof.
move=> g f; split=> //.
- move=> /(f_equal (fun h : 'cV[R]_2 -> 'cV[R]_2 => h 0 ord0 ord0)); rewrite /g /= !mxE add0r => /eqP; by rewrite oner_eq0.
- by eexists; apply: (@aukf_of_model R 2 2 3 f (g true) 1%:M 1%:M 0 1%:M None).
- by eexists; apply: (@aukf_of_model R 2 2 3 f (g false) 1%:M 1%:M 0 1%:M None).
- by case=> [|[|[|t]]] r //= [<-]; rewrite missing_row.
Qed.

(** ** C15 (unscented classes) *)
Theorem C15_unscented_constructor_succeeds_iff (R : rcfType) (a : ukfargs R) n m :
  (exists o, [/\ ukf_init a = Ok o, o_n o = n & o_m o = m]) <->
  agreed (u_state_claims a) n /\ agreed (u_obs_claims a) m.
Proof. exact: ukf_init_iff. Qed.
Print Assumptions C15_unscented_constructor_succeeds_iff.

Theorem C15_unscented_constructor_error (R : rcfType) (a : ukfargs R)
    (Ha : forall n m, ~ (agreed (u_state_claims a) n /\ agreed (u_obs_claims a) m)) :
  ukf_init a = Err ValueError.
Proof. exact: (ukf_init_error Ha). Qed.
Print Assumptions C15_unscented_constructor_error.

Theorem C15_unscented_constructor_keeps_arguments (R : rcfType) (a : ukfargs R) o (Ha : ukf_init a = Ok o) :
  [/\ (o_f o, o_g o) = (b_f a, b_g a), (o_tc o, o_oc o) = (b_tc a, b_oc a),
      (o_im o, o_ic o) = (b_im a, b_ic a) & o_rs o = b_rs a].
Proof. exact: (ukf_init_attrs Ha). Qed.
Print Assumptions C15_unscented_constructor_keeps_arguments.

(** two states from the initial mean, and a clash with a scalar covariance *)
Example C15_unscented_hypotheses_met (R : rcfType) :
  let a c := UKFArgs None None c None (Some (A1 (0 : 'cV[R]_2))) None None (Some 3%N) None in
  (exists o, [/\ ukf_init (a None) = Ok o, o_n o = 2%N & o_m o = 3%N]) /\
  forall n m, ~ (agreed (u_state_claims (a (Some (A0 1)))) n /\ agreed (u_obs_claims (a (Some (A0 1)))) m).
Proof.
move=> a; split; first by eexists; split.
move=> n m [[H _] _]; have E1 := H 1%N erefl; by have := H 2%N erefl; rewrite -E1.
Qed.

(** ** C16 (unscented classes): writing the defaults out changes nothing *)
Theorem C16_unscented_defaults (R : rcfType) (qr : qr_fun R) (o : ukf R) (Hs : seed_ok (o_rs o)) X :
  let o1 := spelled_out (@ident R) o in let o2 := spelled_out (@plus R) o in
  [/\ aukf_filter o1 X = aukf_filter o X /\ aukf_smooth o1 X = aukf_smooth o X,
      ukf_filter o2 X = ukf_filter o X /\ ukf_smooth o2 X = ukf_smooth o X &
      sukf_filter qr o1 X = sukf_filter qr o X /\ sukf_smooth qr o1 X = sukf_smooth qr o X].
Proof. exact: And3 (spelled_aukf Hs X) (spelled_ukf Hs X) (spelled_sukf Hs qr X). Qed.
Print Assumptions C16_unscented_defaults.

Theorem C16_unscented_defaults_update (R : rcfType) (qr : qr_fun R) (o : ukf R) (Hs : seed_ok (o_rs o)) fm fc z f tc g oc :
  [/\ aukf_filter_update (spelled_out (@ident R) o) fm fc z f tc g oc = aukf_filter_update o fm fc z f tc g oc,
      ukf_filter_update (spelled_out (@plus R) o) fm fc z f tc g oc = ukf_filter_update o fm fc z f tc g oc &
      sukf_filter_update qr (spelled_out (@ident R) o) fm fc z f tc g oc = sukf_filter_update qr o fm fc z f tc g oc].
Proof.
exact: And3 (spelled_aukf_update Hs fm fc z f tc g oc) (spelled_ukf_update Hs fm fc z f tc g oc)
  (spelled_sukf_update Hs qr fm fc z f tc g oc).
Qed.
Print Assumptions C16_unscented_defaults_update.

Theorem C16_unscented_defaults_sample (R : rcfType) G (rl : rng_lib R G) (o : ukf R) (Hs : seed_ok (o_rs o)) T x0 rs w :
  aukf_sample rl (spelled_out (@ident R) o) T x0 rs w = aukf_sample rl o T x0 rs w /\
  ukf_sample rl (spelled_out (@plus R) o) T x0 rs w = ukf_sample rl o T x0 rs w.
Proof. exact: (spelled_sample Hs rl T x0 rs w). Qed.
Print Assumptions C16_unscented_defaults_sample.

(** an object with nothing given *)
Example C16_unscented_hypotheses_met (R : rcfType) :
  let o : ukf R := UKF None None None None None None 2 2 None in
  seed_ok (o_rs o) /\ exists rows, aukf_filter o (O2 2 (ex_zs R)) = Ok rows.
Proof.
move=> o; split=> //.
have HM : aukf_model o 3 (fun=> id) (fun=> id) (1%:M : 'M[R]_2) (1%:M : 'M[R]_2) 0 1%:M by split; try exact: erefl.
have [x [s [H _ _]]] := aukf_pd HM isT (pd1 _ _) (pd1 _ _) (pd1 _ _) (erefl : size (ex_zs R) = 3%N) erefl.
by eexists; exact: H.
Qed.

(** ** C20 in a call sequence *)
Theorem C20_in_call_sequences (R : rcfType) G (rl : rng_lib R G) ln ln2pi (o : kf R) w X a b ev o1 (Hs : seed_ok (k_rs o))
    (E : kf_em o X a ev = (o1, Ok tt)) :
  (run rl ln ln2pi (o, w) [:: CEm X a ev; CEm X b ev]).1 = (run rl ln ln2pi (o, w) [:: CEm X (a + b) ev]).1 /\
  (run rl ln ln2pi (o, w) [:: CEm X a ev]).1 = (o1, w).
Proof. exact: (run_em_both rl ln ln2pi w b Hs E). Qed.
Print Assumptions C20_in_call_sequences.

(** ** C42: the smoothers use function [t] for the step from [t] to [t + 1] *)
Theorem C42_two_dimensional_arrays_smooth_partial (R : rcfType) n m (o : ukf R) T f g (Q : 'M[R]_n) (Rn : 'M[R]_m) mu0 P0 zs
    (HM : aukf_model o T f g Q Rn mu0 P0) (Hsz : size zs = T) (Hk : keeps zs) (x : nat -> 'cV[R]_n * 'M[R]_n)
    (T0 : (0 < T)%N) (Hx : forall t, (t < T)%N -> add_filt Q Rn mu0 P0 f g (stream zs) t = Some (x t)) :
  aukf_smooth o (O2 m zs) = mapr (fun t => lift_o (ubacks (add_back1 Q f) x (T.-1 - t) t)) (iota 0 T).
Proof. exact: (aukf_smoothE HM Hsz Hk T0 Hx). Qed.
Print Assumptions C42_two_dimensional_arrays_smooth_partial.

Theorem C42_two_dimensional_arrays_smooth_augmented_partial (R : rcfType) n m (o : ukf R) T f g (Q : 'M[R]_n) (Rn : 'M[R]_m) mu0 P0 zs
    (HM : ukf_model o T f g Q Rn mu0 P0) (Hsz : size zs = T) (Hk : keeps zs) (x : nat -> 'cV[R]_n * 'M[R]_n)
    (T0 : (0 < T)%N) (Hx : forall t, (t < T)%N -> aug_filt Q Rn mu0 P0 f g (stream zs) t = Some (x t)) :
  ukf_smooth o (O2 m zs) = mapr (fun t => lift_o (ubacks (aug_back1 Q f) x (T.-1 - t) t)) (iota 0 T).
Proof. exact: (ukf_smoothE HM Hsz Hk T0 Hx). Qed.
Print Assumptions C42_two_dimensional_arrays_smooth_augmented_partial.

Example C42_smooth_hypotheses_met (R : rcfType) :
  aukf_model (sq_o R) 3 (sq_f (R:=R)) (sq_g (R:=R)) 1%:M 1%:M (e0 R) (proj R + 1%:M) /\
  exists x, forall t, (t < 3)%N -> add_filt 1%:M 1%:M (e0 R) (proj R + 1%:M) (sq_f (R:=R)) (sq_g (R:=R)) (stream (sq_zs R)) t = Some (x t).
Proof.
split; first exact: sq_model.
pose F := add_filt 1%:M 1%:M (e0 R) (proj R + 1%:M) (sq_f (R:=R)) (sq_g (R:=R)) (stream (sq_zs R)).
exists (fun t => odflt (0, 0) (F t)) => t _; rewrite /F.
by have [s -> _] := add_filt_pd (e0 R) (sq_f (R:=R)) (sq_g (R:=R)) isT (pd1 _ _) (pd1 _ _) (pp_pd R) (stream (sq_zs R)) t.
Qed.
