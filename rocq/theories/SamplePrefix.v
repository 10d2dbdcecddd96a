(** A shorter sample is the beginning of a longer one. *)
From Coq Require Import String List.
From mathcomp Require Import all_ssreflect all_algebra.
From Verif Require Import Prelude LinAlg Numpy Sklearn Standard Rng Sample SampleSpec Unscented.
Import GRing.Theory Num.Theory.

Set Implicit Arguments.
Unset Strict Implicit.
Unset Printing Implicit Defensive.
Local Open Scope ring_scope.

Section Prefix.
Variables (R : rcfType) (G : Type) (rl : rng_lib R G).

Lemma rbind_ok U V (x : rnd G U) (k : U -> rnd G V) g v : (rbind x k g).2 = Ok v ->
  exists g' u, x g = (g', Ok u) /\ (k u g').2 = Ok v.
Proof. by rewrite /rbind; case: (x g) => g' [u|e] //= H; exists g', u. Qed.
Lemma rbind_run U V (x : rnd G U) (k : U -> rnd G V) g g' u : x g = (g', Ok u) -> rbind x k g = k u g'.
Proof. by rewrite /rbind => ->. Qed.

Lemma sample_loop_take p n m init k K t prev tc oc g rows : (k <= K)%N ->
  (sample_loop rl p n m init K t prev tc oc g).2 = Ok rows ->
  (sample_loop rl p n m init k t prev tc oc g).2 = Ok (take k rows).
Proof.
elim: k K t prev tc oc g rows => [|k IH] [|K] t prev tc oc g rows //; first by rewrite take0.
  by rewrite take0.
move=> kK; rewrite /sample_loop -/(sample_loop rl p n m init).
move=> H0; have [g1 [[[[x z] tc'] oc'] [E1 H1]]] := rbind_ok H0; have [g2 [rest [E2 [<-]]]] := rbind_ok H1.
rewrite (rbind_run _ E1).
have H : (sample_loop rl p n m init K t.+1 (Some x) tc' oc' g1).2 = Ok rest by rewrite E2.
have := IH K _ _ _ _ _ _ kK H.
by rewrite /rbind; case: (sample_loop _ _ _ _ _ k _ _ _ _ _) => g3 r /= ->.
Qed.

Lemma usample_loop_take app p n m init k K t prev g rows : (k <= K)%N ->
  (usample_loop rl app p n m init K t prev g).2 = Ok rows ->
  (usample_loop rl app p n m init k t prev g).2 = Ok (take k rows).
Proof.
elim: k K t prev g rows => [|k IH] [|K] t prev g rows //; first by rewrite take0.
  by rewrite take0.
move=> kK; rewrite /usample_loop -/(usample_loop rl app p n m init).
move=> H0; have [g1 [[x z] [E1 H1]]] := rbind_ok H0; have [g2 [rest [E2 [<-]]]] := rbind_ok H1.
rewrite (rbind_run _ E1).
have H : (usample_loop rl app p n m init K t.+1 (Some x) g1).2 = Ok rest by rewrite E2.
have := IH K _ _ _ _ kK H.
by rewrite /rbind; case: (usample_loop _ _ _ _ _ _ k _ _ _) => g3 r /= ->.
Qed.

Lemma run_on_snd U h (c : rnd G U) w : (run_on rl h c w).2 = (c (state_of rl h w)).2.
Proof. by case: h => [|z|i] /=; case: (c _). Qed.

Lemma kf_sample_take (o : kf R) k K x0 rs w rows : (k <= K)%N ->
  (kf_sample rl o K x0 rs w).2 = Ok rows -> (kf_sample rl o k x0 rs w).2 = Ok (take k rows).
Proof.
move=> kK; rewrite /kf_sample; case: (initialize_parameters o) => [p|e] //.
case: (shape_m2 _) => // n; case: (shape_m2 _) => // m; case: (check_random_state _) => // h.
rewrite !run_on_snd /sample_run => H0; have [g' [u [E H]]] := rbind_ok H0; rewrite (rbind_run _ E).
exact: sample_loop_take H.
Qed.

Lemma usample_take dflt app (o : ukf R) k K x0 rs w rows : (k <= K)%N ->
  (usample rl dflt app o K x0 rs w).2 = Ok rows -> (usample rl dflt app o k x0 rs w).2 = Ok (take k rows).
Proof.
move=> kK; rewrite /usample; case: (uinitialize dflt o) => [p|e] //.
case: (shape_m1 _) => // n; case: (shape_m1 _) => // m; case: (check_random_state _) => // h.
rewrite !run_on_snd => H0; have [g' [u [E H]]] := rbind_ok H0; rewrite (rbind_run _ E).
exact: usample_loop_take H.
Qed.
End Prefix.
