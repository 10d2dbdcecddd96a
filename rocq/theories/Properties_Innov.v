(** Property theorems: innovations are white (C79). *)
From Coq Require Import String List.
From mathcomp Require Import all_ssreflect all_algebra.
From Verif Require Import Prelude LinAlg Numpy Sklearn Standard Model SpecL2 KfInnovSpec KfInnov Examples.
Import GRing.Theory Num.Theory.

Set Implicit Arguments.
Unset Strict Implicit.
Unset Printing Implicit Defensive.
Local Open Scope ring_scope.

(** ** C79 *)
Theorem C79_innovations_white (R : rcfType) (Sp : l2space R) n m (M : lgm R n m) T x z w v
    (Hob : obeys (Sp := Sp) M T x z w v) (mis : nat -> bool) zs (Hd : data_of T z mis zs)
    (o : kf R) (Ho : kf_model o T M) (Hk : (T != 1%N) || (m <= 1)%N) :
  exists (xh : nat -> Om Sp -> 'cV[R]_n) (P : nat -> 'M[R]_n),
  let e t om := innovation M (xh^~ om) (z^~ om) t in
  [/\ forall om, kf_filter o (O2 m (zs om)) = Ok [seq (A1 (xh t om), A2 (P t)) | t <- iota 0 T],
      forall t, (t < T)%N -> mean (e t) = 0,
      forall t, (t < T)%N -> cov (e t) (e t) = mC M t *m one_step_cov M P t *m (mC M t)^T + mR M t,
      forall s t, (s < T)%N -> (t < T)%N -> s <> t -> ~~ mis s -> ~~ mis t -> cov (e s) (e t) = 0 &
      forall s t, (t < T)%N -> (s < t)%N -> ~~ mis s -> cov (e t) (z s) = 0].
Proof. exact: (innov_api Hob Hd Ho Hk). Qed.
Print Assumptions C79_innovations_white.

Example C79_hypotheses_met (R : rcfType) :
  exists (Sp : l2space R) x z w v zs,
    [/\ obeys (Sp := Sp) (ex_M R) 3 x z w v, data_of 3 z ex_mis zs, kf_model (ex_o R) 3 (ex_M R) & (3 != 1)%N || (2 <= 1)%N].
Proof.
have [Sp [x [z [w [v H]]]]] := ex_obeys R; exists Sp, x, z, w, v; eexists; split; [exact: H|exact: data_of_mk|exact: ex_model|by []].
Qed.
