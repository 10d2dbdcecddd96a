(** Property theorems: filter and smooth as least squares (C71, C72). *)
From Coq Require Import String List.
From mathcomp Require Import all_ssreflect all_algebra.
From Verif Require Import Prelude LinAlg Numpy Sklearn Standard Model KfSpec KfLsSpec KfLs Examples ExamplesEm.
Import GRing.Theory Num.Theory.

Set Implicit Arguments.
Unset Strict Implicit.
Unset Printing Implicit Defensive.
Local Open Scope ring_scope.

(** ** C71 *)
Theorem C71_smooth_least_squares (R : rcfType) n m (o : kf R) T (M : lgm R n m) (Ho : kf_model o T M) (zs : seq (orow R m))
    (Hsz : size zs = T) (Hk : keeps zs) (HW : weights_exist M zs T) (T0 : (0 < T)%N) :
  exists (x : nat -> 'cV[R]_n) (P : nat -> 'M[R]_n),
  kf_smooth o (O2 m zs) = Ok [seq (A1 (x t), A2 (P t)) | t <- iota 0 T] /\ best_path M zs T.-1 x.
Proof. exact: (smooth_least_squares Ho Hsz Hk HW T0). Qed.
Print Assumptions C71_smooth_least_squares.

Theorem C71_filter_least_squares (R : rcfType) n m (o : kf R) T (M : lgm R n m) (Ho : kf_model o T M) (zs : seq (orow R m))
    (Hsz : size zs = T) (Hk : keeps zs) (HW : weights_exist M zs T) :
  exists (x : nat -> 'cV[R]_n) (P : nat -> 'M[R]_n),
  kf_filter o (O2 m zs) = Ok [seq (A1 (x t), A2 (P t)) | t <- iota 0 T] /\
  forall k, (k < T)%N -> exists2 p, p k = x k & best_path M zs k p.
Proof. exact: (filter_least_squares Ho Hsz Hk HW). Qed.
Print Assumptions C71_filter_least_squares.

Example C71_hypotheses_met (R : rcfType) :
  [/\ kf_model (em_o R) 3 (em_M R), size (ex_zs R) = 3%N, keeps (ex_zs R) & weights_exist (em_M R) (ex_zs R) 3].
Proof. exact: ls_met. Qed.

(** ** C72 *)
Theorem C72_constant_state_is_regression (R : rcfType) n m (o : kf R) T (M : lgm R n m) (Ho : kf_model o T M) (zs : seq (orow R m))
    (Hsz : size zs = T) (Hk : keeps zs) (HA : at_rest M T) (HF : fit_weights_exist M zs T) :
  exists (x : nat -> 'cV[R]_n) (P : nat -> 'M[R]_n),
  [/\ kf_filter o (O2 m zs) = Ok [seq (A1 (x t), A2 (P t)) | t <- iota 0 T],
      forall k, (k < T)%N -> best_fit M zs k (x k) /\ P k *m precision M zs k = 1%:M &
      (0 < T)%N -> kf_smooth o (O2 m zs) = Ok (nseq T (A1 (x T.-1), A2 (P T.-1)))].
Proof. exact: (rest_api Ho Hsz Hk HA HF). Qed.
Print Assumptions C72_constant_state_is_regression.

Example C72_hypotheses_met (R : rcfType) :
  [/\ kf_model (obj_of (rest_M R) 3 true) 3 (rest_M R), size (ex_zs R) = 3%N, keeps (ex_zs R), at_rest (rest_M R) 3 &
  fit_weights_exist (rest_M R) (ex_zs R) 3].
Proof. exact: rest_met. Qed.
