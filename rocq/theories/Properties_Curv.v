(** Property theorems: covariances as curvature, smoothing backwards in time
    (C77, C78). *)
From Coq Require Import String List.
From mathcomp Require Import all_ssreflect all_algebra.
From Verif Require Import Prelude LinAlg Numpy Sklearn Standard Model KfSpec KfLsSpec KfLs KfCurvSpec KfCurv KfReverse Examples ExamplesEm.
Import GRing.Theory Num.Theory.

Set Implicit Arguments.
Unset Strict Implicit.
Unset Printing Implicit Defensive.
Local Open Scope ring_scope.

(** ** C77 *)
Theorem C77_smooth_curvature (R : rcfType) n m (o : kf R) T (M : lgm R n m) (Ho : kf_model o T M) (zs : seq (orow R m))
    (Hsz : size zs = T) (Hk : keeps zs) (HW : weights_exist M zs T) (T0 : (0 < T)%N) :
  exists (x : nat -> 'cV[R]_n) (P : nat -> 'M[R]_n),
  [/\ kf_smooth o (O2 m zs) = Ok [seq (A1 (x t), A2 (P t)) | t <- iota 0 T], best_path M zs T.-1 x &
      forall t, (t < T)%N -> curvature M zs T.-1 t x (P t)].
Proof. exact: (smooth_curvature Ho Hsz Hk HW T0). Qed.
Print Assumptions C77_smooth_curvature.

Theorem C77_filter_curvature (R : rcfType) n m (o : kf R) T (M : lgm R n m) (Ho : kf_model o T M) (zs : seq (orow R m))
    (Hsz : size zs = T) (Hk : keeps zs) (HW : weights_exist M zs T) :
  exists (x : nat -> 'cV[R]_n) (P : nat -> 'M[R]_n),
  kf_filter o (O2 m zs) = Ok [seq (A1 (x t), A2 (P t)) | t <- iota 0 T] /\
  forall k, (k < T)%N -> exists p, [/\ p k = x k, best_path M zs k p & curvature M zs k k p (P k)].
Proof. exact: (filter_curvature Ho Hsz Hk HW). Qed.
Print Assumptions C77_filter_curvature.

Example C77_hypotheses_met (R : rcfType) :
  [/\ kf_model (em_o R) 3 (em_M R), size (ex_zs R) = 3%N, keeps (ex_zs R) & weights_exist (em_M R) (ex_zs R) 3].
Proof. exact: ls_met. Qed.

(** ** C78 *)
Theorem C78_backwards (R : rcfType) n m (M : lgm R n m) T (o o' : kf R) (zs : seq (orow R m)) (Ho : kf_model o T M)
    (Ho' : kf_model o' T (reversed M T)) (Hsz : size zs = T) (Hk : keeps zs) (HW : weights_exist M zs T) (T0 : (0 < T)%N) :
  exists L, kf_smooth o (O2 m zs) = Ok L /\ kf_smooth o' (O2 m (seq.rev zs)) = Ok (seq.rev L).
Proof. exact: (reverse_api Ho Ho' Hsz Hk HW T0). Qed.
Print Assumptions C78_backwards.

Example C78_hypotheses_met (R : rcfType) : exists o o' : kf R,
  [/\ kf_model o 3 (em_M R), kf_model o' 3 (reversed (em_M R) 3), size (ex_zs R) = 3%N, keeps (ex_zs R) & weights_exist (em_M R) (ex_zs R) 3].
Proof. exact: reverse_met. Qed.
