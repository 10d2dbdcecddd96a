(** Property theorems: linear combinations of inputs, moving origin, periodic
    models, order of readings (C74 - C76). *)
From Coq Require Import String List.
From mathcomp Require Import all_ssreflect all_fingroup all_algebra.
From Verif Require Import Prelude LinAlg Numpy Sklearn Standard Model KfSpec KfLsSpec KfSuperSpec KfLs KfSuper KfSteady Examples ExamplesEm ExamplesSuper.
Import GRing.Theory Num.Theory.

Set Implicit Arguments.
Unset Strict Implicit.
Unset Printing Implicit Defensive.
Local Open Scope ring_scope.

(** ** C74 *)
Theorem C74_superposition (R : rcfType) n m (M : lgm R n m) T (Hk : (T != 1%N) || (m <= 1)%N) (mis : nat -> bool) b1 b2 d1 d2 mu1 mu2
    (y1 y2 : nat -> 'cV[R]_m) (a1 a2 : R) (o1 o2 o3 : kf R) (zs1 zs2 zs3 : seq (orow R m))
    (H1 : kf_model o1 T (with_means M b1 d1 mu1)) (H2 : kf_model o2 T (with_means M b2 d2 mu2))
    (H3 : kf_model o3 T (with_means M (mix a1 a2 b1 b2) (mix a1 a2 d1 d2) (a1 *: mu1 + a2 *: mu2)))
    (r1 : rows_of T mis y1 zs1) (r2 : rows_of T mis y2 zs2) (r3 : rows_of T mis (mix a1 a2 y1 y2) zs3) :
  exists (f1 f2 s1 s2 : nat -> 'cV[R]_n) (P S : nat -> 'M[R]_n),
  [/\ kf_filter o1 (O2 m zs1) = Ok [seq (A1 (f1 t), A2 (P t)) | t <- iota 0 T],
      kf_filter o2 (O2 m zs2) = Ok [seq (A1 (f2 t), A2 (P t)) | t <- iota 0 T] &
      kf_filter o3 (O2 m zs3) = Ok [seq (A1 (mix a1 a2 f1 f2 t), A2 (P t)) | t <- iota 0 T]] /\
  ((0 < T)%N -> [/\ kf_smooth o1 (O2 m zs1) = Ok [seq (A1 (s1 t), A2 (S t)) | t <- iota 0 T],
      kf_smooth o2 (O2 m zs2) = Ok [seq (A1 (s2 t), A2 (S t)) | t <- iota 0 T] &
      kf_smooth o3 (O2 m zs3) = Ok [seq (A1 (mix a1 a2 s1 s2 t), A2 (S t)) | t <- iota 0 T]]).
Proof. exact: (@super_api R n m M T Hk mis b1 b2 d1 d2 mu1 mu2 y1 y2 a1 a2 o1 o2 o3 zs1 zs2 zs3 H1 H2 H3 r1 r2 r3). Qed.
Print Assumptions C74_superposition.

Theorem C74_moving_origin (R : rcfType) n m (M : lgm R n m) T (Hk : (T != 1%N) || (m <= 1)%N) (h : nat -> 'cV[R]_n) (o o' : kf R)
    (zs : seq (orow R m)) (Ho : kf_model o T M) (Ho' : kf_model o' T (moving_origin M h)) (Hsz : size zs = T) :
  exists (f s : nat -> 'cV[R]_n) (P S : nat -> 'M[R]_n),
  [/\ kf_filter o (O2 m zs) = Ok [seq (A1 (f t), A2 (P t)) | t <- iota 0 T] &
      kf_filter o' (O2 m zs) = Ok [seq (A1 (f t + h t), A2 (P t)) | t <- iota 0 T]] /\
  ((0 < T)%N -> kf_smooth o (O2 m zs) = Ok [seq (A1 (s t), A2 (S t)) | t <- iota 0 T] /\
      kf_smooth o' (O2 m zs) = Ok [seq (A1 (s t + h t), A2 (S t)) | t <- iota 0 T]).
Proof. exact: (@origin_api R n m M T Hk h o o' zs Ho Ho' Hsz). Qed.
Print Assumptions C74_moving_origin.

Example C74_hypotheses_met (R : rcfType) :
  let b1 t : 'cV[R]_2 := t%:R *: e0 R in let b2 (_ : nat) := e1 R in
  let d1 (_ : nat) := e0 R in let d2 t : 'cV[R]_2 := t%:R *: e1 R in
  exists (o1 o2 o3 : kf R) zs1 zs2 zs3,
  [/\ kf_model o1 3 (with_means (em_M R) b1 d1 (e0 R)), kf_model o2 3 (with_means (em_M R) b2 d2 (e1 R)) &
      kf_model o3 3 (with_means (em_M R) (mix 2%:R (-1) b1 b2) (mix 2%:R (-1) d1 d2) (2%:R *: e0 R + (-1) *: e1 R))] /\
  [/\ rows_of 3 ex_mis (@ex_d R) zs1, rows_of 3 ex_mis (fun t => t%:R *: e1 R) zs2 &
      rows_of 3 ex_mis (mix 2%:R (-1) (@ex_d R) (fun t => t%:R *: e1 R)) zs3].
Proof. exact: super_met. Qed.
Example C74_origin_hypotheses_met (R : rcfType) : exists o o' : kf R, [/\ kf_model o 3 (em_M R), kf_model o' 3 (moving_origin (em_M R) (fun t => t%:R *: e1 R)) & size (ex_zs R) = 3%N].
Proof. exact: origin_met. Qed.

(** ** C75 *)
Theorem C75_monotone (R : rcfType) n m (M : lgm R n m) T p (o : kf R) (zs : seq (orow R m)) (Ho : kf_model o T M) (HM : psd_model M T)
    (Hsz : size zs = T) (Hp : periodic T p M zs) (pT : (0 < p < T)%N) :
  exists (x : nat -> 'cV[R]_n) (P : nat -> 'M[R]_n),
  [/\ kf_filter o (O2 m zs) = Ok [seq (A1 (x t), A2 (P t)) | t <- iota 0 T],
      lep (mP M) (mA M p.-1 *m P p.-1 *m (mA M p.-1)^T + mQ M p.-1) -> forall t, (t + p < T)%N -> lep (P t) (P (t + p)%N) &
      lep (mA M p.-1 *m P p.-1 *m (mA M p.-1)^T + mQ M p.-1) (mP M) -> forall t, (t + p < T)%N -> lep (P (t + p)%N) (P t)] /\
  (mA M p.-1 *m P p.-1 *m (mA M p.-1)^T + mQ M p.-1 = mP M -> forall t, (t + p < T)%N -> P (t + p)%N = P t).
Proof. exact: (steady_api Ho HM Hsz Hp pT). Qed.
Print Assumptions C75_monotone.

Theorem C75_known_start (R : rcfType) n m (M : lgm R n m) T p (o : kf R) (zs : seq (orow R m)) (Ho : kf_model o T M) (HM : psd_model M T)
    (Hsz : size zs = T) (Hp : periodic T p M zs) (pT : (0 < p < T)%N) (H0 : mP M = 0) :
  exists (x : nat -> 'cV[R]_n) (P : nat -> 'M[R]_n),
  kf_filter o (O2 m zs) = Ok [seq (A1 (x t), A2 (P t)) | t <- iota 0 T] /\ forall t, (t + p < T)%N -> lep (P t) (P (t + p)%N).
Proof. exact: (certain_api Ho HM Hsz Hp pT H0). Qed.
Print Assumptions C75_known_start.

(** a steady state, and a seasonal model with alternately masked rows started
    from a known state *)
Example C75_hypotheses_met (R : rcfType) : [/\ kf_model (obj_of (fix_M R) 4 true) 4 (fix_M R), psd_model (fix_M R) 4, size (fix_zs R) = 4%N & periodic 4 1 (fix_M R) (fix_zs R)] /\
  exists (x : nat -> 'cV[R]_2) (P : nat -> 'M[R]_2),
  kf_filter (obj_of (fix_M R) 4 true) (O2 2 (fix_zs R)) = Ok [seq (A1 (x t), A2 (P t)) | t <- iota 0 4] /\
  mA (fix_M R) 0 *m P 0%N *m (mA (fix_M R) 0)^T + mQ (fix_M R) 0 = mP (fix_M R).
Proof. exact: fix_met. Qed.
Example C75_known_start_hypotheses_met (R : rcfType) : [/\ kf_model (obj_of (seas_M R) 6 true) 6 (seas_M R), psd_model (seas_M R) 6, size (seas_zs R) = 6%N, periodic 6 2 (seas_M R) (seas_zs R) & mP (seas_M R) = 0].
Proof. exact: certain_met. Qed.

(** ** C76 *)
Theorem C76_order_of_readings (R : rcfType) n m (M M' : lgm R n m) T (s : 'S_T) (o o' : kf R) (zs zs' : seq (orow R m))
    (Ho : kf_model o T M) (Ho' : kf_model o' T M') (Hsz : size zs = T) (Hk : keeps zs) (HA : at_rest M T) (HA' : at_rest M' T)
    (Hs : reordered s M M' zs zs') (HF : fit_weights_exist M zs T) (T0 : (0 < T)%N) :
  exists (x x' : nat -> 'cV[R]_n) (P P' : nat -> 'M[R]_n),
  [/\ kf_filter o (O2 m zs) = Ok [seq (A1 (x t), A2 (P t)) | t <- iota 0 T],
      kf_filter o' (O2 m zs') = Ok [seq (A1 (x' t), A2 (P' t)) | t <- iota 0 T],
      x' T.-1 = x T.-1, P' T.-1 = P T.-1 & kf_smooth o' (O2 m zs') = kf_smooth o (O2 m zs)].
Proof. exact: (order_api Ho Ho' Hsz Hk HA HA' Hs HF T0). Qed.
Print Assumptions C76_order_of_readings.

Example C76_hypotheses_met (R : rcfType) : exists (s : 'S_3) (o o' : kf R), s <> 1%g /\
  [/\ kf_model o 3 (rest_M R), kf_model o' 3 (rest_M' R), size (ex_zs R) = 3%N & keeps (ex_zs R)] /\
  [/\ at_rest (rest_M R) 3, at_rest (rest_M' R) 3, reordered s (rest_M R) (rest_M' R) (ex_zs R) (rev (ex_zs R)) & fit_weights_exist (rest_M R) (ex_zs R) 3].
Proof. exact: order_met. Qed.
