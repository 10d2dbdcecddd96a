(** Property theorems: the unscented filters in other state coordinates. *)
From Coq Require Import String List.
From mathcomp Require Import all_ssreflect all_algebra.
From Verif Require Import Prelude LinAlg Numpy Sklearn Standard Model KfSpec EmSpec Rng Unscented UscSpec UscProps UnitsSpec UscUnits UscUnitsApi
  Examples ExamplesEm ExamplesUsc BiMain.
Import GRing.Theory Num.Theory.

Set Implicit Arguments.
Unset Strict Implicit.
Unset Printing Implicit Defensive.
Local Open Scope ring_scope.

(** ** C68 *)
Theorem C68_additive_units (R : rcfType) n m (o o' : ukf R) T (f f' : nat -> 'cV[R]_n -> 'cV[R]_n) (g g' : nat -> 'cV[R]_n -> 'cV[R]_m)
    (Q : 'M[R]_n) (Rn : 'M[R]_m) (mu0 : 'cV[R]_n) (P0 : 'M[R]_n) (G : 'M[R]_n) (h : 'cV[R]_n)
    (HM : aukf_model o T f g Q Rn mu0 P0)
    (HM' : aukf_model o' T f' g' (G *m Q *m G^T) Rn (G *m mu0 + h) (G *m P0 *m G^T))
    (HG : units G) (SQ : Q^T = Q) (SR : Rn^T = Rn) (SP : P0^T = P0)
    (Hf : forall t x, (t < T.-1)%N -> f' t (G *m x + h) = G *m f t x + h)
    (Hg : forall t x, (t < T)%N -> g' t (G *m x + h) = g t x)
    (zs : seq (orow R m)) (Hsz : size zs = T) (Hk : keeps zs) :
  same_in_units G h T (aukf_filter o (O2 m zs)) (aukf_filter o' (O2 m zs)).
Proof. exact: (aukf_filter_units HM HM' HG SQ SR SP Hf Hg Hsz Hk). Qed.
Print Assumptions C68_additive_units.

Theorem C68_additive_smooth_units (R : rcfType) n m (o o' : ukf R) T (f f' : nat -> 'cV[R]_n -> 'cV[R]_n) (g g' : nat -> 'cV[R]_n -> 'cV[R]_m)
    (Q : 'M[R]_n) (Rn : 'M[R]_m) (mu0 : 'cV[R]_n) (P0 : 'M[R]_n) (G : 'M[R]_n) (h : 'cV[R]_n)
    (HM : aukf_model o T f g Q Rn mu0 P0)
    (HM' : aukf_model o' T f' g' (G *m Q *m G^T) Rn (G *m mu0 + h) (G *m P0 *m G^T))
    (HG : units G) (SQ : Q^T = Q) (SR : Rn^T = Rn) (SP : P0^T = P0)
    (Hf : forall t x, (t < T.-1)%N -> f' t (G *m x + h) = G *m f t x + h)
    (Hg : forall t x, (t < T)%N -> g' t (G *m x + h) = g t x)
    (zs : seq (orow R m)) (Hsz : size zs = T) (Hk : keeps zs) (T0 : (0 < T)%N) :
  same_in_units G h T (aukf_smooth o (O2 m zs)) (aukf_smooth o' (O2 m zs)).
Proof. exact: (aukf_smooth_units HM HM' HG SQ SR SP Hf Hg Hsz Hk T0). Qed.
Print Assumptions C68_additive_smooth_units.

(** the noises may be in other units too *)
Theorem C68_augmented_units (R : rcfType) n m (o o' : ukf R) T
    (f f' : nat -> 'cV[R]_n -> 'cV[R]_n -> 'cV[R]_n) (g g' : nat -> 'cV[R]_n -> 'cV[R]_m -> 'cV[R]_m)
    (Q : 'M[R]_n) (Rn : 'M[R]_m) (mu0 : 'cV[R]_n) (P0 : 'M[R]_n) (G H : 'M[R]_n) (K : 'M[R]_m) (h : 'cV[R]_n)
    (HM : ukf_model o T f g Q Rn mu0 P0)
    (HM' : ukf_model o' T f' g' (H *m Q *m H^T) (K *m Rn *m K^T) (G *m mu0 + h) (G *m P0 *m G^T))
    (HG : units G) (HH : units H) (HK : units K) (SQ : Q^T = Q) (SR : Rn^T = Rn) (SP : P0^T = P0)
    (Hf : forall t x w, (t < T.-1)%N -> f' t (G *m x + h) (H *m w) = G *m f t x w + h)
    (Hg : forall t x v, (t < T)%N -> g' t (G *m x + h) (K *m v) = g t x v)
    (zs : seq (orow R m)) (Hsz : size zs = T) (Hk : keeps zs) :
  same_in_units G h T (ukf_filter o (O2 m zs)) (ukf_filter o' (O2 m zs)).
Proof. exact: (ukf_filter_units HM HM' HG HH HK SQ SR SP Hf Hg Hsz Hk). Qed.
Print Assumptions C68_augmented_units.

(** non-linear models with two states, the second axis reversed *)
Example C68_hypotheses_met (R : rcfType) :
  [/\ aukf_model (sq_o R) 3 (sq_f (R := R)) (sq_g (R := R)) 1%:M 1%:M (e0 R) (proj R + 1%:M),
      aukf_model (sq_o' R) 3 (sq_f' (R := R)) (sq_g' (R := R)) (uG R *m 1%:M *m (uG R)^T) 1%:M (uG R *m e0 R + e1 R) (uG R *m (proj R + 1%:M) *m (uG R)^T),
      units (uG R), forall t x, sq_f' t (uG R *m x + e1 R) = uG R *m sq_f t x + e1 R &
      forall t x, sq_g' t (uG R *m x + e1 R) = sq_g t x].
Proof. exact: sq_units_met. Qed.
Example C68_augmented_hypotheses_met (R : rcfType) :
  [/\ ukf_model (sq2_o R) 3 (sq2_f (R := R)) (sq2_g (R := R)) 1%:M 1%:M (e0 R) (proj R + 1%:M),
      ukf_model (sq2_o' R) 3 (sq2_f' (R := R)) (sq2_g' (R := R)) (uG R *m 1%:M *m (uG R)^T) (uK R *m 1%:M *m (uK R)^T)
        (uG R *m e0 R + e1 R) (uG R *m (proj R + 1%:M) *m (uG R)^T),
      units (uG R) /\ units (uK R), forall t x w, sq2_f' t (uG R *m x + e1 R) (uG R *m w) = uG R *m sq2_f t x w + e1 R &
      forall t x v, sq2_g' t (uG R *m x + e1 R) (uK R *m v) = sq2_g t x v].
Proof. exact: sq2_units_met. Qed.

(** ** C69 *)
(** the full statement: [C68_additive_units] with any permutation matrix (or any
    invertible matrix) in place of [units G].  It fails for two states listed in the other order. *)
Theorem C69_component_order_refuted (R : rcfType) :
  exists (o o' : ukf R) (f f' : nat -> 'cV[R]_2 -> 'cV[R]_2) (g g' : nat -> 'cV[R]_2 -> 'cV[R]_1) (Q : 'M[R]_2) (Rn : 'M[R]_1)
    (P0 : 'M[R]_2) (zs : seq (orow R 1)),
  let W : 'M[R]_2 := \matrix_(i, j) (i != j)%:R in
  [/\ aukf_model o 2 f g Q Rn 0 P0 /\ aukf_model o' 2 f' g' (W *m Q *m W^T) Rn (W *m 0 + 0) (W *m P0 *m W^T),
      (forall t x, f' t (W *m x + 0) = W *m f t x + 0) /\ (forall t x, g' t (W *m x + 0) = g t x),
      Q = 1%:M /\ P0^T = P0,
      size zs = 2%N /\ keeps zs &
      ~ same_in_units W 0 2 (aukf_filter o (O2 1 zs)) (aukf_filter o' (O2 1 zs))].
Proof. exact: order_matters. Qed.
Print Assumptions C69_component_order_refuted.

(** any invertible change of coordinates on linear models *)
Theorem C69_linear_partial (R : rcfType) n m (M : lgm R n m) (o o' : ukf R) T (G : 'M[R]_n) (h : 'cV[R]_n) (Q : 'M[R]_n) (Rn : 'M[R]_m)
    (UG : G \in unitmx) (EQ : forall t, (t < T.-1)%N -> mQ M t = Q) (ER : forall t, (t < T)%N -> mR M t = Rn) :
  let M' := coord_model M G h in forall
    (HM : aukf_model o T (fun t x => mA M t *m x + mb M t) (fun t x => mC M t *m x + md M t) Q Rn (mmu M) (mP M))
    (HM' : aukf_model o' T (fun t x => mA M' t *m x + mb M' t) (fun t x => mC M' t *m x + md M' t) (G *m Q *m G^T) Rn (mmu M') (mP M'))
    (HP : pd (mP M)) (HQ : pd Q) (HR : pd Rn) (zs : seq (orow R m)) (Hsz : size zs = T) (Hk : keeps zs),
  same_in_units G h T (aukf_filter o (O2 m zs)) (aukf_filter o' (O2 m zs)) /\
  ((0 < T)%N -> same_in_units G h T (aukf_smooth o (O2 m zs)) (aukf_smooth o' (O2 m zs))).
Proof. exact: (linear_any_coordinates UG EQ ER). Qed.
Print Assumptions C69_linear_partial.

Example C69_hypotheses_met (R : rcfType) :
  let G : 'M[R]_2 := \matrix_(i, j) (i != j)%:R in let M' := coord_model (em_M R) G (e1 R) in
  [/\ G \in unitmx, exists o : ukf R, aukf_model o 3 (fun t x => mA (em_M R) t *m x + mb (em_M R) t)
        (fun t x => mC (em_M R) t *m x + md (em_M R) t) (proj R + 1%:M) 1%:M (mmu (em_M R)) (mP (em_M R)),
      exists o' : ukf R, aukf_model o' 3 (fun t x => mA M' t *m x + mb M' t) (fun t x => mC M' t *m x + md M' t)
        (G *m (proj R + 1%:M) *m G^T) 1%:M (mmu M') (mP M') & pd (mP (em_M R))].
Proof.
by split; [exact: swap_unit|exists (add_o R); exact: add_o_model|exact: lin_met|exact: pp_pd].
Qed.
