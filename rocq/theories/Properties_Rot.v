(** C80: the axes along which observations are recorded.  [similarity N]: a
    rotation, reflection or permutation of the axes with a common change of scale. *)
From Coq Require Import String List.
From mathcomp Require Import all_ssreflect all_algebra.
From Verif Require Import Prelude LinAlg Numpy Sklearn Standard Model KfSpec EmSpec Rng Unscented UscSpec UscProps RotSpec
  UscRecode Examples ExamplesEm ExamplesUsc ExamplesRot.
Import GRing.Theory Num.Theory.

Set Implicit Arguments.
Unset Strict Implicit.
Unset Printing Implicit Defensive.
Local Open Scope ring_scope.

Theorem C80_kalman (R : rcfType) n m (M : lgm R n m) T (N : 'M[R]_m) (d : 'cV[R]_m) (SN : similarity N)
    (zs zs' : seq (orow R m)) (Hz : recoded N d zs zs') (o o' : kf R) (Ho : kf_model o T M)
    (Ho' : kf_model o' T (recode_model M N d)) (Hsz : size zs = T) (Hk : keeps zs) :
  kf_filter o' (O2 m zs') = kf_filter o (O2 m zs) /\
  ((0 < T)%N -> kf_smooth o' (O2 m zs') = kf_smooth o (O2 m zs)).
Proof. exact: (rot_api SN Hz Ho Ho' Hsz Hk). Qed.
Print Assumptions C80_kalman.

Theorem C80_additive (R : rcfType) n m (o o' : ukf R) T (f : nat -> 'cV[R]_n -> 'cV[R]_n) (g g' : nat -> 'cV[R]_n -> 'cV[R]_m)
    (Q : 'M[R]_n) (Rn : 'M[R]_m) (mu0 : 'cV[R]_n) (P0 : 'M[R]_n) (N : 'M[R]_m) (d : 'cV[R]_m)
    (HM : aukf_model o T f g Q Rn mu0 P0) (HM' : aukf_model o' T f g' Q (N *m Rn *m N^T) mu0 P0) (SN : similarity N)
    (Hg : forall t x, (t < T)%N -> g' t x = N *m g t x + d)
    (zs zs' : seq (orow R m)) (Hz : recoded N d zs zs') (Hsz : size zs = T) (Hk : keeps zs) :
  aukf_filter o' (O2 m zs') = aukf_filter o (O2 m zs) /\
  ((0 < T)%N -> aukf_smooth o' (O2 m zs') = aukf_smooth o (O2 m zs)).
Proof. exact: (additive_rot HM HM' SN Hg Hz Hsz Hk). Qed.
Print Assumptions C80_additive.

(** the noise enters through the functions and keeps its coordinates *)
Theorem C80_augmented (R : rcfType) n m (o o' : ukf R) T
    (f : nat -> 'cV[R]_n -> 'cV[R]_n -> 'cV[R]_n) (g g' : nat -> 'cV[R]_n -> 'cV[R]_m -> 'cV[R]_m)
    (Q : 'M[R]_n) (Rn : 'M[R]_m) (mu0 : 'cV[R]_n) (P0 : 'M[R]_n) (N : 'M[R]_m) (d : 'cV[R]_m)
    (HM : ukf_model o T f g Q Rn mu0 P0) (HM' : ukf_model o' T f g' Q Rn mu0 P0) (SN : similarity N)
    (Hg : forall t x v, (t < T)%N -> g' t x v = N *m g t x v + d)
    (zs zs' : seq (orow R m)) (Hz : recoded N d zs zs') (Hsz : size zs = T) (Hk : keeps zs) :
  ukf_filter o' (O2 m zs') = ukf_filter o (O2 m zs) /\
  ((0 < T)%N -> ukf_smooth o' (O2 m zs') = ukf_smooth o (O2 m zs)).
Proof. exact: (augmented_rot HM HM' SN Hg Hz Hsz Hk). Qed.
Print Assumptions C80_augmented.

(** at most three states: any invertible recoding *)
Theorem C80_additive_invertible (R : rcfType) n m (o o' : ukf R) T (f : nat -> 'cV[R]_n -> 'cV[R]_n)
    (g g' : nat -> 'cV[R]_n -> 'cV[R]_m) (Q : 'M[R]_n) (Rn : 'M[R]_m) (mu0 : 'cV[R]_n) (P0 : 'M[R]_n) (N : 'M[R]_m) (d : 'cV[R]_m)
    (HM : aukf_model o T f g Q Rn mu0 P0) (HM' : aukf_model o' T f g' Q (N *m Rn *m N^T) mu0 P0)
    (n3 : (n <= 3)%N) (HR : pd Rn) (UN : N \in unitmx) (Hg : forall t x, (t < T)%N -> g' t x = N *m g t x + d)
    (zs zs' : seq (orow R m)) (Hz : recoded N d zs zs') (Hsz : size zs = T) (Hk : keeps zs) :
  aukf_filter o' (O2 m zs') = aukf_filter o (O2 m zs) /\
  ((0 < T)%N -> aukf_smooth o' (O2 m zs') = aukf_smooth o (O2 m zs)).
Proof. exact: (additive_invertible HM HM' n3 HR UN Hg Hz Hsz Hk). Qed.
Print Assumptions C80_additive_invertible.

(** a quarter turn with change of scale, one row missing; singular noise in the second case *)
Example C80_kalman_hypotheses_met (R : rcfType) : exists o' : kf R,
  [/\ similarity (turn R), kf_model (ex_o R) 3 (ex_M R), kf_model o' 3 (recode_model (ex_M R) (turn R) (e1 R)),
      recoded (turn R) (e1 R) (ex_zs R) (turned R) & size (ex_zs R) = 3%N /\ keeps (ex_zs R)].
Proof. exact: kf_rot_met. Qed.
Example C80_additive_hypotheses_met (R : rcfType) : exists o o' : ukf R, let g t x := turn R *m sq_f t x + e1 R in
  [/\ similarity (turn R), aukf_model o 3 (sq_f (R := R)) (sq_f (R := R)) 1%:M (proj R) (e0 R) (proj R + 1%:M),
      aukf_model o' 3 (sq_f (R := R)) g 1%:M (turn R *m proj R *m (turn R)^T) (e0 R) (proj R + 1%:M),
      recoded (turn R) (e1 R) (ex_zs R) (turned R) & size (ex_zs R) = 3%N /\ keeps (ex_zs R)].
Proof. exact: add_rot_met. Qed.
Example C80_augmented_hypotheses_met (R : rcfType) : exists o o' : ukf R, let g t x v := turn R *m sq2_f t x v + e1 R in
  [/\ similarity (turn R), ukf_model o 3 (sq2_f (R := R)) (sq2_f (R := R)) 1%:M 1%:M (e0 R) (proj R + 1%:M),
      ukf_model o' 3 (sq2_f (R := R)) g 1%:M 1%:M (e0 R) (proj R + 1%:M),
      recoded (turn R) (e1 R) (ex_zs R) (turned R) & size (ex_zs R) = 3%N /\ keeps (ex_zs R)].
Proof. exact: aug_rot_met. Qed.
Example C80_invertible_hypotheses_met (R : rcfType) : exists o o' : ukf R,
  let N := shear (3%:R : R) in let g t x := N *m sq_f t x + e1 R in
  [/\ N \in unitmx, aukf_model o 3 (sq_f (R := R)) (sq_f (R := R)) 1%:M 1%:M (e0 R) (proj R + 1%:M),
      aukf_model o' 3 (sq_f (R := R)) g 1%:M (N *m 1%:M *m N^T) (e0 R) (proj R + 1%:M),
      pd (1%:M : 'M[R]_2) & exists2 zs', recoded N (e1 R) (ex_zs R) zs' & size (ex_zs R) = 3%N /\ keeps (ex_zs R)].
Proof. exact: add_unit_met. Qed.
