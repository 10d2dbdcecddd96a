(** Examples: a quarter turn with change of scale of two observed components. *)
From Coq Require Import String List.
From mathcomp Require Import all_ssreflect all_algebra.
From mathcomp Require Import ring.
From Verif Require Import Prelude LinAlg Numpy Sklearn Standard Model KfSpec EmSpec Rng Unscented UscSpec UscProps RotSpec
  Examples ExamplesEm ExamplesUsc.
Import GRing.Theory Num.Theory.

Set Implicit Arguments.
Unset Strict Implicit.
Unset Printing Implicit Defensive.
Local Open Scope ring_scope.

Section Rot.
Variable R : rcfType.
(** (x, y) becomes (-3 y, 3 x) *)
Definition turn : 'M[R]_2 := \matrix_(i, j) (if i == j then 0 else if i == 0 then - 3%:R else 3%:R).
Lemma turn_similar : similarity turn.
Proof.
exists 9%:R; first by rewrite pnatr_eq0.
apply/matrixP=> i j; rewrite !mxE big_ord_recl big_ord1 !mxE.
by case: i => -[|[|//]] ?; case: j => -[|[|//]] ?; rewrite /= ?mulr1n ?mulr0n; ring.
Qed.
Definition turned : seq (orow R 2) := [seq mk_row (missing r) (turn *m r.1 + e1 R) | r <- ex_zs R].
Lemma turned_recoded : recoded turn (e1 R) (ex_zs R) turned.
Proof. by do 3 (constructor; first by split=> //; rewrite missing_row); constructor. Qed.

Lemma kf_rot_met : exists o' : kf R,
  [/\ similarity turn, kf_model (ex_o R) 3 (ex_M R), kf_model o' 3 (recode_model (ex_M R) turn (e1 R)),
      recoded turn (e1 R) (ex_zs R) turned & size (ex_zs R) = 3%N /\ keeps (ex_zs R)].
Proof.
exists (obj_of (recode_model (ex_M R) turn (e1 R)) 3 false); split=> //.
- exact: turn_similar.
- exact: ex_model.
- exact: obj_model.
- exact: turned_recoded.
Qed.
Lemma add_rot_met : exists o o' : ukf R, let g t x := turn *m sq_f t x + e1 R in
  [/\ similarity turn, aukf_model o 3 (sq_f (R := R)) (sq_f (R := R)) 1%:M (proj R) (e0 R) (proj R + 1%:M),
      aukf_model o' 3 (sq_f (R := R)) g 1%:M (turn *m proj R *m turn^T) (e0 R) (proj R + 1%:M),
      recoded turn (e1 R) (ex_zs R) turned & size (ex_zs R) = 3%N /\ keeps (ex_zs R)].
Proof.
exists (@ukf_of R 2 2 _ _ (@pyf1 R 2 2) (@pyf1 R 2 2) 3 (sq_f (R := R)) (sq_f (R := R)) 1%:M (proj R) (e0 R) (proj R + 1%:M) None).
exists (@ukf_of R 2 2 _ _ (@pyf1 R 2 2) (@pyf1 R 2 2) 3 (sq_f (R := R)) (fun t x => turn *m sq_f t x + e1 R) 1%:M
  (turn *m proj R *m turn^T) (e0 R) (proj R + 1%:M) None); split=> //.
- exact: turn_similar.
- exact: aukf_of_model.
- exact: aukf_of_model.
- exact: turned_recoded.
Qed.
Lemma aug_rot_met : exists o o' : ukf R, let g t x v := turn *m sq2_f t x v + e1 R in
  [/\ similarity turn, ukf_model o 3 (sq2_f (R := R)) (sq2_f (R := R)) 1%:M 1%:M (e0 R) (proj R + 1%:M),
      ukf_model o' 3 (sq2_f (R := R)) g 1%:M 1%:M (e0 R) (proj R + 1%:M),
      recoded turn (e1 R) (ex_zs R) turned & size (ex_zs R) = 3%N /\ keeps (ex_zs R)].
Proof.
exists (@ukf_of R 2 2 _ _ (@pyf2 R 2 2 2) (@pyf2 R 2 2 2) 3 (sq2_f (R := R)) (sq2_f (R := R)) 1%:M 1%:M (e0 R) (proj R + 1%:M) None).
exists (@ukf_of R 2 2 _ _ (@pyf2 R 2 2 2) (@pyf2 R 2 2 2) 3 (sq2_f (R := R)) (fun t x v => turn *m sq2_f t x v + e1 R) 1%:M 1%:M
  (e0 R) (proj R + 1%:M) None); split=> //.
- exact: turn_similar.
- exact: ukf_of_model.
- exact: ukf_of_model.
- exact: turned_recoded.
Qed.
Lemma add_unit_met : exists o o' : ukf R, let N := shear (3%:R : R) in let g t x := N *m sq_f t x + e1 R in
  [/\ N \in unitmx, aukf_model o 3 (sq_f (R := R)) (sq_f (R := R)) 1%:M 1%:M (e0 R) (proj R + 1%:M),
      aukf_model o' 3 (sq_f (R := R)) g 1%:M (N *m 1%:M *m N^T) (e0 R) (proj R + 1%:M),
      pd (1%:M : 'M[R]_2) & exists2 zs', recoded N (e1 R) (ex_zs R) zs' & size (ex_zs R) = 3%N /\ keeps (ex_zs R)].
Proof.
exists (@ukf_of R 2 2 _ _ (@pyf1 R 2 2) (@pyf1 R 2 2) 3 (sq_f (R := R)) (sq_f (R := R)) 1%:M 1%:M (e0 R) (proj R + 1%:M) None).
exists (@ukf_of R 2 2 _ _ (@pyf1 R 2 2) (@pyf1 R 2 2) 3 (sq_f (R := R)) (fun t x => shear 3%:R *m sq_f t x + e1 R) 1%:M
  (shear 3%:R *m 1%:M *m (shear 3%:R)^T) (e0 R) (proj R + 1%:M) None); split=> //.
- exact: shear_unit.
- exact: aukf_of_model.
- exact: aukf_of_model.
- exact: pd1.
- exists [seq mk_row (missing r) (shear 3%:R *m r.1 + e1 R) | r <- ex_zs R] => //.
  by do 3 (constructor; first by split=> //; rewrite missing_row); constructor.
Qed.
End Rot.
