(** Example: noise in the first component only. *)
From Coq Require Import String List.
From mathcomp Require Import all_ssreflect all_algebra.
From Verif Require Import Prelude LinAlg Numpy Standard Model KfSpec StandardFacts KfInnovSpec Examples.
Import GRing.Theory Num.Theory.

Set Implicit Arguments.
Unset Strict Implicit.
Unset Printing Implicit Defensive.
Local Open Scope ring_scope.

Section ExactEx.
Variable R : rcfType.
Definition exact_M : lgm R 2 2 :=
  LGM (fun t => nth 0 [:: shear 1; shear 2%:R] t) (fun _ => 0) (fun _ => proj R)
      (fun _ => 1%:M) (fun _ => e0 R + e1 R) (fun _ => proj R) (e0 R) 1%:M.
Lemma e1_proj : (e1 R)^T *m proj R = 0.
Proof.
rewrite /proj mulmxA; have -> : (e1 R)^T *m e0 R = 0 by apply/matrixP=> i j; rewrite !mxE big_ord_recl big_ord1 !mxE /= mulr0 mul0r addr0.
by rewrite mul0mx.
Qed.
Lemma exact_met : let M := exact_M in let V := (e1 R)^T in
  [/\ kf_model (obj_of M 3 true) 3 M, psd_model M 3, size (ex_zs R) = 3%N /\ keeps (ex_zs R),
      V != 0 /\ (forall t, V *m mQ M t = 0 /\ V *m mR M t = 0) &
      stream (ex_zs R) 0 = Some (ex_d R 0) /\
      forall P, mC M 0%N *m one_step_cov M P 0 *m (mC M 0%N)^T + mR M 0%N \in unitmx].
Proof.
split=> //.
- exact: obj_model.
- by split=> *; [exact: psd1|exact: proj_psd|exact: proj_psd].
- split; last by move=> t; split; exact: e1_proj.
  apply/eqP=> /matrixP/(_ ord0 (lift ord0 ord0)); rewrite !mxE => /eqP; by rewrite oner_eq0.
- split; first by rewrite /stream /= missing_row.
  move=> P; apply: pd_unit; rewrite /= mul1mx trmx1 mulmx1 addrC; apply: pdD; [exact: proj_psd|exact: pd1].
Qed.
End ExactEx.
