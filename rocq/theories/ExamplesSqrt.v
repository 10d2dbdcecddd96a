(** Concrete objects meeting the hypotheses of the square-root theorems, and
    concrete counterexamples. *)
From Coq Require Import String List.
From mathcomp Require Import all_ssreflect all_algebra.
From Verif Require Import Prelude Zmod LinAlg Numpy NumpyFacts Sklearn SklearnFacts Standard Model KfSpec StandardInit StandardFacts
  KfStruct KfStruct2 KfOnline KfEm KfGlue Examples ExamplesEm.
From Verif Require Import Sqrt SqrtFacts SqrtSpec SqrtApi SqrtEm Cholesky ChFacts ChMain.
Import GRing.Theory Num.Theory.

Set Implicit Arguments.
Unset Strict Implicit.
Unset Printing Implicit Defensive.
Local Open Scope ring_scope.

Section Ex.
Variable R : rcfType.

Lemma em_o_pd : pd_kf (em_o R) 3 (em_M R).
Proof.
split; [exact: em_o_model|by exists (proj R + 1%:M) => //; exact: pp_pd|by exists 1%:M => //; exact: pd1|exact: pp_pd].
Qed.
Lemma ex_o_psd : psd_kf (ex_o R) 3 (ex_M R).
Proof.
split; [exact: ex_model|by exists (proj R) => //; exact: proj_psd|by exists 1%:M => //; exact: pd1|exact: proj_psd].
Qed.
Lemma dflt_pd n m T : pd_kf (dflt_obj R n m) T (dflt_model R n m).
Proof. by split; [exact: dflt_is_model|exists 1%:M => //; exact: pd1|exists 1%:M => //; exact: pd1|exact: pd1]. Qed.

(** arguments of an update that pass the row and nothing else *)
Definition row_args (r : orow R 2) : uargs R := UArgs (Some (A1 r.1, missing r)) None None None None None None.
Lemma dflt_args_ok n (r : orow R 2) t : step_args (dflt_obj R n 2) (dflt_model R n 2) t r (row_args r).
Proof. by split; [left|right|right|right|right|right|right]. Qed.

End Ex.
