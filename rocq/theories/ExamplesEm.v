(** Concrete cases for the EM properties. *)
From Coq Require Import String List.
From mathcomp Require Import all_ssreflect all_algebra.
From Verif Require Import Prelude Zmod LinAlg Numpy NumpyFacts Sklearn SklearnFacts Standard Model KfSpec StandardInit StandardFacts
  KfStruct KfStruct2 SpecL2 L2Facts GaussSpec KfGlue Examples EmSpec EmGlue.
Import GRing.Theory Num.Theory Order.Theory.

Set Implicit Arguments.
Unset Strict Implicit.
Unset Printing Implicit Defensive.
Local Open Scope ring_scope.

Section Ex.
Variable R : rcfType.
Lemma ex_selects : seed_ok (k_rs (ex_o R)) /\
  (forall q, selects (requested (ex_o R) None) q <-> In q [:: Tc; Oc; Ism; Isc]) /\
  exists a, kf_init a = Ok (ex_o R) /\ a_em a = None.
Proof.
split=> //; split; last by exists (ex_args R).
by case=> /=; split=> H; repeat (case: H => // H); try tauto.
Qed.
Lemma ex_em_runs : seed_ok (k_rs (ex_o R)) /\
  (forall N ev, exists o', kf_em (ex_o R) (O2 2 (ex_zs R)) N ev = (o', Ok tt)) /\
  exists o' e, kf_em (ex_o R) (O2 2 [::]) 1 None = (o', Err e).
Proof.
split=> //; split.
  move=> N ev; have [o' [M' [H _ _]]] := kf_em_psd (ex_model R) (ex_psd R) erefl (erefl : size (ex_zs R) = 3%N) erefl N ev.
  by exists o'.
by do 2!eexists.
Qed.

(** time-varying transition matrices, positive definite covariances *)
Definition em_o : kf R :=
  KF (Some (A3 [:: shear 1; shear 2%:R])) None (Some (A2 (proj R + 1%:M))) None
     None (Some (A1 (e0 R + e1 R))) (Some (A1 (e0 R))) (Some (A2 (proj R + 1%:M))) (Some (RsSeed 7)) None 2 2
     (EmNames default_em_vars).
Definition em_M : lgm R 2 2 :=
  LGM (fun t => nth 0 [:: shear 1; shear 2%:R] t) (fun _ => 0) (fun _ => proj R + 1%:M)
      (fun _ => 1%:M) (fun _ => e0 R + e1 R) (fun _ => 1%:M) (e0 R) (proj R + 1%:M).
Lemma em_o_model : kf_model em_o 3 em_M.
Proof.
split=> //.
- by right; exists [:: shear 1; shear 2%:R].
- by left; exists (proj R + 1%:M).
- by move=> t _; apply/matrixP => i j; rewrite /eye !mxE.
- by left; exists (e0 R + e1 R).
Qed.
Lemma pp_pd : pd (proj R + 1%:M). Proof. by apply: pdD; [exact: proj_psd|exact: pd1]. Qed.
Lemma ex_em_mono :
  let ev := Some (EmNames [:: "transition_offsets"; "transition_covariance"; "observation_matrices";
     "observation_offsets"; "initial_state_mean"; "initial_state_covariance"]%string) in
  [/\ kf_model em_o 3 em_M, const2 (k_oc em_o), psd_model em_M 3, pd_model ex_mis 3 em_M &
      em_steady 3 (selects (requested em_o ev)) em_M /\ ~ selects (requested em_o ev) Oc].
Proof.
move=> ev; split=> //.
- exact: em_o_model.
- by split=> *; [exact: (pd_psd pp_pd)|exact: (pd_psd pp_pd)|exact: psd1].
- by split=> *; [exact: pp_pd|exact: pp_pd|exact: pd1].
- split; last by move=> /= H; repeat (case: H => // H).
  by split=> //= H; repeat (case: H => // H).
Qed.
End Ex.
