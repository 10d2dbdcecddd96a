(** The hypotheses of C73 are met by a time-varying model with a masked row. *)
From Coq Require Import String List.
From mathcomp Require Import all_ssreflect all_algebra.
From Verif Require Import Prelude LinAlg Numpy Sklearn Standard Model KfSpec EmSpec Exists Examples ExamplesEm.
Import GRing.Theory Num.Theory.

Set Implicit Arguments.
Unset Strict Implicit.
Unset Printing Implicit Defensive.
Local Open Scope ring_scope.

Lemma em_units_met (R : rcfType) :
  let ev := Some (EmNames [:: "transition_matrices"; "transition_offsets"; "transition_covariance"; "observation_matrices";
     "observation_offsets"; "initial_state_mean"; "initial_state_covariance"]%string) in
  let G := shear (3%:R : R) in
  exists (o' o'' : kf R) zs', [/\ rows_of 3 ex_mis (@ex_d R) (ex_zs R), kf_model (em_o R) 3 (em_M R), psd_model (em_M R) 3,
    pd_model ex_mis 3 (em_M R) & ~ selects (requested (em_o R) ev) Oc] /\
  [/\ G \in unitmx, kf_model o' 3 (coord_model (em_M R) G 0), kf_model o'' 3 (recode_model (em_M R) G (e1 R)),
    recoded G (e1 R) (ex_zs R) zs' & exists2 t, (t < 3)%N & ~~ ex_mis t].
Proof.
have [h1 h2 h3 h4 _] := ex_em_mono R.
exists (obj_of (coord_model (em_M R) (shear 3%:R) 0) 3 true), (obj_of (recode_model (em_M R) (shear 3%:R) (e1 R)) 3 false).
exists [seq mk_row (missing r) (shear 3%:R *m r.1 + e1 R) | r <- ex_zs R]; split; split=> //.
- exact: ex_rows.
- by move=> /= H; repeat (case: H => // H).
- exact: shear_unit.
- exact: obj_model.
- exact: obj_model.
- by do 3 (constructor; first by split=> //; rewrite missing_row); constructor.
- by exists 0%N.
Qed.

Lemma em_shift_met (R : rcfType) :
  let ev := Some (EmNames [:: "transition_covariance"; "initial_state_mean"; "initial_state_covariance"]%string) in
  let G := shear (3%:R : R) in
  exists o' : kf R, [/\ kf_model (em_o R) 3 (em_M R), psd_model (em_M R) 3, pd_model ex_mis 3 (em_M R),
    kf_model o' 3 (coord_model (em_M R) G (e1 R)) & forall q, List.In q [:: Tm; To; Om'; Oo; Oc] -> ~ selects (requested (em_o R) ev) q].
Proof.
have [h1 h2 h3 h4 _] := ex_em_mono R.
exists (obj_of (coord_model (em_M R) (shear 3%:R) (e1 R)) 3 true); split=> //; first exact: obj_model.
by move=> q Hq; case: Hq => [<-|[<-|[<-|[<-|[<-|[]]]]]] /= H; repeat (case: H => // H).
Qed.
