(** Property theorems: em in other units (C73). *)
From Coq Require Import String List.
From mathcomp Require Import all_ssreflect all_algebra.
From Verif Require Import Prelude LinAlg Numpy Sklearn Standard Model KfSpec EmSpec EmEquiv Examples ExamplesEm ExamplesEmUnits.
Import GRing.Theory Num.Theory.

Set Implicit Arguments.
Unset Strict Implicit.
Unset Printing Implicit Defensive.
Local Open Scope ring_scope.

(** ** C73 *)
Theorem C73_state_units (R : rcfType) n m T (mis : nat -> bool) (y : nat -> 'cV[R]_m) (zs : seq (orow R m)) (T0 : (0 < T)%N)
    (Hr : rows_of T mis y zs) (Hk : (T != 1%N) || (m <= 1)%N) (o o' : kf R) (M : lgm R n m) ev N (Ho : kf_model o T M)
    (Hq : requested o' ev = requested o ev) (HM : psd_model M T) (Hpd : pd_model mis T M)
    (Hpd' : selects (requested o ev) Oc -> forall k o1 (M1 : lgm R n m), (0 < k <= N)%N ->
       kf_em o (O2 m zs) k ev = (o1, Ok tt) -> kf_model o1 T M1 ->
       forall t, (t < T)%N -> ~~ mis t -> pd (mR M1 t))
    (G : 'M[R]_n) (h : 'cV[R]_n) (UG : G \in unitmx) (Ho' : kf_model o' T (coord_model M G h))
    (Hh : h = 0 \/ forall q, List.In q [:: Tm; To; Om'; Oo] -> ~ selects (requested o ev) q) :
  exists o1 o1' (M1 : lgm R n m), [/\ kf_em o (O2 m zs) N ev = (o1, Ok tt), kf_em o' (O2 m zs) N ev = (o1', Ok tt),
    kf_model o1 T M1 & kf_model o1' T (coord_model M1 G h)].
Proof. exact: (em_coord_api T0 Hr Hk Ho Hq HM Hpd Hpd' UG Ho' Hh). Qed.
Print Assumptions C73_state_units.

Theorem C73_observation_units (R : rcfType) n m T (mis : nat -> bool) (y : nat -> 'cV[R]_m) (zs zs' : seq (orow R m)) (T0 : (0 < T)%N)
    (Hr : rows_of T mis y zs) (Hk : (T != 1%N) || (m <= 1)%N) (o o' : kf R) (M : lgm R n m) ev N (Ho : kf_model o T M)
    (Hq : requested o' ev = requested o ev) (HM : psd_model M T) (Hpd : pd_model mis T M)
    (Hpd' : selects (requested o ev) Oc -> forall k o1 (M1 : lgm R n m), (0 < k <= N)%N ->
       kf_em o (O2 m zs) k ev = (o1, Ok tt) -> kf_model o1 T M1 ->
       forall t, (t < T)%N -> ~~ mis t -> pd (mR M1 t))
    (U : 'M[R]_m) (g : 'cV[R]_m) (HU : U \in unitmx) (Ho' : kf_model o' T (recode_model M U g)) (Hz : recoded U g zs zs')
    (Hv : selects (requested o ev) Oo -> exists2 t, (t < T)%N & ~~ mis t) :
  exists o1 o1' (M1 : lgm R n m), [/\ kf_em o (O2 m zs) N ev = (o1, Ok tt), kf_em o' (O2 m zs') N ev = (o1', Ok tt),
    kf_model o1 T M1 & kf_model o1' T (recode_model M1 U g)].
Proof. exact: (em_recode_api T0 Hr Hk Ho Hq HM Hpd Hpd' HU Ho' Hz Hv). Qed.
Print Assumptions C73_observation_units.

Example C73_hypotheses_met (R : rcfType) :
  let ev := Some (EmNames [:: "transition_matrices"; "transition_offsets"; "transition_covariance"; "observation_matrices";
     "observation_offsets"; "initial_state_mean"; "initial_state_covariance"]%string) in
  let G := shear (3%:R : R) in
  exists (o' o'' : kf R) zs', [/\ rows_of 3 ex_mis (@ex_d R) (ex_zs R), kf_model (em_o R) 3 (em_M R), psd_model (em_M R) 3,
    pd_model ex_mis 3 (em_M R) & ~ selects (requested (em_o R) ev) Oc] /\
  [/\ G \in unitmx, kf_model o' 3 (coord_model (em_M R) G 0), kf_model o'' 3 (recode_model (em_M R) G (e1 R)),
    recoded G (e1 R) (ex_zs R) zs' & exists2 t, (t < 3)%N & ~~ ex_mis t].
Proof. exact: em_units_met. Qed.

(** origin moved as well; only covariances and the initial state estimated *)
Example C73_shift_hypotheses_met (R : rcfType) :
  let ev := Some (EmNames [:: "transition_covariance"; "initial_state_mean"; "initial_state_covariance"]%string) in
  let G := shear (3%:R : R) in
  exists o' : kf R, [/\ kf_model (em_o R) 3 (em_M R), psd_model (em_M R) 3, pd_model ex_mis 3 (em_M R),
    kf_model o' 3 (coord_model (em_M R) G (e1 R)) & forall q, List.In q [:: Tm; To; Om'; Oo; Oc] -> ~ selects (requested (em_o R) ev) q].
Proof. exact: em_shift_met. Qed.
