(** Examples: two readings averaged, two sensors fused. *)
From Coq Require Import String List.
From mathcomp Require Import all_ssreflect all_algebra.
From Verif Require Import Prelude LinAlg Numpy Standard Model KfSpec KfMoreSpec StandardInit StandardFacts GaussSpec SuffSpec KfSuffApi Examples.
Import GRing.Theory Num.Theory.

Set Implicit Arguments.
Unset Strict Implicit.
Unset Printing Implicit Defensive.
Local Open Scope ring_scope.

Section Suff.
Variable R : rcfType.
(** the first component is read *)
Definition one_M : lgm R 2 1 := with_sensor (ex_M R) (fun _ => (e0 R)^T) (fun t => t%:R%:M) (fun _ => 1%:M).
Definition ave_zs : seq (orow R 1) := [seq mk_row (missing r) (2%:R^-1 * \sum_i r.1 i 0)%:M | r <- ex_zs R].
Lemma ave_met : [/\ kf_model (obj_of (repeated 2 one_M) 3 false) 3 (repeated 2 one_M), kf_model (obj_of one_M 3 true) 3 one_M,
    psd_model one_M 3 /\ (forall t, (t < 3)%N -> pd (mR one_M t)), averaged (ex_zs R) ave_zs &
    size (ex_zs R) = 3%N /\ keeps (ex_zs R)].
Proof.
split=> //.
- exact: obj_model.
- exact: obj_model.
- by split; [split=> *; [exact: proj_psd|exact: proj_psd|exact: psd1]|move=> t _; exact: pd1].
- by do 3 (constructor; first by split=> //; rewrite missing_row); constructor.
Qed.

(** the second sensor is noisier *)
Definition N2 (t : nat) : 'M[R]_2 := proj R + 1%:M.
Definition both_zs : seq (orow R (2 + 2)) := [seq mk_row (ex_mis t) (col_mx (ex_d R t) (e1 R)) | t <- iota 0 3].
Definition fused_zs : seq (orow R 2) :=
  [seq mk_row (ex_mis t) (fused_cov (ex_M R) N2 t *m (invmx (1%:M) *m ex_d R t + invmx (N2 t) *m e1 R)) | t <- iota 0 3].
Lemma fuse_met : [/\ kf_model (obj_of (two_sensors (ex_M R) N2) 3 true) 3 (two_sensors (ex_M R) N2),
    kf_model (obj_of (fused_model (ex_M R) N2) 3 true) 3 (fused_model (ex_M R) N2),
    psd_model (ex_M R) 3 /\ (forall t, (t < 3)%N -> pd (mR (ex_M R) t) /\ pd (N2 t)), fused (ex_M R) N2 both_zs fused_zs &
    size both_zs = 3%N /\ keeps both_zs].
Proof.
split=> //.
- exact: obj_model.
- exact: obj_model.
- split; first exact: ex_psd.
  by move=> t _; split; [exact: pd1|apply: pdD; [exact: proj_psd|exact: pd1]].
- split=> // t r r' H H'; have [_ ->] := nth_error_iota H; have [_ ->] := nth_error_iota H'.
  by rewrite !missing_row /= col_mxKu col_mxKd.
Qed.
Lemma suff_met : let M := two_sensors (ex_M R) N2 in let M' := fused_model (ex_M R) N2 in
  [/\ kf_model (obj_of M 3 true) 3 M /\ const2 (k_oc (obj_of M 3 true)),
      kf_model (obj_of M' 3 true) 3 M' /\ const2 (k_oc (obj_of M' 3 true)), psd_model M 3,
      forall t, (t < 3)%N -> [/\ pd (mR M t), pd (mR M' t) & reading M' fused_zs t = reading M both_zs t] &
      [/\ size both_zs = 3%N, size fused_zs = 3%N, keeps both_zs & keeps fused_zs]].
Proof.
have [H1 H2 [H3 H4] H5 [H6 H7]] := fuse_met.
have HR t (h : (t < 3)%N) := (H4 t h).1; have HN t (h : (t < 3)%N) := (H4 t h).2.
split=> //; first exact: two_psd.
by move=> t tT; split; [exact: (two_pd HR HN)|exact: (fc_pd HR HN)|exact: (fuse_reading H5 HR HN H6)].
Qed.
End Suff.
