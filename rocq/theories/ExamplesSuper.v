(** The hypotheses of C74 - C76 are met. *)
From Coq Require Import String List.
From mathcomp Require Import all_ssreflect all_fingroup all_algebra.
From mathcomp Require Import ring.
From Verif Require Import Prelude LinAlg Numpy Sklearn Standard Model KfSpec KfLsSpec KfSuperSpec StandardFacts KfLs Examples ExamplesEm.
Import GRing.Theory Num.Theory.

Set Implicit Arguments.
Unset Strict Implicit.
Unset Printing Implicit Defensive.
Local Open Scope ring_scope.

Section Ex.
Variable R : rcfType.

Lemma super_met :
  let b1 t : 'cV[R]_2 := t%:R *: e0 R in let b2 (_ : nat) := e1 R in
  let d1 (_ : nat) := e0 R in let d2 t : 'cV[R]_2 := t%:R *: e1 R in
  exists (o1 o2 o3 : kf R) zs1 zs2 zs3,
  [/\ kf_model o1 3 (with_means (em_M R) b1 d1 (e0 R)), kf_model o2 3 (with_means (em_M R) b2 d2 (e1 R)) &
      kf_model o3 3 (with_means (em_M R) (mix 2%:R (-1) b1 b2) (mix 2%:R (-1) d1 d2) (2%:R *: e0 R + (-1) *: e1 R))] /\
  [/\ rows_of 3 ex_mis (@ex_d R) zs1, rows_of 3 ex_mis (fun t => t%:R *: e1 R) zs2 &
      rows_of 3 ex_mis (mix 2%:R (-1) (@ex_d R) (fun t => t%:R *: e1 R)) zs3].
Proof.
move=> b1 b2 d1 d2; exists (obj_of (with_means (em_M R) b1 d1 (e0 R)) 3 true), (obj_of (with_means (em_M R) b2 d2 (e1 R)) 3 false).
exists (obj_of (with_means (em_M R) (mix 2%:R (-1) b1 b2) (mix 2%:R (-1) d1 d2) (2%:R *: e0 R + (-1) *: e1 R)) 3 false).
do 3 eexists; split; split; try exact: obj_model; exact: rows_of_mk.
Qed.
Lemma origin_met : exists o o' : kf R, [/\ kf_model o 3 (em_M R), kf_model o' 3 (moving_origin (em_M R) (fun t => t%:R *: e1 R)) & size (ex_zs R) = 3%N].
Proof.
exists (em_o R), (obj_of (moving_origin (em_M R) (fun t => t%:R *: e1 R)) 3 true); split=> //; first exact: em_o_model.
exact: obj_model.
Qed.

(** a season of two: transition and mask alternate, the initial state is known *)
Definition seas_M : lgm R 2 2 :=
  LGM (fun t => if odd t then shear 1 else shear 2%:R) (fun _ => 0) (fun _ => proj R) (fun _ => 1%:M) (fun _ => 0) (fun _ => 1%:M) (e0 R) 0.
Definition seas_zs : seq (orow R 2) := [seq mk_row (odd t) (ex_d R t) | t <- iota 0 6].
Lemma certain_met : [/\ kf_model (obj_of seas_M 6 true) 6 seas_M, psd_model seas_M 6, size seas_zs = 6%N, periodic 6 2 seas_M seas_zs & mP seas_M = 0].
Proof.
split=> //; first exact: obj_model.
- by split=> *; [exact: psd0|exact: proj_psd|exact: psd1].
- split=> //= t; rewrite ?oddD ?addbF //.
  do 4 (case: t => [|t]; first by rewrite /stream /= !missing_row).
  by rewrite addn2.
Qed.

(** the steady state: initial covariance 2, noise covariances 1 and 2 *)
Definition fix_M : lgm R 2 2 :=
  LGM (fun _ => 1%:M) (fun _ => 0) (fun _ => 1%:M) (fun _ => 1%:M) (fun _ => 0) (fun _ => 2%:R%:M) (e0 R) 2%:R%:M.
Definition fix_zs : seq (orow R 2) := [seq mk_row false (ex_d R t) | t <- iota 0 4].
Lemma fix_met : [/\ kf_model (obj_of fix_M 4 true) 4 fix_M, psd_model fix_M 4, size fix_zs = 4%N & periodic 4 1 fix_M fix_zs] /\
  exists (x : nat -> 'cV[R]_2) (P : nat -> 'M[R]_2),
  kf_filter (obj_of fix_M 4 true) (O2 2 fix_zs) = Ok [seq (A1 (x t), A2 (P t)) | t <- iota 0 4] /\
  mA fix_M 0 *m P 0%N *m (mA fix_M 0)^T + mQ fix_M 0 = mP fix_M.
Proof.
have Ho : kf_model (obj_of fix_M 4 true) 4 fix_M by exact: obj_model.
have p2 : psd (2%:R%:M : 'M[R]_2) by rewrite -scalemx1; apply: psdZ; [exact: ler0n|exact: psd1].
split; first split=> //.
- by split=> * //; exact: psd1.
- split=> //= t H; do 3 (case: t H => [|t] H; first by rewrite /stream /= !missing_row).
  by move: H; rewrite addn1.
exists (fun t => (filt fix_M (stream fix_zs) t).1), (fun t => (filt fix_M (stream fix_zs) t).2); split.
  exact: (kf_filter_ok Ho).
have U : (4%:R%:M : 'M[R]_2) \in unitmx by rewrite unitmxE det_scalar unitrX // unitfE pnatr_eq0.
have E4 : 2%:R%:M + 2%:R%:M = 4%:R%:M :> 'M[R]_2 by rewrite -raddfD -natrD.
rewrite /filt /= /correct /stream /= missing_row /gain /innov_cov /= !(mul1mx, mulmx1, trmx1) E4 pinv_unit // invmx_scalar -!scalar_mxM.
rewrite -!raddfB -raddfD; apply: f_equal; field.
by rewrite ?pnatr_eq0.
Qed.

(** the readings of [rest_M] backwards *)
Definition rest_M' : lgm R 2 2 :=
  LGM (fun _ => 1%:M) (fun _ => 0) (fun _ => 0) (fun t => shear (2 - t)%N%:R) (fun _ => e0 R) (fun _ => 1%:M) (e0 R) (proj R + 1%:M).
Lemma order_met : exists (s : 'S_3) (o o' : kf R), s <> 1%g /\
  [/\ kf_model o 3 (rest_M R), kf_model o' 3 rest_M', size (ex_zs R) = 3%N & keeps (ex_zs R)] /\
  [/\ at_rest (rest_M R) 3, at_rest rest_M' 3, reordered s (rest_M R) rest_M' (ex_zs R) (rev (ex_zs R)) & fit_weights_exist (rest_M R) (ex_zs R) 3].
Proof.
have [h1 h2 h3 h4 h5] := rest_met R.
exists (perm (@rev_ord_inj 3)), (obj_of (rest_M R) 3 true), (obj_of rest_M' 3 true); split.
  by move=> /permP/(_ ord0); rewrite permE perm1 => /(congr1 val).
do 2 split=> //; first exact: obj_model.
split=> // t; rewrite permE //; by case: t => [[|[|[|t]]] Ht].
Qed.
End Ex.
