(** Property theorems: BiermanKalmanFilter and integer arrays (C61).
    [trunc] is the conversion of a float to the integer dtype; all that is
    assumed of it is [int_cast B trunc]: truncation towards zero of numbers
    below [B] in absolute value. *)
From Coq Require Import String List.
From mathcomp Require Import all_ssreflect all_algebra.
From Verif Require Import Prelude LinAlg Numpy Sklearn Standard Model KfSpec SqrtSpec Sqrt Bierman BiermanInt BiIntSpec BiIntFacts.
Import GRing.Theory Num.Theory.

Set Implicit Arguments.
Unset Strict Implicit.
Unset Printing Implicit Defensive.
Local Open Scope ring_scope.

(** Full statement (false): for parameters with integer entries,
    [bkf_filter_int trunc true true o X = kf_filter o X] whenever
    [bkf_filter o X = kf_filter o X]. *)
Theorem C61_integer_covariance_refuted (R : rcfType) (B : nat) (trunc : R -> R) (B2 : (2 < B)%N) (Ht : int_cast B trunc) :
  exists (o : kf R) (M : lgm R 2 1) (zs : seq (orow R 1)) rows rows',
    [/\ psd_kf o 1 M /\ pd (mP M), k_ic o = Some (A2 (mP M)) /\ int_entries B (mP M), size zs = 1%N,
        kf_filter o (O2 1 zs) = Ok rows &
        bkf_filter_int trunc true false o (O2 1 zs) = Ok rows' /\ rows <> rows'].
Proof. exact: (int_ic_refuted B2 Ht). Qed.
Print Assumptions C61_integer_covariance_refuted.

(** which matrix is used in place of an integer initial covariance of two states *)
Theorem C61_matrix_used (R : rcfType) (trunc : R -> R) (a b c : R) (c0 : 0 < c) :
  udu_int trunc (A2 (sym2 a b c)) = udu (A2 (sym2 (trunc (a - b * (c^-1 * b)) + b * (c^-1 * b)) b c)).
Proof. exact: udu_int2. Qed.
Print Assumptions C61_matrix_used.

(** the class then behaves exactly as if it had been given that matrix *)
Theorem C61_behaves_as_other_matrix (R : rcfType) (trunc : R -> R) (o : kf R) (P P' : 'M[R]_(k_n o)) X (Hs : seed_ok (k_rs o))
    (E : k_ic o = Some (A2 P)) (U : udu_int trunc (A2 P) = udu (A2 P')) :
  [/\ bkf_filter_int trunc true false o X = bkf_filter (set_ic o (A2 P')) X,
      bkf_smooth_int trunc true false o X = bkf_smooth (set_ic o (A2 P')) X &
      forall ln ln2pi, bkf_loglikelihood_int trunc true false ln ln2pi o X = bkf_loglikelihood ln ln2pi (set_ic o (A2 P')) X].
Proof. exact: (misread_ic X Hs E U). Qed.
Print Assumptions C61_behaves_as_other_matrix.

(** integer observation matrices, one per time step *)
Theorem C61_integer_observation_matrices_refuted (R : rcfType) (B : nat) (trunc : R -> R) (B2 : (2 < B)%N) (Ht : int_cast B trunc) :
  exists (o : kf R) (M : lgm R 1 1) (s : seq 'M[R]_1) (zs : seq (orow R 1)) rows rows',
    [/\ psd_kf o 2 M /\ pd (mP M), k_om o = Some (A3 s) /\ (forall C, C \in s -> int_entries B C), size zs = 2%N,
        kf_filter o (O2 1 zs) = Ok rows &
        bkf_filter_int trunc false true o (O2 1 zs) = Ok rows' /\ rows <> rows'].
Proof. exact: (int_om_refuted B2 Ht). Qed.
Print Assumptions C61_integer_observation_matrices_refuted.

(** what does hold: a diagonal integer covariance, a single integer observation matrix *)
Theorem C61_diagonal_covariance_partial (R : rcfType) (B : nat) (trunc : R -> R) (Ht : int_cast B trunc)
    (o : kf R) (P : 'M[R]_(k_n o)) X (Hs : seed_ok (k_rs o)) (E : k_ic o = Some (A2 P)) (HP : int_entries B P) (D : diagonal P) :
  [/\ bkf_filter_int trunc true false o X = bkf_filter o X,
      bkf_smooth_int trunc true false o X = bkf_smooth o X &
      forall ln ln2pi, bkf_loglikelihood_int trunc true false ln ln2pi o X = bkf_loglikelihood ln ln2pi o X].
Proof. exact: (diag_right Ht X Hs E HP D). Qed.
Print Assumptions C61_diagonal_covariance_partial.

Theorem C61_single_observation_matrix_partial (R : rcfType) (trunc : R -> R) (o : kf R) m n (C : 'M[R]_(m, n)) ic_int X
    (Hs : seed_ok (k_rs o)) (E : k_om o = Some (A2 C)) :
  [/\ bkf_filter_int trunc ic_int true o X = bkf_filter_int trunc ic_int false o X,
      bkf_smooth_int trunc ic_int true o X = bkf_smooth_int trunc ic_int false o X &
      forall ln ln2pi, bkf_loglikelihood_int trunc ic_int true ln ln2pi o X = bkf_loglikelihood_int trunc ic_int false ln ln2pi o X].
Proof. exact: (single_om trunc ic_int X Hs E). Qed.
Print Assumptions C61_single_observation_matrix_partial.

(** a conversion as assumed exists for every bound; [[2, 1], [1, 2]] is read
    as [[3/2, 1], [1, 2]]; [[3, 0], [0, -1]] is diagonal with integer entries *)
Example C61_hypotheses_met (R : rcfType) :
  [/\ forall B, int_cast B (@cast_of R B),
      udu_int (@cast_of R 3) (A2 (sym2 2%:R 1 2%:R)) = udu (A2 (sym2 (1 + 2%:R^-1) 1 (2%:R : R))) &
      let o := w_ic (w_P R) in
      [/\ seed_ok (k_rs o), k_ic o = Some (A2 (w_P R)), int_entries 4 (w_P R) & diagonal (w_P R)]].
Proof.
split; [exact: cast_of_ok|exact: (iP_read (isT : (2 < 3)%N) (cast_of_ok R 3))|].
by split=> //; [exact: w_P_int|exact: w_P_diag].
Qed.
