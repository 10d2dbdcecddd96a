(** Property theorems about the data set loader (pykalman/datasets/base.py). *)
From Coq Require Import String List.
From mathcomp Require Import all_ssreflect all_algebra.
From Verif Require Import Prelude LinAlg Numpy Sklearn Standard Model KfSpec StandardInit Datasets DsFacts.
Import GRing.Theory Num.Theory.

Set Implicit Arguments.
Unset Strict Implicit.
Unset Printing Implicit Defensive.
Local Open Scope ring_scope.

(** ** C50 *)
(** the observations are the stored measurements behind one masked row, and
    the stored parameters parameterise a filter for exactly that many steps *)
Theorem C50_loader (R : rcfType) n m T d (Y : 'M[R]_(m, T)) (M : lgm R n m) (Hd : mat_ok d Y M) :
  exists r zs, [/\ load_robot d = Ok r, r_T r = T.+1, ma_obs (r_obs r) = O2 m zs,
    padded T (fun t => \col_i mget Y i t) zs &
    exists2 o, kf_init (robot_args r) = Ok o & kf_model o T.+1 M].
Proof. exact: (load_robotE Hd). Qed.
Print Assumptions C50_loader.

(** the filter's first output on the loaded data is the stored initial distribution *)
Theorem C50_filter_starts_at_prior (R : rcfType) n m T d (Y : 'M[R]_(m.+1, T)) (M : lgm R n m.+1)
    (HT : (0 < T)%N) (Hd : mat_ok d Y M) :
  exists r o rows, [/\ load_robot d = Ok r, kf_init (robot_args r) = Ok o, kf_filter o (ma_obs (r_obs r)) = Ok rows,
    size rows = r_T r & List.nth_error rows 0 = Some (A1 (mmu M), A2 (mP M))].
Proof. exact: (robot_filter HT Hd). Qed.
Print Assumptions C50_filter_starts_at_prior.

Example C50_hypotheses_met (R : rcfType) (Y : 'M[R]_(2, 3)) : mat_ok (ex_mat Y) Y (ex_mat_M R).
Proof. exact: ex_mat_ok. Qed.
