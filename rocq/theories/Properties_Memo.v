(** C83: remembering an earlier state in the state vector.  [memo_model M s]
    (MemoSpec.v): the second half of the state is the state at time [s]. *)
From Coq Require Import String List.
From mathcomp Require Import all_ssreflect all_algebra.
From Verif Require Import Prelude LinAlg Numpy Standard Model KfSpec StandardFacts MemoSpec KfMemo Examples.
Import GRing.Theory Num.Theory.

Set Implicit Arguments.
Unset Strict Implicit.
Unset Printing Implicit Defensive.
Local Open Scope ring_scope.

Theorem C83_filter_of_remembering_state (R : rcfType) n m (M : lgm R n m) T (zs : seq (orow R m)) s (o o' : kf R)
    (Ho : kf_model o T M) (Ho' : kf_model o' T (memo_model M s)) (HM : psd_model M T) (Hsz : size zs = T) (Hk : keeps zs) :
  exists (x h : nat -> 'cV[R]_n) (P X Y : nat -> 'M[R]_n) rows,
  [/\ kf_filter o (O2 m zs) = Ok [seq (A1 (x t), A2 (P t)) | t <- iota 0 T],
      kf_filter o' (O2 m zs) = Ok rows,
      forall t, (s <= t < T)%N -> List.nth_error rows t =
        Some (A1 (col_mx (x t) (h t)), A2 (block_mx (P t) (X t)^T (X t) (Y t))) &
      forall t, (s <= t < T)%N -> keeps (take t.+1 zs) -> exists2 srows,
        kf_smooth o (O2 m (take t.+1 zs)) = Ok srows & List.nth_error srows s = Some (A1 (h t), A2 (Y t))].
Proof. exact: (memo_api Ho Ho' HM Hsz Hk). Qed.
Print Assumptions C83_filter_of_remembering_state.

(** the state at time 1 remembered, singular covariances, a masked row *)
Example C83_hypotheses_met (R : rcfType) :
  [/\ kf_model (ex_o R) 3 (ex_M R), kf_model (obj_of (memo_model (ex_M R) 1) 3 true) 3 (memo_model (ex_M R) 1),
      psd_model (ex_M R) 3, size (ex_zs R) = 3%N & [/\ keeps (ex_zs R), keeps (take 2 (ex_zs R)) & keeps (take 3 (ex_zs R))]].
Proof. by split=> //; [exact: ex_model|exact: obj_model|exact: ex_psd]. Qed.
