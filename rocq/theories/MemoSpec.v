(** A state that remembers: the pair of the current state and the state at time [s]. *)
From mathcomp Require Import all_ssreflect all_algebra.
From Verif Require Import LinAlg Numpy Model.
Import GRing.Theory.

Set Implicit Arguments.
Unset Strict Implicit.
Unset Printing Implicit Defensive.
Local Open Scope ring_scope.

Section Memo.
Variables (R : rcfType) (n m : nat) (M : lgm R n m) (s : nat).
(** up to time [s] the second half copies the first, afterwards it is kept *)
Definition memo_model : lgm R (n + n) m :=
  LGM (fun t => if (t < s)%N then block_mx (mA M t) 0 (mA M t) 0 else block_mx (mA M t) 0 0 1%:M)
      (fun t => if (t < s)%N then col_mx (mb M t) (mb M t) else col_mx (mb M t) 0)
      (fun t => if (t < s)%N then block_mx (mQ M t) (mQ M t) (mQ M t) (mQ M t) else block_mx (mQ M t) 0 0 0)
      (fun t => row_mx (mC M t) 0) (md M) (mR M)
      (col_mx (mmu M) (mmu M)) (block_mx (mP M) (mP M) (mP M) (mP M)).
End Memo.
