(** Vocabulary: dropping a masked time step, sensors read one after the other.
    Nothing here is used by the code model. *)
From Coq Require Import String List.
From mathcomp Require Import all_ssreflect all_algebra.
From Verif Require Import Prelude LinAlg Numpy Sklearn Standard Model KfSpec.
Import GRing.Theory Num.Theory.

Set Implicit Arguments.
Unset Strict Implicit.
Unset Printing Implicit Defensive.
Local Open Scope ring_scope.

Section Merge.
Variables (R : rcfType) (n m : nat).

(** the model without time step [k + 1]: the transitions into and out of it
    become a single one *)
Definition merge_model (M : lgm R n m) (k : nat) : lgm R n m :=
  let at_ (V : Type) (F : nat -> V) (X : V) t := if (t < k)%N then F t else if t == k then X else F t.+1 in
  LGM (at_ _ (mA M) (mA M k.+1 *m mA M k))
      (at_ _ (mb M) (mA M k.+1 *m mb M k + mb M k.+1))
      (at_ _ (mQ M) (mA M k.+1 *m mQ M k *m (mA M k.+1)^T + mQ M k.+1))
      (fun t => mC M (bump k.+1 t)) (fun t => md M (bump k.+1 t)) (fun t => mR M (bump k.+1 t)) (mmu M) (mP M).

(** a list without its element number [k] *)
Definition without (U : Type) (k : nat) (l : seq U) : seq U := take k l ++ drop k.+1 l.
End Merge.
