(** Leaving out state components which neither the readings nor the kept components see. *)
From mathcomp Require Import all_ssreflect all_algebra.
From Verif Require Import LinAlg Numpy Model.
Import GRing.Theory.

Set Implicit Arguments.
Unset Strict Implicit.
Unset Printing Implicit Defensive.
Local Open Scope ring_scope.

Section Reduces.
Variables (R : rcfType) (n k m : nat).
(** [M'] is a model of the [k] quantities [W x]: their next values depend on the
    state only through them, and so do the observations *)
Record reduces (T : nat) (W : 'M[R]_(k, n)) (M : lgm R n m) (M' : lgm R k m) : Prop := Reduces {
  rd_A : forall t, (t.+1 < T)%N -> W *m mA M t = mA M' t *m W;
  rd_b : forall t, (t.+1 < T)%N -> mb M' t = W *m mb M t;
  rd_Q : forall t, (t.+1 < T)%N -> mQ M' t = W *m mQ M t *m W^T;
  rd_C : forall t, (t < T)%N -> mC M t = mC M' t *m W;
  rd_d : forall t, (t < T)%N -> md M' t = md M t;
  rd_R : forall t, (t < T)%N -> mR M' t = mR M t;
  rd_mu : mmu M' = W *m mmu M;
  rd_P : mP M' = W *m mP M *m W^T
}.
End Reduces.
(** example: the state together with the running sum of its values *)
Definition accum_model (R : rcfType) n m (M : lgm R n m) : lgm R (n + n) m :=
  LGM (fun t => block_mx (mA M t) 0 1%:M 1%:M) (fun t => col_mx (mb M t) 0)
      (fun t => col_mx 1%:M 0 *m mQ M t *m (col_mx 1%:M 0)^T)
      (fun t => row_mx (mC M t) 0) (md M) (mR M)
      (col_mx (mmu M) 0) (col_mx 1%:M 0 *m mP M *m (col_mx 1%:M 0)^T).
