(** Vocabulary of further property statements about KalmanFilter: forecasts,
    restarted filters, scaled and ordered models.  Nothing here is used by the
    code model. *)
From Coq Require Import String List.
From mathcomp Require Import all_ssreflect all_algebra.
From Verif Require Import Prelude LinAlg Numpy Sklearn Standard Model KfSpec SpecL2.
Import GRing.Theory Num.Theory.

Set Implicit Arguments.
Unset Strict Implicit.
Unset Printing Implicit Defensive.
Local Open Scope ring_scope.

Section More.
Variables (R : rcfType) (n m : nat).
Implicit Types (M : lgm R n m) (s : 'cV[R]_n * 'M[R]_n).

(** moments of the state at time [t + k] from moments [s] of the state at time
    [t], without further observations *)
Fixpoint forecast M t s k : 'cV[R]_n * 'M[R]_n :=
  match k with
  | 0 => s
  | k'.+1 => let f := forecast M t s k' in
      (mA M (t + k') *m f.1 + mb M (t + k'), mA M (t + k') *m f.2 *m (mA M (t + k'))^T + mQ M (t + k'))
  end.

(** the model seen from time [k] on, with initial moments [s] *)
Definition shift_model M k s : lgm R n m :=
  LGM (fun t => mA M (k + t)) (fun t => mb M (k + t)) (fun t => mQ M (k + t))
      (fun t => mC M (k + t)) (fun t => md M (k + t)) (fun t => mR M (k + t)) s.1 s.2.

(** all three covariances multiplied by [c] *)
Definition scale_model M (c : R) : lgm R n m :=
  LGM (mA M) (mb M) (fun t => c *: mQ M t) (mC M) (md M) (fun t => c *: mR M t) (mmu M) (c *: mP M).

(** same dynamics and observation matrices, no larger covariances (offsets and
    initial means may differ) *)
Record less_noise T M M' : Prop := LessNoise {
  ln_A : forall t, (t < T.-1)%N -> mA M' t = mA M t; ln_C : forall t, (t < T)%N -> mC M' t = mC M t;
  ln_Q : forall t, (t < T.-1)%N -> lep (mQ M t) (mQ M' t); ln_R : forall t, (t < T)%N -> lep (mR M t) (mR M' t);
  ln_P : lep (mP M) (mP M') }.

(** same offsets and initial mean *)
Record same_offsets T M M' : Prop := SameOffsets {
  so_b : forall t, (t < T.-1)%N -> mb M' t = mb M t; so_d : forall t, (t < T)%N -> md M' t = md M t;
  so_mu : mmu M' = mmu M }.

(** no uncertainty about the state: known initial state, no process noise *)
Definition known_state M T : Prop := mP M = 0 /\ forall t, (t < T.-1)%N -> mQ M t = 0.
(** the mean_path of the mean *)
Fixpoint mean_path M t : 'cV[R]_n := if t is t'.+1 then mA M t' *m mean_path M t' + mb M t' else mmu M.
End More.

(** two models side by side, without interaction *)
Definition block_model (R : rcfType) n1 n2 m1 m2 (M1 : lgm R n1 m1) (M2 : lgm R n2 m2) : lgm R (n1 + n2) (m1 + m2) :=
  LGM (fun t => block_mx (mA M1 t) 0 0 (mA M2 t)) (fun t => col_mx (mb M1 t) (mb M2 t))
      (fun t => block_mx (mQ M1 t) 0 0 (mQ M2 t))
      (fun t => block_mx (mC M1 t) 0 0 (mC M2 t)) (fun t => col_mx (md M1 t) (md M2 t))
      (fun t => block_mx (mR M1 t) 0 0 (mR M2 t)) (col_mx (mmu M1) (mmu M2)) (block_mx (mP M1) 0 0 (mP M2)).

(** number of observed rows *)
Definition n_observed (R : rcfType) m (zs : seq (orow R m)) : nat := count (fun r => ~~ missing r) zs.

(** [Xh] estimates [X] without bias and [P] is an upper bound (Loewner order) of
    the covariance of its error *)
Definition safe_estimate (R : rcfType) (Sp : l2space R) n (X Xh : Om Sp -> 'cV[R]_n) (P : 'M[R]_n) : Prop :=
  mean (fun om => X om - Xh om) = 0 /\ lep (cov (fun om => X om - Xh om) (fun om => X om - Xh om)) P.
