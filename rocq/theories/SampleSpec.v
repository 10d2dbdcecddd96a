(** What a simulated trajectory of the linear-Gaussian model is, relative to a
    generator whose draws are taken one after the other. *)
From mathcomp Require Import all_ssreflect all_algebra.
From Verif Require Import Prelude LinAlg Numpy Sklearn Standard Model Rng.
Import GRing.Theory Num.Theory.

Set Implicit Arguments.
Unset Strict Implicit.
Unset Printing Implicit Defensive.
Local Open Scope ring_scope.

Section Spec.
Variables (R : rcfType) (G : Type) (rl : rng_lib R G) (n m : nat) (M : lgm R n m).
Variables (Q : nat -> 'M[R]_n) (V : nat -> 'M[R]_m).
Local Notation draw c g := (mvn rl 0 c g).

(** states [x], observations [z], noises [w], [v]; [h t] ([k t]) is the state of
    the generator before (after) the observation noise of time [t] is drawn *)
Record trajectory (T : nat) (x0 : option 'cV[R]_n) (g g' : G) (x : nat -> 'cV[R]_n) (z : nat -> 'cV[R]_m) : Prop :=
  Trajectory {
  tj_ex : exists (w : nat -> 'cV[R]_n) (v : nat -> 'cV[R]_m) (h k : nat -> G),
  [/\ if x0 is Some a then x 0%N = a /\ h 0%N = g else mvn rl (mmu M) (mP M) g = (x 0%N, h 0%N),
      forall t, (t < T)%N -> draw (V t) (h t) = (v t, k t) /\ z t = mC M t *m x t + md M t + v t,
      forall t, (t.+1 < T)%N -> draw (Q t) (k t) = (w t, h t.+1) /\
                                x t.+1 = mA M t *m x t + mb M t + w t &
      g' = if T is T'.+1 then k T' else h 0%N] }.
End Spec.

(** state of the generator with a given handle *)
Definition state_of (R : rcfType) G (rl : rng_lib R G) (h : genh) (w : world G) : G :=
  match h with HGlobal => w_global w | HFresh z => seed_state rl z | HInst i => w_inst w i end.
(** the world after that generator went to state [g] *)
Definition after G (h : genh) (w : world G) (g : G) : world G :=
  match h with
  | HGlobal => World g (w_inst w)
  | HFresh _ => w
  | HInst i => World (w_global w) (fun j => if j == i then g else w_inst w j)
  end.
(** the generator designated by a random_state argument *)
Definition handle (r : option rspec) : option genh :=
  match r with
  | None | Some RsModule => Some HGlobal
  | Some (RsSeed z) => if (0 <= z) && (z < 2%:R ^+ 32) then Some (HFresh z) else None
  | Some (RsGen i) => Some (HInst i)
  | Some RsOther => None
  end.
