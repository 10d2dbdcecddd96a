(** Vocabulary for statements about several objects in one memory: calls with
    arrays as arguments (Client.v) that correspond to calls with references. *)
From mathcomp Require Import all_ssreflect all_algebra.
From Verif Require Import Prelude LinAlg Numpy Sklearn Standard Rng Client Heap HeapSpec HeapClient.

Set Implicit Arguments.
Unset Strict Implicit.
Unset Printing Implicit Defensive.

Section Spec.
Variables (R : rcfType) (ln : R -> R) (ln2pi : R).
Implicit Types (h : heap R).

(** the references in the call show, in memory [h], the arrays of the other call *)
Definition same_call h (c : hcall) (c' : call R) : Prop :=
  match c, c' with
  | HFilter x, CFilter X | HSmooth x, CSmooth X | HLoglik x, CLoglik X => getidx h x = Ok (CObs X)
  | HUpdate m c z tm to tc om oo oc, CUpdate m' c' z' tm' to' tc' om' oo' oc' =>
      [/\ [/\ vread h m = Ok m', vread h c = Ok c' & shows_obs h z z'],
          [/\ shows h tm tm', shows h to to' & shows h tc tc'] &
          [/\ shows h om om', shows h oo oo' & shows h oc oc']]
  | HEm x n ev, CEm X n' ev' => [/\ getidx h x = Ok (CObs X), n = n' & ev = ev']
  | _, _ => False
  end.

(** the reply in memory [h] amounts to the reply on values *)
Definition same_reply h (r : hreply R) (r' : reply R) : Prop :=
  match r, r' with
  | HMoments r, RMoments r' => agree (moments_at [::] h) r r'
  | HNumber r, RNumber r' => r = r'
  | HState r, RState r' => agree (state_at [::] h) r r'
  | HUnit r, RUnit r' => r = r'
  | _, _ => False
  end.

(** every call reads its arguments when it is made: earlier results can be
    arguments of later calls *)
Fixpoint same_calls h (os : nat -> hkf) (cs : seq (nat * hcall)) (cs' : seq (nat * call R)) : Prop :=
  match cs, cs' with
  | [::], [::] => True
  | (i, c) :: cs1, (i', c') :: cs1' =>
      [/\ i = i', same_call h c c' &
          let '(h1, o1, _) := hstep ln ln2pi h (os i) c in
          same_calls h1 (fun j => if j == i then o1 else os j) cs1 cs1']
  | _, _ => False
  end.

(** what concerns object [i] *)
Definition of_object T (i : nat) (s : seq (nat * T)) : seq T := [seq x.2 | x <- s & x.1 == i].

(** two lists related element by element *)
Fixpoint pairwise {A B} (P : A -> B -> Prop) (s : seq A) (s' : seq B) : Prop :=
  match s, s' with
  | [::], [::] => True
  | a :: s1, b :: s1' => P a b /\ pairwise P s1 s1'
  | _, _ => False
  end.
End Spec.
