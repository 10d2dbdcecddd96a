(** Specifications: arguments of filter_update of the unscented classes. *)
From mathcomp Require Import all_ssreflect all_algebra.
From Verif Require Import Prelude LinAlg Numpy Sklearn Standard Rng Unscented KfSpec UscSpec.
Import GRing.Theory Num.Theory.

Set Implicit Arguments.
Unset Strict Implicit.
Unset Printing Implicit Defensive.

Section Spec.
Variable R : rcfType.
(** an array of functions whose length is not one *)
Definition not_single (fs : option (fcont R)) : Prop :=
  match fs with
  | Some (F1 l) => size l <> 1%N
  | Some (F2 l) => size l <> 1%N
  | _ => False
  end.
(** the object with the supplied arguments of filter_update as its attributes *)
Definition with_uargs (o : ukf R) (f : option (pyfun R)) (tc : option (arr R)) (g : option (pyfun R)) (oc : option (arr R)) : ukf R :=
  UKF (if f is Some h then Some (F0 h) else o_f o) (if g is Some h then Some (F0 h) else o_g o)
    (if tc is Some a then Some a else o_tc o) (if oc is Some a then Some a else o_oc o)
    (o_im o) (o_ic o) (o_n o) (o_m o) (o_rs o).
(** an omitted function argument where the object has several functions (or an
    empty array of them) is refused; a
    two-dimensional array with a single row of functions is outside the model *)
Definition refuses (upd : uupdate_fn R) (o : ukf R) : Prop := forall fm fc z f tc g oc,
  (f = None /\ not_single (o_f o)) \/ [/\ g = None, not_single (o_g o) & ~ (f = None /\ exists r, o_f o = Some (F2 [:: r]))] ->
  upd o fm fc z f tc g oc = Err AssertionError.
(** a supplied argument replaces the attribute *)
Definition wins (upd : uupdate_fn R) (o : ukf R) : Prop := forall fm fc z f tc g oc, nd_ok 2 tc -> nd_ok 2 oc ->
  upd o fm fc z f tc g oc = upd (with_uargs o f tc g oc) fm fc z None None None None.
End Spec.
