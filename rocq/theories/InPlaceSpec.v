(** Vocabulary of property C65. *)
From Coq Require Import String List.
From mathcomp Require Import all_ssreflect all_algebra.
From Verif Require Import Prelude LinAlg Numpy Sklearn Standard Rng Unscented InPlace.
Import GRing.Theory Num.Theory.

Set Implicit Arguments.
Unset Strict Implicit.
Unset Printing Implicit Defensive.
Local Open Scope ring_scope.

Section InPlaceSpec.
Variable R : rcfType.
(** the function leaves its arguments as they were *)
Definition quiet (f : ipfun R) : Prop := forall args r, f args = Ok r -> r.2 = args.
(** every function of the container does *)
Definition all_quiet (j : ipcont R) : Prop :=
  match j with
  | J0 f => quiet f
  | J1 s => forall f, In f s -> quiet f
  | J2 rows => forall r f, In r rows -> In f r -> quiet f
  end.

(** a function of one vector, written without side effect, and written in
    place: [x[:] = h(x); return x] *)
Definition calm n p (h : 'cV[R]_n -> 'cV[R]_p) : ipfun R := fun args =>
  match args with
  | [:: @A1 _ k x] =>
      match k =P n with
      | ReflectT E => Ok (A1 (h (castmx (E, erefl 1%N) x)), args)
      | ReflectF _ => Err ValueError
      end
  | _ => Err TypeError
  end.
Definition in_place n (h : 'cV[R]_n -> 'cV[R]_n) : ipfun R := fun args =>
  match args with
  | [:: @A1 _ k x] =>
      match k =P n with
      | ReflectT E => let y := A1 (h (castmx (E, erefl 1%N) x)) in Ok (y, [:: y])
      | ReflectF _ => Err ValueError
      end
  | _ => Err TypeError
  end.
(** multiplication by [c] *)
Definition times (c : R) : 'cV[R]_1 -> 'cV[R]_1 := fun x => c *: x.
(** additive-noise object with one state and one observation coordinate and
    unit covariances, starting at zero *)
Definition unit_object : ukf R :=
  UKF None None (Some (A2 (1%:M : 'M_1))) (Some (A2 (1%:M : 'M_1))) (Some (A1 (0 : 'cV_1))) (Some (A2 (1%:M : 'M_1))) 1 1 (Some (RsSeed 0)).
(** observations without mask *)
Definition readings (s : seq R) : obs R := O2 1 [seq (const_mx x, const_mx false) | x <- s].
End InPlaceSpec.
