(** Vocabulary: constructor arguments and defaults of the unscented classes.
    Nothing here is used by the code model. *)
From Coq Require Import String List.
From mathcomp Require Import all_ssreflect all_algebra.
From Verif Require Import Prelude LinAlg Numpy Sklearn Standard Rng Unscented Model KfSpec.
Import GRing.Theory Num.Theory.

Set Implicit Arguments.
Unset Strict Implicit.
Unset Printing Implicit Defensive.
Local Open Scope ring_scope.

Section Ctor.
Variable R : rcfType.
(** what the arguments say about the two dimensions *)
Definition u_state_claims (a : ukfargs R) : seq nat :=
  claims [:: omap (@spec_rows R) (b_tc a); omap (@spec_rows R) (b_ic a); omap (@spec_len R) (b_im a); b_n a].
Definition u_obs_claims (a : ukfargs R) : seq nat := claims [:: omap (@spec_rows R) (b_oc a); b_m a].

(** the documented defaults, written out: identity function [f], identity
    covariances, zero mean *)
Definition spelled_out (f : pyfun R) (o : ukf R) : ukf R :=
  UKF (Some (odflt (F0 f) (o_f o))) (Some (odflt (F0 f) (o_g o)))
      (Some (odflt (A2 (1%:M : 'M[R]_(o_n o))) (o_tc o))) (Some (odflt (A2 (1%:M : 'M[R]_(o_m o))) (o_oc o)))
      (Some (odflt (A1 (0 : 'cV[R]_(o_n o))) (o_im o))) (Some (odflt (A2 (1%:M : 'M[R]_(o_n o))) (o_ic o)))
      (o_n o) (o_m o) (o_rs o).
(** [x -> x], and [(x, noise) -> x + noise] on arrays of equal length *)
Definition ident : pyfun R := fun args => if args is [:: x] then Ok x else Err TypeError.
Definition plus : pyfun R := fun args => if args is [:: x; w] then add x w else Err TypeError.
End Ctor.
