(** What a reading says about the state: precision and weighted value. *)
From Coq Require Import String List.
From mathcomp Require Import all_ssreflect all_algebra.
From Verif Require Import Prelude LinAlg Numpy Standard Model KfSpec GaussSpec.
Import GRing.Theory.

Set Implicit Arguments.
Unset Strict Implicit.
Unset Printing Implicit Defensive.
Local Open Scope ring_scope.

Section Suff.
Variables (R : rcfType) (n m : nat).
(** C' R^-1 C and C' R^-1 (z - d); nothing for a masked row *)
Definition reading (M : lgm R n m) (zs : seq (orow R m)) t : 'M[R]_n * 'cV[R]_n :=
  if stream zs t is Some z then
    ((mC M t)^T *m invmx (mR M t) *m mC M t, (mC M t)^T *m invmx (mR M t) *m (z - md M t))
  else (0, 0).
(** log density of the unmasked rows as readings of the state 0 *)
Definition base_loglik (ln : R -> R) (ln2pi : R) (M : lgm R n m) (zs : seq (orow R m)) : R :=
  \sum_(t < size zs) (if stream zs t is Some z then gauss_logpdf ln ln2pi z (md M t) (mR M t) else 0).
(** same state equation, another observation equation *)
Definition with_sensor m' (M : lgm R n m) C d N : lgm R n m' := LGM (mA M) (mb M) (mQ M) C d N (mmu M) (mP M).
End Suff.

(** k readings of the same scalar, equally noisy and independent; [M] is the model of their average *)
Definition repeated (R : rcfType) n (k : nat) (M : lgm R n 1) : lgm R n k :=
  with_sensor M (fun t => const_mx 1 *m mC M t) (fun t => const_mx 1 *m md M t) (fun t => (k%:R * mR M t 0 0)%:M).
Definition averaged (R : rcfType) k (zs : seq (orow R k)) (zs' : seq (orow R 1)) : Prop :=
  List.Forall2 (fun (r : orow R k) (r' : orow R 1) => missing r' = missing r /\
    (missing r = false -> r'.1 = (k%:R^-1 * \sum_i r.1 i 0)%:M)) zs zs'.

(** two independent sensors for the same quantity, with covariances [mR M] and [N2] *)
Section Fuse.
Variables (R : rcfType) (n m : nat) (M : lgm R n m) (N2 : nat -> 'M[R]_m).
Definition two_sensors : lgm R n (m + m) :=
  with_sensor M (fun t => col_mx (mC M t) (mC M t)) (fun t => col_mx (md M t) (md M t))
    (fun t => block_mx (mR M t) 0 0 (N2 t)).
Definition fused_cov t : 'M[R]_m := invmx (invmx (mR M t) + invmx (N2 t)).
Definition fused_model : lgm R n m := with_sensor M (mC M) (md M) fused_cov.
(** both visible: values weighted by precision *)
Definition fused (zs : seq (orow R (m + m))) (zs' : seq (orow R m)) : Prop := size zs' = size zs /\
  forall t r r', List.nth_error zs t = Some r -> List.nth_error zs' t = Some r' -> missing r' = missing r /\
    (missing r = false -> r'.1 = fused_cov t *m (invmx (mR M t) *m usubmx r.1 + invmx (N2 t) *m dsubmx r.1)).
End Fuse.
