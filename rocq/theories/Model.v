(** Specification-side description of a linear-Gaussian state space model, of
    what it means for a KalmanFilter object to be parameterised by it, and the
    textbook recursions.  Nothing here refers to the code model except the
    types of arrays and objects. *)
From mathcomp Require Import all_ssreflect all_algebra.
From Verif Require Import Prelude LinAlg Numpy Sklearn Standard.
Import GRing.Theory Num.Theory.

Set Implicit Arguments.
Unset Strict Implicit.
Unset Printing Implicit Defensive.
Local Open Scope ring_scope.

(** x_0 ~ (mu0, P0);  x_{t+1} = A_t x_t + b_t + w_t;  z_t = C_t x_t + d_t + v_t *)
Record lgm (R : rcfType) (n m : nat) := LGM {
  mA : nat -> 'M[R]_n; mb : nat -> 'cV[R]_n; mQ : nat -> 'M[R]_n;
  mC : nat -> 'M[R]_(m, n); md : nat -> 'cV[R]_m; mR : nat -> 'M[R]_m;
  mmu : 'cV[R]_n; mP : 'M[R]_n
}.

Section Spec.
Variable R : rcfType.

(** the array [X] gives the matrices [F 0 .. F (T-1)], either as one constant
    matrix or as a stack of at least [T] matrices *)
Definition rep2 m n (X : arr R) (T : nat) (F : nat -> 'M[R]_(m, n)) : Prop :=
  (exists2 M, X = A2 M & forall t, (t < T)%N -> F t = M) \/
  (exists s, [/\ X = A3 s, (T <= size s)%N & forall t, (t < T)%N -> F t = nth 0 s t]).
(** same for vectors: constant vector or array with one row per time step *)
Definition rep1 n (X : arr R) (T : nat) (F : nat -> 'cV[R]_n) : Prop :=
  (exists2 v, X = A1 v & forall t, (t < T)%N -> F t = v) \/
  (exists k (M : 'M[R]_(k, n)), [/\ X = A2 M, (T <= k)%N &
     forall t, (t < T)%N -> forall i, F t i 0 = mget M t i]).

Record params_model n m (p : kfparams R) (T : nat) (M : lgm R n m) : Prop := ParamsModel {
  pm_tm : rep2 (p_tm p) T.-1 (mA M);
  pm_to : rep1 (p_to p) T.-1 (mb M);
  pm_tc : rep2 (p_tc p) T.-1 (mQ M);
  pm_om : rep2 (p_om p) T (mC M);
  pm_oo : rep1 (p_oo p) T (md M);
  pm_oc : rep2 (p_oc p) T (mR M);
  pm_im : p_im p = A1 (mmu M);
  pm_ic : p_ic p = A2 (mP M)
}.

(** an attribute is supplied and satisfies [P], or omitted and the default applies *)
Definition attr (a : option (arr R)) (P : arr R -> Prop) (dflt : Prop) : Prop :=
  match a with Some X => P X | None => dflt end.

(** numpy promotion of scalars and vectors *)
Definition as_vec (X : arr R) : arr R := if X is A0 x then A1 (const_mx x : 'cV_1) else X.
Definition as_mat (X : arr R) : arr R :=
  match X with A0 x => A2 (const_mx x : 'M_1) | A1 _ v => A2 v^T | _ => X end.

(** rectangular identity *)
Definition eye m n : 'M[R]_(m, n) := \matrix_(i, j) (i == j :> nat)%:R.

Definition seed_ok (r : option rspec) : Prop :=
  match r with
  | Some (RsSeed z) => (0 <= z) && (z < 2%:R ^+ 32)
  | Some RsOther => False
  | _ => True
  end.

(** The KalmanFilter object [o] is parameterised (for [T] time steps) by the
    model [M]: every supplied attribute, after numpy promotion, gives the
    component of [M]; every omitted one has the documented default value. *)
Record kf_model n m (o : kf R) (T : nat) (M : lgm R n m) : Prop := KfModel {
  km_n : k_n o = n;
  km_m : k_m o = m;
  km_rs : seed_ok (k_rs o);
  km_tm : attr (k_tm o) (fun X => rep2 (as_mat X) T.-1 (mA M)) (forall t, (t < T.-1)%N -> mA M t = 1%:M);
  km_to : attr (k_to o) (fun X => rep1 (as_vec X) T.-1 (mb M)) (forall t, (t < T.-1)%N -> mb M t = 0);
  km_tc : attr (k_tc o) (fun X => rep2 (as_mat X) T.-1 (mQ M)) (forall t, (t < T.-1)%N -> mQ M t = 1%:M);
  km_om : attr (k_om o) (fun X => rep2 (as_mat X) T (mC M)) (forall t, (t < T)%N -> mC M t = eye m n);
  km_oo : attr (k_oo o) (fun X => rep1 (as_vec X) T (md M)) (forall t, (t < T)%N -> md M t = 0);
  km_oc : attr (k_oc o) (fun X => rep2 (as_mat X) T (mR M)) (forall t, (t < T)%N -> mR M t = 1%:M);
  km_im : attr (k_im o) (fun X => as_vec X = A1 (mmu M)) (mmu M = 0);
  km_ic : attr (k_ic o) (fun X => as_mat X = A2 (mP M)) (mP M = 1%:M)
}.

(** the data seen by the filter: at each time the observed vector, or [None] *)
Definition stream m (zs : seq (orow R m)) (t : nat) : option 'cV[R]_m :=
  match List.nth_error zs t with
  | Some r => if missing r then None else Some r.1
  | None => None
  end.

(** covariances of the model are symmetric positive semidefinite *)
Definition psd_model n m (M : lgm R n m) (T : nat) : Prop :=
  [/\ psd (mP M), forall t, (t < T.-1)%N -> psd (mQ M t) & forall t, (t < T)%N -> psd (mR M t)].

(** ** Textbook recursions *)
Section Recursions.
Variables (n m : nat) (M : lgm R n m) (y : nat -> option 'cV[R]_m).

Definition predict t (s : 'cV[R]_n * 'M[R]_n) : 'cV[R]_n * 'M[R]_n :=
  (mA M t *m s.1 + mb M t, mA M t *m (s.2 *m (mA M t)^T) + mQ M t).
Definition innov_cov t (P : 'M[R]_n) : 'M[R]_m := mC M t *m (P *m (mC M t)^T) + mR M t.
Definition gain t (P : 'M[R]_n) : 'M[R]_(n, m) := P *m ((mC M t)^T *m pinv (innov_cov t P)).
Definition correct t (s : 'cV[R]_n * 'M[R]_n) : 'cV[R]_n * 'M[R]_n :=
  match y t with
  | None => s
  | Some z => (s.1 + gain t s.2 *m (z - (mC M t *m s.1 + md M t)),
               s.2 - gain t s.2 *m (mC M t *m s.2))
  end.
(** predicted (mean, covariance) at [t] given observations before [t] *)
Fixpoint pred t : 'cV[R]_n * 'M[R]_n :=
  match t with 0 => (mmu M, mP M) | t'.+1 => predict t' (correct t' (pred t')) end.
(** filtered (mean, covariance) at [t] *)
Definition filt t := correct t (pred t).

Definition sgain t : 'M[R]_n := (filt t).2 *m ((mA M t)^T *m pinv (pred t.+1).2).
(** smoothed (mean, covariance) at [t] when [j] further observations follow *)
Fixpoint smo (j t : nat) : 'cV[R]_n * 'M[R]_n :=
  match j with
  | 0 => filt t
  | j'.+1 => let s := smo j' t.+1 in
      ((filt t).1 + sgain t *m (s.1 - (pred t.+1).1),
       (filt t).2 + sgain t *m ((s.2 - (pred t.+1).2) *m (sgain t)^T))
  end.
End Recursions.
End Spec.
