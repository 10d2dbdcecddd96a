(** Statically shaped description of the unscented transform and filters. *)
From mathcomp Require Import all_ssreflect all_algebra.
From Verif Require Import Prelude LinAlg Numpy Sklearn Standard Model Rng Unscented.
Import GRing.Theory Num.Theory.

Set Implicit Arguments.
Unset Strict Implicit.
Unset Printing Implicit Defensive.
Local Open Scope ring_scope.

Section Spec.
Variable R : rcfType.

(** rows of [P] minus the row [mu^T] *)
Definition cen k p (P : 'M[R]_(k, p)) (mu : 'cV[R]_p) : 'M[R]_(k, p) := P - const_mx 1 *m mu^T.
(** weighted mean and (cross) covariance of rows *)
Definition wmean k p (P : 'M[R]_(k, p)) (w : 'cV[R]_k) : 'cV[R]_p := P^T *m w.
Definition wcross k p q (w : 'cV[R]_k) (X : 'M[R]_(k, p)) (Y : 'M[R]_(k, q)) : 'M[R]_(p, q) :=
  X^T *m diag_mx w^T *m Y.
Definition wcov k p (P : 'M[R]_(k, p)) (wm wc : 'cV[R]_k) : 'M[R]_p :=
  wcross wc (cen P (wmean P wm)) (cen P (wmean P wm)).

(** weighted rows with a given mean and covariance *)
Record is_sigma k n (P : 'M[R]_(k, n)) (wm wc : 'cV[R]_k) (mu : 'cV[R]_n) (S : 'M[R]_n) : Prop := IsSigma {
  sg_one : \sum_i wm i 0 = 1;
  sg_mean : wmean P wm = mu;
  sg_covm : wcross wm (cen P mu) (cen P mu) = S;
  sg_cov : wcross wc (cen P mu) (cen P mu) = S
}.

(** apply a function to every row *)
Definition fmap k n p (f : 'cV[R]_n -> 'cV[R]_p) (P : 'M[R]_(k, n)) : 'M[R]_(k, p) :=
  \matrix_(i, j) f (row i P)^T j 0.
Definition fmap2 k n q p (f : 'cV[R]_n -> 'cV[R]_q -> 'cV[R]_p) (P : 'M[R]_(k, n)) (W : 'M[R]_(k, q)) : 'M[R]_(k, p) :=
  \matrix_(i, j) f (row i P)^T (row i W)^T j 0.

(** default weights and points: [alpha = 1], [beta = 0], [kappa = 3 - n] *)
Definition wdef n : 'cV[R]_((n + n).+1) := sigma_weights n ((3%:R - n%:R) / 3%:R) 3%:R.
Definition spts n (mu : 'cV[R]_n) (S : 'M[R]_n) : option 'M[R]_((n + n).+1, n) :=
  omap (fun L => sigma_rows mu L 3%:R) (chol S^T).

(** measurement update from state points, observation points and the noise covariance *)
Definition ucorr k n m (w : 'cV[R]_k) (P : 'M[R]_(k, n)) (Z : 'M[R]_(k, m)) (Rn : 'M[R]_m)
    (mp : 'cV[R]_n * 'M[R]_n) (z : option 'cV[R]_m) : 'cV[R]_n * 'M[R]_n :=
  match z with
  | None => mp
  | Some z =>
      let K := wcross w (cen P mp.1) (cen Z (wmean Z w)) *m pinv (wcov Z w w + Rn) in
      (mp.1 + K *m (z - wmean Z w), mp.2 - K *m (wcross w (cen P mp.1) (cen Z (wmean Z w)))^T)
  end.

(** filtering and smoothing as recursions over time *)
Fixpoint ufold S Z (first : Z -> option S) (next : nat -> S -> Z -> option S) (y : nat -> Z) t : option S :=
  match t with
  | 0 => first (y 0%N)
  | t'.+1 => obind (fun s => next t' s (y t)) (ufold first next y t')
  end.
(** [back t f s]: from filtered [f] at [t] and smoothed [s] at [t.+1]; [j] further times follow *)
Fixpoint ubacks S (back : nat -> S -> S -> option S) (filt : nat -> S) (j t : nat) : option S :=
  match j with
  | 0 => Some (filt t)
  | j'.+1 => obind (back t (filt t)) (ubacks back filt j' t.+1)
  end.
(** smoothing update from state points and predicted points *)
Definition uback1 k n (w : 'cV[R]_k) (P Y : 'M[R]_(k, n)) (Q : 'M[R]_n) (f s : 'cV[R]_n * 'M[R]_n) : 'cV[R]_n * 'M[R]_n :=
  let mp := (wmean Y w, wcov Y w w + Q) in
  let L := (wcross w (cen Y mp.1) (cen P f.1))^T *m pinv mp.2 in
  (f.1 + L *m (s.1 - mp.1), f.2 + L *m (s.2 - mp.2) *m L^T).

Section Filters.
Variables (n m : nat) (Q : 'M[R]_n) (Rn : 'M[R]_m) (mu0 : 'cV[R]_n) (P0 : 'M[R]_n).

(** ** additive noise *)
Section Add.
Variables (f : nat -> 'cV[R]_n -> 'cV[R]_n) (g : nat -> 'cV[R]_n -> 'cV[R]_m).
Definition add_pred t (s : 'cV[R]_n * 'M[R]_n) : option ('cV[R]_n * 'M[R]_n) :=
  omap (fun P => (wmean (fmap (f t) P) (wdef n), wcov (fmap (f t) P) (wdef n) (wdef n) + Q)) (spts s.1 s.2).
Definition add_corr t (mp : 'cV[R]_n * 'M[R]_n) (z : option 'cV[R]_m) : option ('cV[R]_n * 'M[R]_n) :=
  omap (fun P => ucorr (wdef n) P (fmap (g t) P) Rn mp z) (spts mp.1 mp.2).
Definition add_first (z : option 'cV[R]_m) : option ('cV[R]_n * 'M[R]_n) :=
  omap (fun P => ucorr (wdef n) P (fmap (g 0%N) P) Rn (wmean P (wdef n), wcov P (wdef n) (wdef n)) z) (spts mu0 P0).
Definition add_next t s z := obind (fun mp => add_corr t.+1 mp z) (add_pred t s).
(** filtered moments at time t for the data stream y *)
Definition add_filt := ufold add_first add_next.
Definition add_back1 t (x s : 'cV[R]_n * 'M[R]_n) : option ('cV[R]_n * 'M[R]_n) :=
  omap (fun P => uback1 (wdef n) P (fmap (f t) P) Q x s) (spts x.1 x.2).
End Add.

(** ** general noise *)
Section Aug.
Variables (f : nat -> 'cV[R]_n -> 'cV[R]_n -> 'cV[R]_n) (g : nat -> 'cV[R]_n -> 'cV[R]_m -> 'cV[R]_m).
Let N := (n + (n + m))%N.
Definition aug_pts (s : 'cV[R]_n * 'M[R]_n) : option 'M[R]_((N + N).+1, N) :=
  spts (col_mx s.1 (col_mx 0 0)) (block_mx s.2 0 0 (block_mx Q 0 0 Rn)).
Definition px k (P : 'M[R]_(k, N)) : 'M[R]_(k, n) := lsubmx P.
Definition pw k (P : 'M[R]_(k, N)) : 'M[R]_(k, n) := lsubmx (rsubmx P).
Definition pv k (P : 'M[R]_(k, N)) : 'M[R]_(k, m) := rsubmx (rsubmx P).
Definition aug_corr t k (w : 'cV[R]_k) (X : 'M[R]_(k, n)) (V : 'M[R]_(k, m)) z :=
  ucorr w X (fmap2 (g t) X V) 0 (wmean X w, wcov X w w) z.
Definition aug_first z := omap (fun P => aug_corr 0 (wdef N) (px P) (pv P) z) (aug_pts (mu0, P0)).
Definition aug_next t s z :=
  omap (fun P => aug_corr t.+1 (wdef N) (fmap2 (f t) (px P) (pw P)) (pv P) z) (aug_pts s).
Definition aug_filt := ufold aug_first aug_next.
Definition aug_back1 t (x s : 'cV[R]_n * 'M[R]_n) : option ('cV[R]_n * 'M[R]_n) :=
  omap (fun P : 'M[R]_(_, n + n) => uback1 (wdef (n + n)) (lsubmx P) (fmap2 (f t) (lsubmx P) (rsubmx P)) 0 x s)
    (spts (col_mx x.1 0) (block_mx x.2 0 0 Q)).
End Aug.
End Filters.

Definition lift_s n (s : 'cV[R]_n * 'M[R]_n) : moments R := (A1 s.1, A2 s.2).
Definition lift_o n (s : option ('cV[R]_n * 'M[R]_n)) : res (moments R) :=
  if s is Some s then Ok (lift_s s) else Err LinAlgError.

(** ** what function arguments stand for *)
Definition fun1 n p (F : pyfun R) (f : 'cV[R]_n -> 'cV[R]_p) : Prop := forall x, F [:: A1 x] = Ok (A1 (f x)).
Definition fun2 n q p (F : pyfun R) (f : 'cV[R]_n -> 'cV[R]_q -> 'cV[R]_p) : Prop :=
  forall x w, F [:: A1 x; A1 w] = Ok (A1 (f x w)).
(** [fs] supplies the functions [f 0 .. f (T-1)]: a single function or a list
    whose first element is taken at all times, or a list of lists *)
Definition fgives A (F : pyfun R -> A -> Prop) (fs : fcont R) (T : nat) (f : nat -> A) : Prop :=
  match fs with
  | F0 h => forall t, (t < T)%N -> F h (f t)
  | F1 [::] => T = 0%N
  | F1 (h :: _) => forall t, (t < T)%N -> F h (f t)
  | F2 rows => forall t, (t < T)%N -> if nth [::] rows t is h :: _ then F h (f t) else False
  end.
(** the documented default functions: [x], and [x + noise] *)
Definition fdef1 n p (f : 'cV[R]_n -> 'cV[R]_p) : Prop := forall x, A1 (f x) = A1 x.
Definition fdef2 n q p (f : 'cV[R]_n -> 'cV[R]_q -> 'cV[R]_p) : Prop :=
  forall x w, add (A1 x) (A1 w) = Ok (A1 (f x w)).

(** the object [o] is parameterised by functions [f], [g] and moments *)
Record unscented_model n m AF AG (RF : pyfun R -> AF -> Prop) (RG : pyfun R -> AG -> Prop)
    (DF : AF -> Prop) (DG : AG -> Prop) (o : ukf R) (T : nat) (f : nat -> AF) (g : nat -> AG)
    (Q : 'M[R]_n) (Rn : 'M[R]_m) (mu0 : 'cV[R]_n) (P0 : 'M[R]_n) : Prop := UnscentedModel {
  um_n : o_n o = n; um_m : o_m o = m; um_rs : seed_ok (o_rs o);
  um_f : if o_f o is Some fs then fgives RF fs T.-1 f else forall t, (t < T.-1)%N -> DF (f t);
  um_g : if o_g o is Some gs then fgives RG gs T g else forall t, (t < T)%N -> DG (g t);
  um_tc : attr (o_tc o) (fun X => as_mat X = A2 Q) (Q = 1%:M);
  um_oc : attr (o_oc o) (fun X => as_mat X = A2 Rn) (Rn = 1%:M);
  um_im : attr (o_im o) (fun X => as_vec X = A1 mu0) (mu0 = 0);
  um_ic : attr (o_ic o) (fun X => as_mat X = A2 P0) (P0 = 1%:M)
}.
Definition aukf_model n m := @unscented_model n m _ _ (@fun1 n n) (@fun1 n m) (@fdef1 n n) (@fdef1 n m).
Definition ukf_model n m := @unscented_model n m _ _ (@fun2 n n n) (@fun2 n m m) (@fdef2 n n n) (@fdef2 n m m).

(** ** online updates *)
Record uuargs := UUArgs { uu_z : obs1 R; uu_f : option (pyfun R); uu_tc : option (arr R);
  uu_g : option (pyfun R); uu_oc : option (arr R) }.
Definition uupdate_fn : Type :=
  ukf R -> arr R -> arr R -> obs1 R -> option (pyfun R) -> option (arr R) -> option (pyfun R) -> option (arr R) ->
  res (moments R).
Definition uupdate (upd : uupdate_fn) (o : ukf R) (s : moments R) (u : uuargs) : res (moments R) :=
  upd o s.1 s.2 (uu_z u) (uu_f u) (uu_tc u) (uu_g u) (uu_oc u).
Fixpoint uupdates (upd : uupdate_fn) (o : ukf R) (s : moments R) (us : seq uuargs) : res (seq (moments R)) :=
  match us with
  | [::] => Ok [::]
  | u :: us' => s' <-- uupdate upd o s u ;; l <-- uupdates upd o s' us' ;; Ok (s' :: l)
  end.
(** the functions may be omitted when the attribute is not an array of several functions *)
Definition fconst (fs : option (fcont R)) : Prop :=
  match fs with None | Some (F0 _) | Some (F1 [:: _]) => True | _ => False end.
Definition gives_fun A (Rel : pyfun R -> A -> Prop) (at_ : option (fcont R)) (arg : option (pyfun R)) (f : A) : Prop :=
  if arg is Some h then Rel h f else fconst at_.
Definition gives_cov n (arg : option (arr R)) (Q : 'M[R]_n) : Prop := arg = Some (A2 Q) \/ arg = None.
Definition shows m (r : orow R m) (z : obs1 R) : Prop :=
  z = Some (A1 r.1, missing r) \/ (missing r /\ (z = None \/ exists v : 'cV[R]_m, z = Some (A1 v, true))).
(** arguments of the update to time [t.+1] *)
Record ustep_args n m AF AG (RF : pyfun R -> AF -> Prop) (RG : pyfun R -> AG -> Prop) (o : ukf R)
    (f : nat -> AF) (g : nat -> AG) (Q : 'M[R]_n) (Rn : 'M[R]_m) (t : nat) (r : orow R m) (u : uuargs) : Prop := UStepArgs {
  us_z : shows r (uu_z u);
  us_f : gives_fun RF (o_f o) (uu_f u) (f t); us_tc : gives_cov (uu_tc u) Q;
  us_g : gives_fun RG (o_g o) (uu_g u) (g t.+1); us_oc : gives_cov (uu_oc u) Rn }.
Definition aukf_args n m := @ustep_args n m _ _ (@fun1 n n) (@fun1 n m).
Definition ukf_args n m := @ustep_args n m _ _ (@fun2 n n n) (@fun2 n m m).
End Spec.
