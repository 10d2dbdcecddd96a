(** Probability-theoretic specification: square-integrable random vectors on an
    arbitrary probability space, linear state space models, best affine
    estimates. *)
From mathcomp Require Import all_ssreflect all_algebra.
From mathcomp Require Import ring.
From Verif Require Import LinAlg Numpy Model.
Import GRing.Theory Num.Theory.

Set Implicit Arguments.
Unset Strict Implicit.
Unset Printing Implicit Defensive.
Local Open Scope ring_scope.

(** A probability space as seen through second-order statistics: a class [L2]
    of square-integrable random variables containing the constants and closed
    under linear combination, and an expectation that is linear and positive on
    products of such variables. *)
Record l2space (R : rcfType) := L2Space {
  Om : Type;
  L2 : (Om -> R) -> Prop;
  Ex : (Om -> R) -> R;
  L2_const : forall c, L2 (fun _ => c);
  L2_lin : forall a f g, L2 f -> L2 g -> L2 (fun w => a * f w + g w);
  L2_ext : forall f g, f =1 g -> L2 f -> L2 g;
  Ex_ext : forall f g, f =1 g -> Ex f = Ex g;
  Ex_lin : forall a f g h, L2 f -> L2 g -> L2 h ->
    Ex (fun w => (a * f w + g w) * h w) = a * Ex (fun w => f w * h w) + Ex (fun w => g w * h w);
  Ex_pos : forall f, L2 f -> 0 <= Ex (fun w => f w * f w);
  Ex_one : Ex (fun _ => 1) = 1
}.

Section Defs.
Variables (R : rcfType) (Sp : l2space R).
Notation Omega := (Om Sp).

(** square-integrable random vectors *)
Definition rvec n (X : Omega -> 'cV[R]_n) : Prop := forall i, L2 (fun w => X w i 0).
Definition mean n (X : Omega -> 'cV[R]_n) : 'cV[R]_n := \col_i Ex (fun w => X w i 0).
(** second moment matrix E[X Y^T] *)
Definition mom n p (X : Omega -> 'cV[R]_n) (Y : Omega -> 'cV[R]_p) : 'M[R]_(n, p) :=
  \matrix_(i, j) Ex (fun w => X w i 0 * Y w j 0).
(** covariance matrix *)
Definition cov n p (X : Omega -> 'cV[R]_n) (Y : Omega -> 'cV[R]_p) : 'M[R]_(n, p) :=
  mom (fun w => X w - mean X) (fun w => Y w - mean Y).

Section Model.
Variables (n m : nat) (M : lgm R n m) (T : nat).

(** The processes [x] (states) and [z] (observations) obey the model [M] up to
    time [T], with state noise [w] and observation noise [v]: zero mean,
    covariances [Q_t] and [R_t], mutually uncorrelated and uncorrelated with
    the initial state. *)
Record obeys (x : nat -> Omega -> 'cV[R]_n) (z : nat -> Omega -> 'cV[R]_m)
    (w : nat -> Omega -> 'cV[R]_n) (v : nat -> Omega -> 'cV[R]_m) : Prop := Obeys {
  ob_x0 : rvec (x 0%N);
  ob_w : forall t, (t < T.-1)%N -> rvec (w t);
  ob_v : forall t, (t < T)%N -> rvec (v t);
  ob_mx0 : mean (x 0%N) = mmu M;
  ob_cx0 : cov (x 0%N) (x 0%N) = mP M;
  ob_mw : forall t, (t < T.-1)%N -> mean (w t) = 0;
  ob_cw : forall t, (t < T.-1)%N -> cov (w t) (w t) = mQ M t;
  ob_mv : forall t, (t < T)%N -> mean (v t) = 0;
  ob_cv : forall t, (t < T)%N -> cov (v t) (v t) = mR M t;
  ob_ww : forall s t, (s < T.-1)%N -> (t < T.-1)%N -> s <> t -> cov (w s) (w t) = 0;
  ob_vv : forall s t, (s < T)%N -> (t < T)%N -> s <> t -> cov (v s) (v t) = 0;
  ob_wv : forall s t, (s < T.-1)%N -> (t < T)%N -> cov (w s) (v t) = 0;
  ob_xw : forall t, (t < T.-1)%N -> cov (x 0%N) (w t) = 0;
  ob_xv : forall t, (t < T)%N -> cov (x 0%N) (v t) = 0;
  ob_x : forall t, (t < T.-1)%N -> forall om, x t.+1 om = mA M t *m x t om + mb M t + w t om;
  ob_z : forall t, (t < T)%N -> forall om, z t om = mC M t *m x t om + md M t + v t om
}.
End Model.

(** ** Best affine estimate of [X] from the observations [z s], [s < k], with
    [mis s = false]. *)
Section Blue.
Variables (n m : nat) (X : Omega -> 'cV[R]_n) (z : nat -> Omega -> 'cV[R]_m).
Variables (mis : nat -> bool) (k : nat).

(** affine function of the available observations *)
Definition affine_est (c : 'cV[R]_n) (L : nat -> 'M[R]_(n, m)) (om : Omega) : 'cV[R]_n :=
  c + \sum_(s < k | ~~ mis s) L s *m z s om.

Record blue (Xh : Omega -> 'cV[R]_n) (P : 'M[R]_n) : Prop := Blue {
  bl_affine : exists c L, forall om, Xh om = affine_est c L om;
  bl_unbiased : mean (fun om => X om - Xh om) = 0;
  bl_orth : forall s, (s < k)%N -> ~~ mis s -> cov (fun om => X om - Xh om) (z s) = 0;
  bl_cov : cov (fun om => X om - Xh om) (fun om => X om - Xh om) = P;
  bl_best : forall c L,
    lep P (mom (fun om => X om - affine_est c L om) (fun om => X om - affine_est c L om))
}.
End Blue.

(** The rows of the masked array [zs om] carry the observations [z t om] at the
    times with [mis t = false] and are masked at the other times. *)
Definition data_of m (T : nat) (z : nat -> Omega -> 'cV[R]_m) (mis : nat -> bool)
    (zs : Omega -> seq (orow R m)) : Prop :=
  forall om, size (zs om) = T /\
    forall t r, List.nth_error (zs om) t = Some r ->
      missing r = mis t /\ (mis t = false -> r.1 = z t om).
End Defs.

(** ** Finite probability spaces: the L2 space of all functions on a finite type
    with given non-negative weights of total mass one. *)
Section Finite.
Variables (R : rcfType) (N : finType) (pr : N -> R).
Hypothesis pr_ge0 : forall i, 0 <= pr i.
Hypothesis pr_sum : \sum_i pr i = 1.

Definition fin_Ex (f : N -> R) : R := \sum_i pr i * f i.

Lemma fin_ext f g : f =1 g -> fin_Ex f = fin_Ex g.
Proof. by move=> H; apply: eq_bigr => i _; rewrite H. Qed.
Lemma fin_lin a f g h :
  fin_Ex (fun w => (a * f w + g w) * h w) = a * fin_Ex (fun w => f w * h w) + fin_Ex (fun w => g w * h w).
Proof.
rewrite /fin_Ex big_distrr /= -big_split /=; apply: eq_bigr => i _.
by ring.
Qed.
Lemma fin_pos f : 0 <= fin_Ex (fun w => f w * f w).
Proof. by apply: sumr_ge0 => i _; rewrite mulr_ge0 // -expr2 sqr_ge0. Qed.
Lemma fin_one : fin_Ex (fun _ => 1) = 1.
Proof. by rewrite -[RHS]pr_sum; apply: eq_bigr => i _; rewrite mulr1. Qed.

Definition fin_space : l2space R :=
  @L2Space R N (fun _ => True) fin_Ex (fun _ => I) (fun _ _ _ _ _ => I) (fun _ _ _ _ => I)
    fin_ext (fun a f g h _ _ _ => fin_lin a f g h) (fun f _ => fin_pos f) fin_one.
End Finite.
