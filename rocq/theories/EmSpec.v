(** Specification vocabulary for EM: the posterior state process and the
    expected complete-data log likelihood. *)
From mathcomp Require Import all_ssreflect all_algebra.
From Verif Require Import LinAlg Numpy Model KfSpec SpecL2 GaussSpec.
Import GRing.Theory Num.Theory.

Set Implicit Arguments.
Unset Strict Implicit.
Unset Printing Implicit Defensive.
Local Open Scope ring_scope.

Section Posterior.
Variables (R : rcfType) (Sp : l2space R) (n m : nat).
Variables (x : nat -> Om Sp -> 'cV[R]_n) (z : nat -> Om Sp -> 'cV[R]_m) (mis : nat -> bool) (T : nat).

(** [X] has the law of the states given the data: the mean [xs t] is the
    estimate for the data at hand, the deviation from it is the estimation
    error of the best affine estimate [xh t] of [x t]. *)
Definition posterior (xs : nat -> 'cV[R]_n) (X : nat -> Om Sp -> 'cV[R]_n) : Prop :=
  exists xh P, (forall t, (t < T)%N -> blue (x t) z mis T (xh t) (P t)) /\
    forall t, (t < T)%N -> forall om, X t om = xs t + (x t om - xh t om).
End Posterior.

Section Complete.
Variables (R : rcfType) (ln : R -> R) (ln2pi : R).

(** expected log density of N(0, V) at a random vector [Y] with E[Y Y^T] = S:
    E[Y^T V^-1 Y] = tr (V^-1 S) *)
Definition exp_logpdf k (V S : 'M[R]_k) : R :=
  - 2%:R^-1 * (\tr (invmx V *m S) + k%:R * ln2pi + ln (\det V)).

Variables (Sp : l2space R) (n m : nat) (X : nat -> Om Sp -> 'cV[R]_n).
Variables (y : nat -> 'cV[R]_m) (mis : nat -> bool) (T : nat).

(** second moment of a random vector *)
Definition sqmom k (Y : Om Sp -> 'cV[R]_k) : 'M[R]_k := mom Y Y.

(** expected log density of the initial state, of the transitions and of the
    observations *)
Definition Q_init (mu : 'cV[R]_n) (P : 'M[R]_n) : R :=
  exp_logpdf P (sqmom (fun om => X 0%N om - mu)).
Definition Q_trans (A : nat -> 'M[R]_n) (b : nat -> 'cV[R]_n) (Q : nat -> 'M[R]_n) : R :=
  \sum_(t < T.-1) exp_logpdf (Q t) (sqmom (fun om => X t.+1 om - A t *m X t om - b t)).
Definition Q_obs (C : nat -> 'M[R]_(m, n)) (d : nat -> 'cV[R]_m) (Rc : nat -> 'M[R]_m) : R :=
  \sum_(t < T | ~~ mis t) exp_logpdf (Rc t) (sqmom (fun om => y t - C t *m X t om - d t)).

(** [M'] is the result of an M-step from [M]: parameters not selected keep
    their value, selected ones are constant in time and maximise the expected
    complete-data log likelihood over all constant values, the others being
    held at the values the update uses for them *)
Variables (sel : pname -> Prop) (M M' : lgm R n m).
Definition kept V (f g : nat -> V) (T' : nat) : Prop := forall t, (t < T')%N -> g t = f t.
Definition best V (g : nat -> V) (ok : V -> Prop) (Q : (nat -> V) -> R) : Prop :=
  [/\ forall t, g t = g 0%N & forall c, ok c -> Q (fun _ => c) <= Q g].

Record mstep : Prop := MStep {
  ms_om : sel Om' -> forall Rc, pd Rc -> best (mC M') (fun _ => True) (fun C => Q_obs C (md M) (fun _ => Rc));
  ms_oc : sel Oc -> (forall t, mR M' t = mR M' 0%N) /\
          (pd (mR M' 0%N) -> best (mR M') (@pd R m) (Q_obs (mC M') (md M)));
  ms_oo : sel Oo -> forall Rc, pd Rc -> best (md M') (fun _ => True) (fun d => Q_obs (mC M') d (fun _ => Rc));
  ms_tm : sel Tm -> forall Q, pd Q -> best (mA M') (fun _ => True) (fun A => Q_trans A (mb M) (fun _ => Q));
  ms_tc : sel Tc -> (forall t, mQ M' t = mQ M' 0%N) /\
          (pd (mQ M' 0%N) -> best (mQ M') (@pd R n) (Q_trans (mA M') (mb M)));
  ms_to : sel To -> forall Q, pd Q -> best (mb M') (fun _ => True) (fun b => Q_trans (mA M') b (fun _ => Q));
  ms_im : sel Ism -> forall P, pd P -> forall mu, Q_init mu P <= Q_init (mmu M') P;
  ms_ic : sel Isc -> pd (mP M') -> forall P, pd P -> Q_init (mmu M') P <= Q_init (mmu M') (mP M');
  ms_om0 : ~ sel Om' -> kept (mC M) (mC M') T; ms_oc0 : ~ sel Oc -> kept (mR M) (mR M') T;
  ms_oo0 : ~ sel Oo -> kept (md M) (md M') T;
  ms_tm0 : ~ sel Tm -> kept (mA M) (mA M') T.-1; ms_tc0 : ~ sel Tc -> kept (mQ M) (mQ M') T.-1;
  ms_to0 : ~ sel To -> kept (mb M) (mb M') T.-1;
  ms_im0 : ~ sel Ism -> mmu M' = mmu M; ms_ic0 : ~ sel Isc -> mP M' = mP M }.

(** positive definite covariances, where they matter *)
Record pd_model (N : lgm R n m) : Prop := PdModel {
  pd_P : pd (mP N); pd_Q : forall t, (t < T.-1)%N -> pd (mQ N t);
  pd_R : forall t, (t < T)%N -> ~~ mis t -> pd (mR N t) }.

(** what EM estimates, and the noise covariances it weighs with, are constant *)
Definition steady V (f : nat -> V) (T' : nat) : Prop := forall t, (t < T')%N -> f t = f 0%N.
Record em_steady (N : lgm R n m) : Prop := EmSteady {
  es_A : sel Tm -> steady (mA N) T.-1; es_b : sel To -> steady (mb N) T.-1;
  es_Q : sel Tm \/ sel To \/ sel Tc -> steady (mQ N) T.-1;
  es_C : sel Om' -> steady (mC N) T; es_d : sel Oo -> steady (md N) T;
  es_R : sel Om' \/ sel Oo \/ sel Oc -> steady (mR N) T }.
End Complete.
