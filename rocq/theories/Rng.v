(** Random number generators.

    numpy.random.RandomState is an abstract state [G]; the only operations used
    by pykalman are seeding and [multivariate_normal], which are arbitrary
    functions here.  The world holds the state of the global generator and of
    the existing RandomState instances (the global generator is not one of
    them: passing it explicitly is [RsModule]). *)
From mathcomp Require Import all_ssreflect all_algebra.
From Verif Require Import Prelude LinAlg Numpy Sklearn.
Import GRing.Theory Num.Theory.

Set Implicit Arguments.
Unset Strict Implicit.
Unset Printing Implicit Defensive.
Local Open Scope ring_scope.

(** computations that use one generator: new generator state and outcome, standard.py:1146-1182 *)
Definition rnd (G T : Type) : Type := G -> G * res T.
Section Rnd.
Variable G : Type.
(** a step without draws, standard.py:1163-1178 *)
Definition rlift T (x : res T) : rnd G T := fun g => (g, x).
(** sequencing, standard.py:1159-1182 *)
Definition rbind T U (x : rnd G T) (k : T -> rnd G U) : rnd G U :=
  fun g => let '(g', r) := x g in match r with Ok v => k v g' | Err e => (g', Err e) end.
End Rnd.
Notation "x <~~ m ;; k" := (rbind m (fun x => k))
  (at level 100, m at next level, right associativity) : res_scope.
Notation "' x <~~ m ;; k" := (rbind m (fun x => k))
  (at level 100, x pattern, m at next level, right associativity) : res_scope.

Section Rng.
Variables (R : rcfType) (G : Type).
(** a generator library: state of [RandomState(seed)], and one draw,
    numpy.random.RandomState as used in utils/_sklearn.py:80-83 and standard.py:1154, 1170, 1179 *)
Record rng_lib := RngLib {
  seed_state : int -> G;
  mvn : forall n, 'cV[R]_n -> 'M[R]_n -> G -> 'cV[R]_n * G
}.
Variable rl : rng_lib.

(** [rng.multivariate_normal(mean, cov)]: numpy checks that the mean is 1-d,
    the covariance square 2-d and of the same length (ValueError otherwise),
    standard.py:1154, 1170, 1179 *)
Definition multivariate_normal (mean cov : arr R) : rnd G (arr R) := fun g =>
  match mean, cov with
  | @A1 _ n mu, @A2 _ p q c =>
      match p =P n, q =P n with
      | ReflectT e1, ReflectT e2 =>
          let '(x, g') := mvn rl mu (castmx (e1, e2) c) g in (g', Ok (A1 x))
      | _, _ => (g, Err ValueError)
      end
  | _, _ => (g, Err ValueError)
  end.

(** state of every generator, global and owned by objects (utils/_sklearn.py:79-84) *)
Record world := World { w_global : G; w_inst : nat -> G }.
(** update of one generator, utils/_sklearn.py:79-84 *)
Definition upd (f : nat -> G) (i : nat) (g : G) : nat -> G := fun j => if j == i then g else f j.

(** run a computation on the generator with handle [h], standard.py:1147-1150 *)
Definition run_on T (h : genh) (c : rnd G T) (w : world) : world * res T :=
  match h with
  | HGlobal => let '(g, r) := c (w_global w) in (World g (w_inst w), r)
  | HFresh z => let '(_, r) := c (seed_state rl z) in (w, r)
  | HInst i => let '(g, r) := c (w_inst w i) in (World (w_global w) (upd (w_inst w) i g), r)
  end.
End Rng.
