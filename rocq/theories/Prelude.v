(** Result monad: Python exceptions as values.

    Every modelled Python function returns [res T]: [Ok v] when it returns the
    value [v], [Err e] when it raises the exception [e]. *)
From mathcomp Require Import all_ssreflect.

Set Implicit Arguments.
Unset Strict Implicit.
Unset Printing Implicit Defensive.

(** [NotANumber]: the Python code would go on with NaN; in exact arithmetic we
    stop instead.  [NotModelled]: outside the modelled numpy fragment; no
    theorem equates it with a Python outcome. *)
Inductive exn :=
  | ValueError | IndexError | TypeError | AttributeError | KeyError
  | LinAlgError | AssertionError | ZeroDivisionError | NotANumber | NotModelled.

(** outcome of a call (infrastructure, no code of the project) *)
Inductive res (T : Type) := Ok of T | Err of exn.
Arguments Ok {T} _.
Arguments Err {T} _.

Definition bind {T U : Type} (x : res T) (k : T -> res U) : res U :=
  match x with Ok v => k v | Err e => Err e end.

Notation "x <-- m ;; k" := (bind m (fun x => k))
  (at level 100, m at next level, right associativity) : res_scope.
Notation "' x <-- m ;; k" := (bind m (fun x => k))
  (at level 100, x pattern, m at next level, right associativity) : res_scope.
Delimit Scope res_scope with res.
Open Scope res_scope.

Definition rmap {T U : Type} (f : T -> U) (x : res T) : res U :=
  match x with Ok v => Ok (f v) | Err e => Err e end.

(** [for x in s: acc.append(f x)] where [f] may raise. *)
Fixpoint mapr {T U : Type} (f : T -> res U) (s : seq T) : res (seq U) :=
  match s with
  | [::] => Ok [::]
  | x :: s' => y <-- f x ;; ys <-- mapr f s' ;; Ok (y :: ys)
  end.

(** [for x in s: acc = f acc x] where [f] may raise. *)
Fixpoint foldr_res {T U : Type} (f : U -> T -> res U) (acc : U) (s : seq T) : res U :=
  match s with
  | [::] => Ok acc
  | x :: s' => acc' <-- f acc x ;; foldr_res f acc' s'
  end.

(** [s[t]] with a non-negative index. *)
Definition getidx {T : Type} (s : seq T) (t : nat) : res T :=
  match List.nth_error s t with Some v => Ok v | None => Err IndexError end.

Definition of_opt {T : Type} (e : exn) (o : option T) : res T :=
  match o with Some v => Ok v | None => Err e end.

Definition is_ok {T : Type} (x : res T) : bool := if x is Ok _ then true else false.

Lemma bindA T U V (x : res T) (f : T -> res U) (g : U -> res V) :
  bind (bind x f) g = bind x (fun v => bind (f v) g).
Proof. by case: x. Qed.

Lemma bind_ok T U (x : res T) (f : T -> res U) v :
  bind x f = Ok v -> exists2 u, x = Ok u & f u = Ok v.
Proof. by case: x => [u|e] //= H; exists u. Qed.

Lemma bind_ext T U (x : res T) (f g : T -> res U) :
  (forall v, f v = g v) -> bind x f = bind x g.
Proof. by case: x => //= v ->. Qed.

Lemma getidx_nth T (x0 : T) (s : seq T) t :
  t < size s -> getidx s t = Ok (nth x0 s t).
Proof.
rewrite /getidx; elim: s t => [|x s IH] [|t] //= H.
exact: IH.
Qed.

Lemma getidx_oob T (s : seq T) t : size s <= t -> getidx s t = Err IndexError.
Proof. by rewrite /getidx; elim: s t => [|x s IH] [|t] //= H; exact: IH. Qed.

Lemma getidx_ok T (s : seq T) t v : getidx s t = Ok v -> t < size s.
Proof.
by case: (ltnP t (size s)) => // H; rewrite getidx_oob.
Qed.

Lemma mapr_ok_size T U (f : T -> res U) s r : mapr f s = Ok r -> size r = size s.
Proof.
elim: s r => [|x s IH] r /=; first by case=> <-.
case: (f x) => //= y; case E: (mapr f s) => [ys|] //= [<-] /=.
by rewrite (IH _ E).
Qed.

Lemma mapr_all_ok T U (f : T -> res U) (g : T -> U) s :
  (forall x, List.In x s -> f x = Ok (g x)) -> mapr f s = Ok (map g s).
Proof.
elim: s => [|x s IH] //= H.
rewrite H /=; last by left.
rewrite IH //= => y Hy; apply: H; by right.
Qed.

Lemma mapr_ext T U (f g : T -> res U) s :
  (forall x, List.In x s -> f x = g x) -> mapr f s = mapr g s.
Proof.
elim: s => [|x s IH] //= H; rewrite H; last by left.
rewrite IH // => y Hy; apply: H; by right.
Qed.

Lemma In_mem (T : eqType) (x : T) s : List.In x s -> x \in s.
Proof. by elim: s => //= y s IH [->|/IH H]; rewrite inE ?eqxx ?H ?orbT. Qed.
Lemma mem_In (T : eqType) (x : T) s : x \in s -> List.In x s.
Proof. by elim: s => //= y s IH; rewrite inE => /orP[/eqP ->|/IH]; [left|right]. Qed.
