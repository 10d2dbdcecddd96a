(** Reflexive decision procedure for equations in abelian groups (used for
    matrix sums, where the stock [ring] tactic does not apply), and a
    normaliser for matrix expressions. *)
From mathcomp Require Import all_ssreflect all_algebra.
Import GRing.Theory.

Set Implicit Arguments.
Unset Strict Implicit.
Unset Printing Implicit Defensive.
Local Open Scope ring_scope.

Inductive zexp := ZVar of nat | ZZero | ZAdd of zexp & zexp | ZOpp of zexp.

Fixpoint zinterp (V : zmodType) (l : seq V) (e : zexp) : V :=
  match e with
  | ZVar i => nth 0 l i
  | ZZero => 0
  | ZAdd a b => zinterp l a + zinterp l b
  | ZOpp a => - zinterp l a
  end.

(** signed occurrence lists: (positive occurrences, negative occurrences) *)
Fixpoint zocc (e : zexp) (s : bool) : seq nat * seq nat :=
  match e with
  | ZVar i => if s then ([:: i], [::]) else ([::], [:: i])
  | ZZero => ([::], [::])
  | ZAdd a b => let x := zocc a s in let y := zocc b s in
                (x.1 ++ y.1, x.2 ++ y.2)
  | ZOpp a => zocc a (~~ s)
  end.

Lemma zoccP (V : zmodType) (l : seq V) e s :
  (if s then zinterp l e else - zinterp l e) =
  \sum_(i <- (zocc e s).1) nth 0 l i - \sum_(i <- (zocc e s).2) nth 0 l i.
Proof.
elim: e s => [i s|s|a IHa b IHb s|a IHa s] /=.
- by case: s => /=; rewrite ?big_seq1 ?big_nil ?big_cons ?subr0 ?sub0r ?addr0.
- by case: s; rewrite !big_nil ?subr0 ?oppr0.
- rewrite !big_cat /= [in RHS]opprD [RHS]addrACA -IHa -IHb.
  by case: s {IHa IHb} => //; rewrite opprD.
- by rewrite -IHa; case: s => //=; rewrite opprK.
Qed.

Definition zcheck (a b : zexp) : bool :=
  let x := zocc a true in let y := zocc b true in
  perm_eq (x.1 ++ y.2) (y.1 ++ x.2).

Lemma zcheckP (V : zmodType) (l : seq V) a b :
  zcheck a b -> zinterp l a = zinterp l b.
Proof.
rewrite /zcheck => H.
have Ha := zoccP l a true; have Hb := zoccP l b true.
rewrite /= in Ha Hb; rewrite Ha Hb; apply/eqP.
rewrite subr_eq addrAC eq_sym subr_eq -!big_cat /=; apply/eqP.
by apply: perm_big; rewrite perm_sym.
Qed.

Ltac z_mem x l :=
  lazymatch l with
  | nil => constr:(false)
  | ?y :: ?l' =>
    let b := match goal with
             | _ => let _ := match goal with _ => constr_eq x y end in constr:(true)
             | _ => constr:(false)
             end in
    lazymatch b with true => constr:(true) | _ => z_mem x l' end
  end.
Ltac z_add x l :=
  let b := z_mem x l in
  lazymatch b with true => l | _ => constr:(x :: l) end.
Ltac z_atoms e l :=
  lazymatch e with
  | GRing.add ?a ?b => let l := z_atoms a l in z_atoms b l
  | GRing.opp ?a => z_atoms a l
  | GRing.zero _ => l
  | _ => z_add e l
  end.
Ltac z_idx x l :=
  lazymatch l with
  | ?y :: ?l' =>
    let b := match goal with
             | _ => let _ := match goal with _ => constr_eq x y end in constr:(true)
             | _ => constr:(false)
             end in
    lazymatch b with
    | true => constr:(0%nat)
    | _ => let i := z_idx x l' in constr:(S i)
    end
  end.
Ltac z_reify e l :=
  lazymatch e with
  | GRing.add ?a ?b =>
    let a' := z_reify a l in let b' := z_reify b l in constr:(ZAdd a' b')
  | GRing.opp ?a => let a' := z_reify a l in constr:(ZOpp a')
  | GRing.zero _ => constr:(ZZero)
  | _ => let i := z_idx e l in constr:(ZVar i)
  end.
(** Proves [a = b] in a [zmodType] modulo commutative-group laws. *)
Ltac zmod :=
  lazymatch goal with
  | |- @eq ?T ?a ?b =>
    let l := z_atoms a (@nil T) in
    let l := z_atoms b l in
    let ea := z_reify a l in
    let eb := z_reify b l in
    refine (@zcheckP _ l ea eb _); vm_compute; reflexivity
  end.

(** Pushes products over sums and transposes to the leaves, left-associates. *)
Ltac mx_norm :=
  rewrite ?(mulmxDl, mulmxDr, mulmxBl, mulmxBr, mulmxN, mulNmx, mul0mx, mulmx0,
            mul1mx, mulmx1, mulmxA, linearD, linearB, linearN, trmx_mul, trmxK,
            trmx0, trmx1, opprD, opprB, opprK, addr0, add0r, subr0, sub0r, oppr0) /=.
Ltac mx := repeat progress mx_norm; zmod.

Section Test.
Variables (R : comRingType) (n : nat) (A B C : 'M[R]_n).
Example zmod_test : A + B - (A - C) = C + B.
Proof. zmod. Qed.
Example mx_test : (A + B) *m (C - A)^T = A *m C^T - A *m A^T + (B *m C^T - B *m A^T).
Proof. mx. Qed.
End Test.
