(** The real numbers of the standard library as a real closed field, with the
    natural logarithm: an instance of the numeric domain and of the laws of [ln]
    the theorems assume.  Uses the standard library's axioms of the reals,
    functional extensionality and indefinite description. *)
From Coq Require Import Reals Lra ClassicalEpsilon FunctionalExtensionality Rsqrt_def.
From mathcomp Require Import all_ssreflect all_algebra.
From Verif Require Import GaussSpec.
Import GRing.Theory Num.Theory.

Set Implicit Arguments.
Unset Strict Implicit.
Unset Printing Implicit Defensive.

Definition eqr (x y : R) : bool := if Req_EM_T x y then true else false.
Lemma eqrP : Equality.axiom eqr.
Proof. by move=> x y; rewrite /eqr; case: Req_EM_T => E; constructor. Qed.
Canonical R_eqMixin := EqMixin eqrP.
Canonical R_eqType := Eval hnf in EqType R R_eqMixin.

Definition rfind (P : pred R) (n : nat) : option R :=
  if excluded_middle_informative (exists x, P x) is left H
  then Some (proj1_sig (constructive_indefinite_description _ H)) else None.
Lemma rfind_correct P n x : rfind P n = Some x -> P x.
Proof.
rewrite /rfind; case: excluded_middle_informative => // H [<-].
by case: constructive_indefinite_description.
Qed.
Lemma rfind_complete (P : pred R) : (exists x, P x) -> exists n, rfind P n.
Proof. by move=> H; exists 0%N; rewrite /rfind; case: excluded_middle_informative. Qed.
Lemma rfind_ext P Q : P =1 Q -> rfind P =1 rfind Q.
Proof. by move=> E n; have -> : P = Q by exact: functional_extensionality. Qed.
Canonical R_choiceMixin : choiceMixin R := Choice.Mixin rfind_correct rfind_complete rfind_ext.
Canonical R_choiceType := Eval hnf in ChoiceType R R_choiceMixin.

Fact RplusA : associative Rplus. Proof. by move=> *; rewrite Rplus_assoc. Qed.
Fact RplusN : left_inverse R0 Ropp Rplus. Proof. exact: Rplus_opp_l. Qed.
Definition R_zmodMixin := ZmodMixin RplusA Rplus_comm Rplus_0_l RplusN.
Canonical R_zmodType := Eval hnf in ZmodType R R_zmodMixin.

Fact RmultA : associative Rmult. Proof. by move=> *; rewrite Rmult_assoc. Qed.
Fact R1_neq0 : R1 != R0. Proof. by apply/eqP => /R1_neq_R0. Qed.
Fact Rmult_plus_l : left_distributive Rmult Rplus. Proof. exact: Rmult_plus_distr_r. Qed.
Definition R_ringMixin := RingMixin RmultA Rmult_1_l Rmult_1_r Rmult_plus_l Rmult_plus_distr_l R1_neq0.
Canonical R_ringType := Eval hnf in RingType R R_ringMixin.
Canonical R_comRingType := Eval hnf in ComRingType R Rmult_comm.

(** the inverse is total: 0 at 0, as everywhere in mathcomp *)
Definition rinv (x : R) : R := if x == R0 then R0 else Rinv x.
Fact rmulV (x : R) : x != R0 -> Rmult (rinv x) x = R1.
Proof. by rewrite /rinv; case: eqP => // H _; exact: Rinv_l. Qed.
Fact rinv0 : rinv R0 = R0. Proof. by rewrite /rinv eqxx. Qed.
Definition R_unitRingMixin := FieldUnitMixin rmulV rinv0.
Canonical R_unitRingType := Eval hnf in UnitRingType R R_unitRingMixin.
Canonical R_comUnitRingType := Eval hnf in [comUnitRingType of R].
Fact R_field : GRing.Field.mixin_of R_unitRingType.
Proof. by []. Qed.
Canonical R_idomainType := Eval hnf in IdomainType R (FieldIdomainMixin R_field).
Canonical R_fieldType := Eval hnf in FieldType R R_field.

Local Open Scope R_scope.
Definition rle (x y : R) : bool := if Rle_dec x y then true else false.
Definition rlt (x y : R) : bool := if Rlt_dec x y then true else false.
Lemma rleP x y : reflect (Rle x y) (rle x y).
Proof. by rewrite /rle; case: Rle_dec => H; constructor. Qed.
Lemma rltP x y : reflect (Rlt x y) (rlt x y).
Proof. by rewrite /rlt; case: Rlt_dec => H; constructor. Qed.
Fact rle0_add x y : rle 0 x -> rle 0 y -> rle 0 (x + y).
Proof. by move=> /rleP Hx /rleP Hy; apply/rleP; lra. Qed.
Fact rle0_mul x y : rle 0 x -> rle 0 y -> rle 0 (x * y).
Proof. by move=> /rleP Hx /rleP Hy; apply/rleP; exact: Rmult_le_pos. Qed.
Fact rle0_anti x : rle 0 x -> rle x 0 -> x = R0.
Proof. by move=> /rleP Hx /rleP Hy; lra. Qed.
Fact rsub_ge0 x y : rle 0 (y - x) = rle x y.
Proof. by apply/rleP/rleP; lra. Qed.
Fact rle0_total x : rle 0 x || rle x 0.
Proof. by apply/orP; case: (Rle_dec 0 x) => H; [left|right]; apply/rleP; lra. Qed.
Fact rnormN x : Rabs (- x) = Rabs x. Proof. exact: Rabs_Ropp. Qed.
Fact rge0_norm x : rle 0 x -> Rabs x = x.
Proof. by move=> /rleP H; apply: Rabs_pos_eq. Qed.
Fact rlt_def x y : rlt x y = (y != x) && rle x y.
Proof.
apply/rltP/andP => [H|[/eqP H /rleP H']]; last by lra.
by split; [apply/eqP; lra|apply/rleP; lra].
Qed.
Definition R_numMixin : realLeMixin R_idomainType :=
  RealLeMixin rle0_add rle0_mul rle0_anti rsub_ge0 rle0_total rnormN rge0_norm rlt_def.
Canonical R_porderType := Eval hnf in POrderType ring_display R R_numMixin.
Canonical R_latticeType := Eval hnf in LatticeType R R_numMixin.
Canonical R_distrLatticeType := Eval hnf in DistrLatticeType R R_numMixin.
Canonical R_orderType := Eval hnf in OrderType R R_numMixin.
Canonical R_numDomainType := Eval hnf in NumDomainType R R_numMixin.
Canonical R_normedZmodType := Eval hnf in NormedZmodType R R R_numMixin.
Canonical R_numFieldType := Eval hnf in [numFieldType of R].
Canonical R_realDomainType := Eval hnf in [realDomainType of R].
Canonical R_realFieldType := Eval hnf in [realFieldType of R].

Local Open Scope ring_scope.
Lemma poly_continuity (p : {poly R}) : continuity (fun x => p.[x]).
Proof.
elim/poly_ind: p => [|q c IH].
  have -> : (fun x => (0 : {poly R}).[x]) = fct_cte 0.
    by apply: functional_extensionality => x; rewrite horner0.
  by apply: continuity_const => x y.
have -> : (fun x => (q * 'X + c%:P).[x]) = plus_fct (mult_fct (fun x => q.[x]) id) (fct_cte c).
  by apply: functional_extensionality => x; rewrite !hornerE.
apply: continuity_plus; last by apply: continuity_const => x y.
by apply: continuity_mult => //; exact: derivable_continuous derivable_id.
Qed.
Lemma R_real_closed : Num.real_closed_axiom R_numDomainType.
Proof.
move=> p a b /rleP Hab /andP [/rleP Ha /rleP Hb].
have Hs : Rle (Rmult p.[a] p.[b]) R0.
  have : Rle R0 (Rmult (Ropp p.[a]) p.[b]).
    by apply: Rmult_le_pos => //; have : Rle p.[a] R0 by []; lra.
  by rewrite Ropp_mult_distr_l_reverse; lra.
have [x [[H1 H2] H3]] := IVT_cor (fun x => p.[x]) a b (poly_continuity p) Hab Hs.
exists x; first by apply/andP; split; apply/rleP.
by apply/eqP.
Qed.
Canonical R_rcfType := Eval hnf in RcfType R R_real_closed.

Lemma ln_multiplicative : multiplicative_log (Rpower.ln : R_rcfType -> R_rcfType).
Proof. by move=> a b /rltP Ha /rltP Hb; exact: ln_mult. Qed.
Lemma ln_concave : concave_log (Rpower.ln : R_rcfType -> R_rcfType).
Proof.
move=> a /rltP Ha; apply/rleP.
have := exp_ineq1_le (ln a); rewrite exp_ln //= => H; rewrite /GRing.add /GRing.opp /GRing.one /=; lra.
Qed.
