(** Values under a mask, for the unscented filters. *)
From Coq Require Import String List.
From mathcomp Require Import all_ssreflect all_algebra.
From Verif Require Import Prelude LinAlg Numpy NumpyFacts Sklearn Standard Model KfSpec StandardInit StandardFacts KfStruct Rng Sqrt
  Unscented UscSpec UscFacts UscRefine UscLoop SqrtUnscented.
Import GRing.Theory.

Set Implicit Arguments.
Unset Strict Implicit.
Unset Printing Implicit Defensive.
Local Open Scope ring_scope.

Section Mask.
Variable R : rcfType.
Implicit Types (stp : ustep R).

(** the data of a missing row is not read *)
Definition blind stp : Prop := forall p n t prev a a', stp p n t prev (a, true) = stp p n t prev (a', true).

Lemma ufc_blind G mp pp a a' po oc :
  unscented_filter_correct (R := R) G mp pp (a, true) po oc = unscented_filter_correct G mp pp (a', true) po oc.
Proof.
rewrite /unscented_filter_correct; apply: bind_ext => -[opts om].
by do 6 (apply: bind_ext => ?).
Qed.
Lemma aug_blind : blind (@aug_step R).
Proof.
move=> p n t prev a a'; rewrite /aug_step; case: (if prev is Some s then s else _) => mu sg; apply: bind_ext => -[[ps pt] po].
by apply: bind_ext => -[pp mp]; apply: bind_ext => g; rewrite (ufc_blind _ _ _ a a').
Qed.
Lemma add_blind : blind (@add_step R).
Proof.
move=> p n t prev a a'; rewrite /add_step; case: (if prev is Some s then s else _) => mu sg; apply: bind_ext => ps.
by apply: bind_ext => -[pp mp]; apply: bind_ext => g; rewrite (ufc_blind _ _ _ a a').
Qed.
Lemma su_blind qr Q2 R2 : blind (fun p n t prev z => su_step qr p Q2 R2 n t prev z).
Proof.
move=> p n t prev a a'; rewrite /su_step; apply: bind_ext => -[mu s2]; apply: bind_ext => ps.
apply: bind_ext => -[pp mp]; apply: bind_ext => g.
suff -> : su_filter_correct qr g mp pp (a, true) (Some R2) = su_filter_correct qr g mp pp (a', true) (Some R2) by [].
rewrite /su_filter_correct; apply: bind_ext => -[opts om].
by do 6 (apply: bind_ext => ?).
Qed.

Lemma uloop_sv stp p n k t prev (zs zs' : seq (orow R k)) : blind stp -> same_visible_rows zs zs' ->
  ufilter_loop stp p n t prev zs = ufilter_loop stp p n t prev zs'.
Proof.
move=> Hb H; elim: H t prev => [//|z z' l l' Hz Hl IH] t prev.
rewrite !uloop_cons -(sv_missing Hz).
have -> : stp p n t prev (A1 z.1, missing z) = stp p n t prev (A1 z'.1, missing z).
  case Hm: (missing z); first exact: Hb.
  by have -> : z.1 = z'.1; [case: Hz => _ /(_ Hm)|exact: erefl].
by apply: bind_ext => r; rewrite IH.
Qed.

Section Api.
Variables (k : nat) (zs zs' : seq (orow R k)).
Hypotheses (Hk : keeps zs) (H : same_visible_rows zs zs').
Lemma keeps' : keeps zs'.
Proof. by rewrite /keeps -(sv_size H). Qed.
Lemma ufilter_sv dflt stp (o : ukf R) : blind stp -> ufilter_with dflt stp o (O2 k zs) = ufilter_with dflt stp o (O2 k zs').
Proof.
move=> Hb; rewrite /ufilter_with (parse_keep Hk) (parse_keep keeps'); apply: bind_ext => p.
by rewrite /unscented_filter; apply: bind_ext => n; exact: uloop_sv.
Qed.
Lemma ukf_mask (o : ukf R) : ukf_filter o (O2 k zs) = ukf_filter o (O2 k zs') /\ ukf_smooth o (O2 k zs) = ukf_smooth o (O2 k zs').
Proof.
have E := ufilter_sv (@aug_default R) o aug_blind; split; first exact: E.
rewrite /ukf_smooth (parse_keep Hk) (parse_keep keeps'); apply: bind_ext => p; rewrite /ukf_filter E; exact: erefl.
Qed.
Lemma aukf_mask (o : ukf R) : aukf_filter o (O2 k zs) = aukf_filter o (O2 k zs') /\ aukf_smooth o (O2 k zs) = aukf_smooth o (O2 k zs').
Proof.
have E := ufilter_sv (@add_default R) o add_blind; split; first exact: E.
rewrite /aukf_smooth; apply: bind_ext => p; rewrite /aukf_filter E; exact: erefl.
Qed.
Lemma su_filter_sv qr p : su_filter_ qr p zs = su_filter_ qr p zs'.
Proof.
rewrite /su_filter_; apply: bind_ext => n; apply: bind_ext => Q2; apply: bind_ext => R2.
apply: uloop_sv H; exact: su_blind.
Qed.
Lemma sukf_mask qr (o : ukf R) :
  sukf_filter qr o (O2 k zs) = sukf_filter qr o (O2 k zs') /\ sukf_smooth qr o (O2 k zs) = sukf_smooth qr o (O2 k zs').
Proof.
rewrite /sukf_filter /sukf_smooth (parse_keep Hk) (parse_keep keeps').
by split; apply: bind_ext => p; rewrite su_filter_sv.
Qed.
End Api.

(** online updates: what a masked observation contains is not read *)
Lemma update_blind (o : ukf R) fm fc a a' f tc g oc qr :
  [/\ ukf_filter_update o fm fc (Some (a, true)) f tc g oc = ukf_filter_update o fm fc (Some (a', true)) f tc g oc,
      aukf_filter_update o fm fc (Some (a, true)) f tc g oc = aukf_filter_update o fm fc (Some (a', true)) f tc g oc &
      sukf_filter_update qr o fm fc (Some (a, true)) f tc g oc = sukf_filter_update qr o fm fc (Some (a', true)) f tc g oc].
Proof.
rewrite /ukf_filter_update /aukf_filter_update /sukf_filter_update; split; do 5 (apply: bind_ext => ?); rewrite !bO.
- by apply: bind_ext => -[[ps pt] po]; apply: bind_ext => -[pp mp]; exact: ufc_blind.
- by apply: bind_ext => ps; apply: bind_ext => -[pp mp]; apply: bind_ext => ?; exact: ufc_blind.
do 4 (apply: bind_ext => ?); apply: bind_ext => -[x mp]; apply: bind_ext => pp.
set A := su_filter_correct _ _ _ _ (a, true) _; set B := su_filter_correct _ _ _ _ (a', true) _.
suff -> : A = B by [].
rewrite /A /B /su_filter_correct; apply: bind_ext => -[opts om].
by do 6 (apply: bind_ext => ?).
Qed.
End Mask.
