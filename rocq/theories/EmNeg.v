(** em can decrease the likelihood when a parameter it estimates was given per
    time step: the estimate replaces all the values by a single one.  Proofs
    only; nothing here models code. *)
From Coq Require Import String List.
From mathcomp Require Import all_ssreflect all_algebra.
From mathcomp Require Import ring.
From Verif Require Import Prelude Zmod LinAlg Numpy NumpyFacts Sklearn Standard Model KfSpec SpecL2 GaussSpec Exists Lmmse Joint KfJoint
  StandardInit StandardFacts KfModelFacts KfStruct KfEm KfGlue EmForm Examples EmSpec EmStep EmGlue EmMono.
Import GRing.Theory Num.Theory Order.Theory.

Set Implicit Arguments.
Unset Strict Implicit.
Unset Printing Implicit Defensive.
Local Open Scope ring_scope.

Section Dec.
Variables (R : rcfType) (ln : R -> R) (ln2pi : R).
Hypothesis Hln : multiplicative_log ln.

(** a random walk with steps [b], observed with noise *)
Definition dec_M (b : nat -> 'cV[R]_1) : lgm R 1 1 :=
  LGM (fun _ => 1%:M) b (fun _ => 1%:M) (fun _ => 1%:M) (fun _ => 0) (fun _ => 1%:M) 0 1%:M.
Definition dec_b (t : nat) : 'cV[R]_1 := if t == 0%N then 1%:M else (-1)%:M.
Definition dec_y (t : nat) : 'cV[R]_1 := if t == 1%N then 1%:M else 0.
Definition dec_zs : seq (orow R 1) := [seq mk_row false (dec_y t) | t <- iota 0 3].
Definition dec_o : kf R := obj_of (dec_M dec_b) 3 true.
Definition dec_ev : option emspec := Some (EmNames [:: "transition_offsets"]%string).
Let nomis : nat -> bool := fun _ => false.

Lemma dec_psd b : psd_model (dec_M b) 3.
Proof. by split=> *; exact: pd_psd (pd1 R 1). Qed.
Lemma dec_pd b : pd_model nomis 3 (dec_M b).
Proof. by split=> *; exact: pd1. Qed.
Lemma dec_rows : rows_of 3 nomis dec_y dec_zs.
Proof. by split=> // -[|[|[|[]]]] //= r [<-]; rewrite missing_row. Qed.

Lemma Pp_dec b b' t : Pp (dec_M b) nomis t = Pp (dec_M b') nomis t.
Proof. by elim: t => [|t IH] //; rewrite /Pp /= in IH *; rewrite /correct /= /gain IH. Qed.
Lemma dec_innov b t : (t < 3)%N -> pd (innov_cov (dec_M b) t (Pp (dec_M b) nomis t)).
Proof.
move=> t3; apply: pdD; last exact: pd1.
by rewrite mulmxA; apply: psd_congr; exact: (Pp_psd (dec_psd b) nomis t3).
Qed.

(** predicted means *)
Notation pm b t := (pred (dec_M b) (ym nomis dec_y) t).1.
Lemma pmS b t : exists K : 'M[R]_1, pm b t.+1 = pm b t + K *m (dec_y t - pm b t) + b t.
Proof.
exists (gain (dec_M b) t (pred (dec_M b) (ym nomis dec_y) t).2); rewrite /= /correct /ym /= !mul1mx.
by rewrite addr0.
Qed.
Lemma pm_dec t : (t < 3)%N -> pm dec_b t = dec_y t.
Proof.
have [K0 E0] := pmS dec_b 0; have [K1 E1] := pmS dec_b 1.
have H0 : pm dec_b 0 = dec_y 0 by [].
have H1 : pm dec_b 1 = dec_y 1 by rewrite E0 H0 subrr mulmx0 addr0 add0r.
case: t => [|[|[|]]] // _.
rewrite E1 H1 subrr mulmx0 addr0; apply/matrixP=> i j; rewrite !ord1 !mxE /= !mulr1n.
exact: subrr.
Qed.
Lemma pm_const c : exists2 t, (t < 3)%N & dec_y t - pm (fun _ => c) t != 0.
Proof.
have [K1 E1] := pmS (fun _ => c) 1; have [K0 E0] := pmS (fun _ => c) 0.
have H1 : pm (fun _ => c) 1 = c by rewrite E0 -[pm _ 0]/(0 : 'cV[R]_1) -[dec_y 0]/(0 : 'cV[R]_1) subrr mulmx0 !add0r.
case: (altP (c =P 1%:M)) => [Ec|Nc]; last first.
  by exists 1%N => //; rewrite H1 subr_eq0 eq_sym.
exists 2%N => //; rewrite E1 H1 Ec subrr mulmx0 addr0 sub0r oppr_eq0.
by apply/eqP=> /matrixP/(_ 0 0); rewrite !mxE /= -mulr2n => /eqP; rewrite pnatr_eq0.
Qed.

Let L b t := step_term (dec_M b) nomis ln ln2pi dec_y t.
Lemma LE b t : L b t = - 2%:R^-1 * (qf (invmx (innov_cov (dec_M b) t (Pp (dec_M b) nomis t))) (dec_y t - pm b t) +
   1%:R * ln2pi + ln (\det (innov_cov (dec_M b) t (Pp (dec_M b) nomis t)))).
Proof. by rewrite /L /step_term /gauss_logpdf /= mul1mx addr0. Qed.
Lemma L_le c t : (t < 3)%N -> L (fun _ => c) t <= L dec_b t ?= iff (dec_y t - pm (fun _ => c) t == 0).
Proof.
move=> t3; rewrite !LE (pm_dec t3) subrr qf0.
have -> : innov_cov (dec_M dec_b) t (Pp (dec_M dec_b) nomis t) = innov_cov (dec_M (fun _ => c)) t (Pp (dec_M (fun _ => c)) nomis t).
  by rewrite /innov_cov (Pp_dec dec_b (fun _ => c)).
have [_ HS] := pd_inv (dec_innov (fun _ => c) t3); move: (invmx _) HS => S HS; move: (dec_y t - _) (ln _) => e l.
have n2 : - (2%:R : R)^-1 < 0 by rewrite oppr_lt0 invr_gt0 ltr0Sn.
split; first by rewrite ler_nmul2l // ler_add2r ler_add2r; case: (altP (e =P 0)) => [->|/HS/ltW//]; rewrite qf0.
rewrite (inj_eq (mulfI (ltr0_neq0 n2))) (inj_eq (addIr _)) (inj_eq (addIr _)).
by apply/eqP/eqP=> [E|->]; [apply/eqP; case: (altP (e =P 0)) => // /HS; rewrite E ltxx|rewrite qf0].
Qed.
Lemma em_decreases : exists o' l l', [/\ kf_em dec_o (O2 1 dec_zs) 1 dec_ev = (o', Ok tt),
  kf_model dec_o 3 (dec_M dec_b) /\ (exists2 M' : lgm R 1 1, kf_model o' 3 M' & pd_model nomis 3 M'),
  kf_loglikelihood ln ln2pi dec_o (O2 1 dec_zs) = Ok l, kf_loglikelihood ln ln2pi o' (O2 1 dec_zs) = Ok l' & l' < l].
Proof.
have Ho : kf_model dec_o 3 (dec_M dec_b) by exact: obj_model.
have [p' [E1 Ho' Hc]] := step_full (isT : (0 < 3)%N) dec_rows isT dec_ev Ho.
set c := f_to 3 (xs_ 3 (dec_M dec_b) nomis dec_y) (fun _ => 1%:M).
have EM : M_new dec_o 3 (dec_M dec_b) nomis dec_y dec_ev = dec_M (fun _ => c) by exact: erefl.
rewrite {}EM in Ho'.
exists (set_params dec_o p'), (\sum_(t < 3) L dec_b t), (\sum_(t < 3) L (fun _ => c) t); split.
- exact: E1.
- by split; [exact: Ho|exists (dec_M (fun _ => c)); [exact: Ho'|exact: dec_pd]].
- exact: (loglik_pd _ Hln dec_rows isT Ho I (dec_psd _) (dec_pd _)).
- exact: (loglik_pd _ Hln dec_rows isT Ho' (Hc I) (dec_psd _) (dec_pd _)).
rewrite lt_neqAle ler_sum ?andbT; last by move=> i _; case: (L_le c (ltn_ord i)).
have [t t3 Ht] := pm_const c.
rewrite (leif_sum (fun i _ => L_le c (ltn_ord i))).
by apply/forall_inPn; exists (Ordinal t3).
Qed.
Lemma em_decreases_ex : exists (o o' : kf R) (M M' : lgm R 1 1) (zs : seq (orow R 1)) ev l l',
    [/\ kf_model o 3 M /\ pd_model (fun _ => false) 3 M, kf_em o (O2 1 zs) 1 ev = (o', Ok tt),
        kf_model o' 3 M' /\ pd_model (fun _ => false) 3 M', kf_loglikelihood ln ln2pi o (O2 1 zs) = Ok l &
        kf_loglikelihood ln ln2pi o' (O2 1 zs) = Ok l' /\ l' < l].
Proof.
have [o' [l [l' [H1 [H2 [M' H3 H4]] H5 H6 H7]]]] := em_decreases.
by exists dec_o, o', (dec_M dec_b), M', dec_zs, dec_ev, l, l'; split=> //; split=> //; exact: dec_pd.
Qed.
End Dec.
