(** Witnesses for the hypotheses of the theorems of Properties_More. *)
From Coq Require Import String List.
From mathcomp Require Import all_ssreflect all_algebra.
From mathcomp Require Import ring.
From Verif Require Import Prelude LinAlg Numpy NumpyFacts Sklearn Standard Model KfSpec StandardInit StandardFacts KfModelFacts KfOnline Exists SpecL2 GaussSpec Rng Sample SampleSpec Unscented
  UscSampleSpec KfMoreSpec KfGlue KfMoreGlue SampleFacts UscInit UscSample Examples ExamplesUsc.
Import Order.Theory GRing.Theory Num.Theory.

Set Implicit Arguments.
Unset Strict Implicit.
Unset Printing Implicit Defensive.
Local Open Scope ring_scope.

Section Ex.
Variable R : rcfType.

Lemma ex_forecast : let zs := take 2 (ex_zs R) in let ms := [:: mk_row true (0 : 'cV[R]_2)] in
  [/\ kf_model (ex_o R) (2 + 1) (ex_M R) /\ const2 (k_oc (ex_o R)), size zs = 2%N, all (@missing R 2) ms &
      keeps zs /\ forall k, (k <= 1)%N -> keeps (zs ++ take k ms)].
Proof.
split; [by split=> //; exact: ex_model|by []|by rewrite /= missing_row|].
by split=> // k; case: k => [|[]].
Qed.

Definition ex_o4 : kf R := obj_of (ex_M R) 4 true.
Definition ex_zs4 : seq (orow R 2) := [seq mk_row (ex_mis t) (ex_d R t) | t <- iota 0 4].
Lemma ex_restart : exists rows srows (f : 'cV[R]_2 * 'M[R]_2) o',
  [/\ kf_model ex_o4 4 (ex_M R) /\ size ex_zs4 = 4%N, keeps ex_zs4 /\ keeps (drop 2 ex_zs4),
      keeps (take 2 ex_zs4) /\ kf_filter ex_o4 (O2 2 ex_zs4) = Ok rows,
      List.nth_error rows 1 = Some (A1 f.1, A2 f.2) /\ kf_smooth ex_o4 (O2 2 ex_zs4) = Ok srows &
      kf_model o' (4 - 2) (shift_model (ex_M R) 2 (forecast (ex_M R) 1 f 1)) /\
      (const2 (k_oc ex_o4) /\ const2 (k_oc o'))].
Proof.
have Ho : kf_model ex_o4 4 (ex_M R) by exact: obj_model.
have Hsz : size ex_zs4 = 4%N by [].
have Hk : keeps ex_zs4 by [].
have F := kf_filter_ok Ho Hsz (keepsT Hsz Hk).
have T0 : (0 < 4)%N by [].
have S := kf_smooth_ok Ho Hsz (keepsT Hsz Hk) T0.
set f := filt (ex_M R) (stream ex_zs4) 1.
set M2 := shift_model (ex_M R) 2 (forecast (ex_M R) 1 f 1).
eexists; eexists; exists f, (obj_of M2 2 true); split; [split; [exact: Ho|exact: Hsz]|by []| | |].
- by split; [|exact: F].
- by split; [rewrite rows_nth|exact: S].
by split; [exact: obj_model|].
Qed.

Lemma nat_neq0 k : (k.+1%:R : R) != 0. Proof. by rewrite pnatr_eq0. Qed.

Lemma ex_scale : exists o' : kf R, [/\ (4%:R : R) != 0, kf_model (ex_o R) 3 (ex_M R),
  kf_model o' 3 (scale_model (ex_M R) 4%:R), size (ex_zs R) = 3%N & keeps (ex_zs R)].
Proof.
by exists (obj_of (scale_model (ex_M R) 4%:R) 3 true); split=> //; [exact: nat_neq0|exact: ex_model|exact: obj_model].
Qed.

Lemma ex_known : exists (o : kf R) (M : lgm R 2 2),
  [/\ kf_model o 3 M, known_state M 3, size (ex_zs R) = 3%N & keeps (ex_zs R)].
Proof.
set M := LGM (mA (ex_M R)) (mb (ex_M R)) (fun=> 0) (mC (ex_M R)) (md (ex_M R)) (mR (ex_M R)) (mmu (ex_M R)) 0.
by exists (obj_of M 3 true), M; split=> //; exact: obj_model.
Qed.

Lemma ex_noise : exists (o' : kf R) M' (Sp : l2space R) x z w v zs,
  [/\ less_noise 3 (ex_M R) M' /\ same_offsets 3 (ex_M R) M', psd_model (ex_M R) 3 /\ psd_model M' 3,
      kf_model (ex_o R) 3 (ex_M R) /\ kf_model o' 3 M', mP M' <> mP (ex_M R) &
      @obeys R Sp 2 2 (ex_M R) 3 x z w v /\ data_of 3 z ex_mis zs].
Proof.
have [Sp [x [z [w [v Hob]]]]] := ex_obeys R.
have D (X : 'M[R]_2) : psd X -> lep X (2%:R *: X) by rewrite /lep scaler_nat mulr2n addrK.
have P2 (X : 'M[R]_2) : psd X -> psd (2%:R *: X) by apply: psdZ; rewrite ler0n.
exists (obj_of (scale_model (ex_M R) 2%:R) 3 true), (scale_model (ex_M R) 2%:R), Sp, x, z, w, v.
exists (fun om => [seq mk_row (ex_mis t) (z t om) | t <- iota 0 3]); split.
- split; split=> // *; apply: D; [exact: proj_psd|exact: psd1|exact: proj_psd].
- split; first exact: ex_psd.
  by split=> *; apply: P2; [exact: proj_psd|exact: proj_psd|exact: psd1].
- by split; [exact: ex_model|exact: obj_model].
- move=> /matrixP /(_ ord0 ord0); rewrite !mxE /= !big_ord1 !mxE /= !mulr1 => /eqP.
  by rewrite -subr_eq0 (_ : 2%:R - 1 = 1 :> R) ?oner_eq0 // mulr2n addrK.
- by split; [exact: Hob|exact: data_of_mk].
Qed.

Lemma ex_block : exists (o o2 : kf R) (M2 : lgm R 1 1) zs2 (zs : seq (orow R (2 + 1))) d2,
  [/\ kf_model o 3 (block_model (ex_M R) M2) /\ const2 (k_oc o), kf_model (ex_o R) 3 (ex_M R) /\ const2 (k_oc (ex_o R)),
      kf_model o2 3 M2 /\ const2 (k_oc o2),
      [/\ rows_of 3 ex_mis (ex_d R) (ex_zs R), rows_of 3 ex_mis d2 zs2 & rows_of 3 ex_mis (fun t => col_mx (ex_d R t) (d2 t)) zs] &
      [/\ psd_model (ex_M R) 3, psd_model M2 3, forall t, (t < 3)%N -> pd (mR (ex_M R) t) & forall t, (t < 3)%N -> pd (mR M2 t)]].
Proof.
set M2 : lgm R 1 1 := LGM (fun=> 1%:M) (fun=> 0) (fun=> 1%:M) (fun=> 1%:M) (fun=> 0) (fun=> 1%:M) 0 1%:M.
set d2 : nat -> 'cV[R]_1 := fun t => t%:R%:M.
exists (obj_of (block_model (ex_M R) M2) 3 true), (obj_of M2 3 true), M2.
exists [seq mk_row (ex_mis t) (d2 t) | t <- iota 0 3].
exists [seq mk_row (ex_mis t) (col_mx (ex_d R t) (d2 t)) | t <- iota 0 3], d2; split.
- by split; first exact: obj_model.
- by split; first exact: ex_model.
- by split; first exact: obj_model.
- split; [exact: ex_rows|exact: rows_of_mk|exact: (@rows_of_mk R 2 3 ex_mis (fun t => col_mx (ex_d R t) (d2 t)))].
- by split; [exact: ex_psd|split=> *; exact: psd1|move=> t _; exact: pd1|move=> t _; exact: pd1].
Qed.

Lemma ex_recode : let N := (2%:R : R)%:M : 'M[R]_2 in exists (o' : kf R) zs',
  [/\ N \in unitmx /\ \det N ^+ 2 = 16%:R, kf_model (ex_o R) 3 (ex_M R) /\ const2 (k_oc (ex_o R)),
      kf_model o' 3 (recode_model (ex_M R) N (e1 R)) /\ const2 (k_oc o'),
      psd_model (ex_M R) 3 /\ (forall t, (t < 3)%N -> pd (mR (ex_M R) t)) &
      [/\ recoded N (e1 R) (ex_zs R) zs', n_observed (ex_zs R) = 2%N & size (ex_zs R) = 3%N]].
Proof.
move=> N; have E : \det N ^+ 2 = 16%:R by rewrite /N det_scalar -!natrX.
exists (obj_of (recode_model (ex_M R) N (e1 R)) 3 true).
exists [seq mk_row (missing r) (N *m r.1 + e1 R) | r <- ex_zs R]; split.
- split=> //; rewrite unitmxE unitfE; apply/eqP => Z; move: E; rewrite Z expr0n /= => /eqP.
  by rewrite eq_sym (negPf (nat_neq0 15)).
- by split; first exact: ex_model.
- by split; first exact: obj_model.
- by split; [exact: ex_psd|move=> t _; exact: pd1].
- split=> //; last by rewrite /n_observed /= !missing_row.
  by do 3 (constructor; first by split=> //; rewrite missing_row); constructor.
Qed.

Lemma ex_samples G (rl : rng_lib R G) (w : world G) :
  (exists rows, (kf_sample rl (ex_o R) 3 None None w).2 = Ok rows /\ size rows = 3%N) /\
  (exists o T rows, (aukf_sample rl o T.+2 None (Some (RsSeed 7)) w).2 = Ok rows /\ size rows = T.+2).
Proof.
split.
  have Hh : handle (if None is Some r then Some r else k_rs (ex_o R)) = Some (HFresh 7) by [].
  have [g' [x [z [_ E]]]] := sampleE (rs := None) rl None w (ex_model R) Hh.
  by eexists; rewrite E; split; [exact: erefl|rewrite size_map size_iota].
have Hh : handle (if Some (RsSeed 7) is Some r then Some r else o_rs (add_o R)) = Some (HFresh 7) by [].
have [g' [x [z [_ E]]]] := aukf_sampleE (rs := Some (RsSeed 7)) rl None w (add_o_model R) Hh.
exists (add_o R), 1%N; eexists; rewrite E; split; [exact: erefl|by rewrite size_map size_iota].
Qed.
End Ex.
