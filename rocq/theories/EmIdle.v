(** em on data that say nothing about a parameter.  Proofs only; nothing here
    models code. *)
From Coq Require Import String List.
From mathcomp Require Import all_ssreflect all_algebra.
From mathcomp Require Import ring.
From Verif Require Import Prelude Zmod LinAlg Numpy NumpyFacts Sklearn Standard Model KfSpec SpecL2 GaussSpec Exists Lmmse Joint KfJoint
  StandardInit StandardFacts KfModelFacts KfStruct KfEm KfGlue KfMore EmForm EmSpec EmGlue Examples.
Import GRing.Theory Num.Theory Order.Theory.

Set Implicit Arguments.
Unset Strict Implicit.
Unset Printing Implicit Defensive.
Local Open Scope ring_scope.

Section Idle.
Variables (R : rcfType) (n m T : nat).
Hypothesis T0 : (0 < T)%N.
Variables (mis : nat -> bool) (y : nat -> 'cV[R]_m) (zs : seq (orow R m)).
Hypothesis Hrows : rows_of T mis y zs.
Hypothesis Hk : (T != 1%N) || (m <= 1)%N.
Variable ev : option emspec.

Definition new_value (e : emspec) (M : lgm R n m) (q : pname) : arr R :=
  let xs := xs_ T M mis y in let P := Ps_ T M mis in let L := Lag_ T M mis in
  let M' := em_model T xs P L mis y M e in
  match q with
  | Tm => A2 (f_tm T xs P L (mb M)) | To => A1 (f_to T xs (mA M')) | Tc => A2 (f_tc T xs P L (mA M') (mb M))
  | Om' => A2 (f_om T xs P mis y (md M)) | Oo => A1 (f_oo T xs mis y (mC M')) | Oc => A2 (f_oc T xs P mis y (md M) (mC M'))
  | Ism => A1 (xs 0%N) | Isc => A2 (f_ic xs P (mmu M')) end.

Lemma step_attr (o : kf R) (M : lgm R n m) : kf_model o T M ->
  exists p', [/\ kf_em o (O2 m zs) 1 ev = (set_params o p', Ok tt),
    kf_model (set_params o p') T (M_new o T M mis y ev) &
    forall q, sel (requested o ev) q -> attribute (set_params o p') q = Some (new_value (requested o ev) M q)].
Proof.
move=> Ho; have [p' [E1 E2 E3]] := em_form (xs_ T M mis y) (Ps_ T M mis) (Lag_ T M mis) Hrows (requested o ev) (kf_model_params Ho) T0.
exists p'; split.
- rewrite kf_emE /em_with parse_keep; last by rewrite /keeps (size_rows Hrows).
  by rewrite (initialize_parametersE (km_rs Ho)) /= (em_iter_rows Ho T0 Hrows) E1.
- by apply: set_model => //; [exact: km_n Ho|exact: km_m Ho|exact: km_rs Ho].
- by move=> q Hq; rewrite attribute_set E3 Hq; case: q Hq.
Qed.

(** the last of [N.+1] iterations, an invariant [J] of the models being kept *)
Lemma em_last (o : kf R) (M : lgm R n m) (J : lgm R n m -> Prop) N : kf_model o T M -> J M ->
  (forall M1, J M1 -> J (em_model T (xs_ T M1 mis y) (Ps_ T M1 mis) (Lag_ T M1 mis) mis y M1 (requested o ev))) ->
  exists o' (M1 : lgm R n m), [/\ kf_em o (O2 m zs) N.+1 ev = (o', Ok tt), J M1, requested o' ev = requested o ev,
    kf_model o' T (em_model T (xs_ T M1 mis y) (Ps_ T M1 mis) (Lag_ T M1 mis) mis y M1 (requested o ev)) &
    forall q, sel (requested o ev) q -> attribute o' q = Some (new_value (requested o ev) M1 q)].
Proof.
move=> Ho HJ HS; elim: N => [|N [o1 [M1 [E1 J1 R1 Ho1 _]]]].
  by have [p' [E1 E2 E3]] := step_attr Ho; exists (set_params o p'), M; split=> //; case: (ev).
have [p' [E2 Ho2 A2]] := step_attr Ho1; exists (set_params o1 p'); rewrite R1 /M_new R1 in A2 Ho2.
exists (em_model T (xs_ T M1 mis y) (Ps_ T M1 mis) (Lag_ T M1 mis) mis y M1 (requested o ev)); split=> //.
- by rewrite -addn1 -(kf_em_compose _ (km_rs Ho) E1).
- exact: HS.
Qed.

Section Blind.
Hypothesis Hm : forall t, (t < T)%N -> mis t.
Lemma em_blind (o : kf R) (M : lgm R n m) N : kf_model o T M -> exists o', [/\ kf_em o (O2 m zs) N.+1 ev = (o', Ok tt),
  selects (requested o ev) Om' -> attribute o' Om' = Some (A2 (0 : 'M[R]_(m, n))),
  selects (requested o ev) Oo -> attribute o' Oo = Some (A1 (0 : 'cV[R]_m)) &
  selects (requested o ev) Oc -> attribute o' Oc = Some (A2 (0 : 'M[R]_m))].
Proof.
move=> Ho; have [o' [M1 [E _ _ _ A]]] := em_last (J := fun=> True) N Ho I (fun _ _ => I).
exists o'; split=> // /sel_selects/A ->; rewrite /new_value /f_om /f_oo /f_oc big_pred0 ?mul0mx ?scaler0 //;
  by move=> t; rewrite Hm.
Qed.

(** what the smoother says without data *)
Lemma ym0 (f : nat -> 'cV[R]_m) t : (t < T)%N -> ym mis f t = None. Proof. by move=> tT; rewrite /ym Hm. Qed.
Lemma filt_blind (M : lgm R n m) f t : (t < T)%N -> filt M (ym mis f) t = pred M (ym mis f) t.
Proof. by move=> tT; rewrite /filt /correct ym0. Qed.
Lemma smo_blind (M : lgm R n m) f t : (t < T)%N -> smo M (ym mis f) (T.-1 - t) t = pred M (ym mis f) t.
Proof.
move=> tT; rewrite smo_stop ?filt_blind // => s /andP[_ sT]; apply: ym0.
apply: leq_ltn_trans sT _; rewrite subnKC; [by rewrite ltn_predL|by rewrite -ltnS prednK].
Qed.
Lemma pred_blind (M : lgm R n m) f t : (t.+1 < T)%N ->
  pred M (ym mis f) t.+1 = predict M t (pred M (ym mis f) t).
Proof. by move=> tT; rewrite /= -/(filt _ _ _) filt_blind // ltnW. Qed.
Lemma xs_blind (M : lgm R n m) t : (t.+1 < T)%N -> xs_ T M mis y t.+1 = mA M t *m xs_ T M mis y t + mb M t.
Proof. by move=> tT; rewrite /xs_ !smo_blind ?(ltnW tT) // pred_blind. Qed.
Lemma Ps_blind (M : lgm R n m) t : (t.+1 < T)%N -> Ps_ T M mis t.+1 = mA M t *m (Ps_ T M mis t *m (mA M t)^T) + mQ M t.
Proof. by move=> tT; rewrite /Ps_ /Ps !smo_blind ?(ltnW tT) // pred_blind. Qed.
Lemma Lag_blind (M : lgm R n m) t : psd_model M T -> (t.+1 < T)%N -> Lag_ T M mis t.+1 = mA M t *m Ps_ T M mis t.
Proof.
move=> HM tT; have pPt : psd (pred M (ym mis (fun=> 0)) t).2 by exact: (Pp_psd HM mis (ltnW tT)).
have tT1 : (t < T.-1)%N by rewrite -ltnS prednK.
have pQ : psd (mQ M t) by case: HM => _ H _; exact: H.
have := congr1 (@trmx R n n) (sgain_pred (mA M t) pPt pQ); rewrite !trmx_mul trmxK.
rewrite /Lag_ /LL /sgain filt_blind ?(ltnW tT) // pred_blind // /Ps_ /Ps !smo_blind ?(ltnW tT) // pred_blind //.
rewrite /predict [(_, _).2]/=; move: (psd_sym pPt); move: (pred _ _ _).2 => P sP.
by rewrite !trmx_mul !trmxK linearD /= !trmx_mul trmxK sP (psd_sym pQ) -!mulmxA.
Qed.

Section Keep.
Variables (o : kf R) (M : lgm R n m).
Hypotheses (Ho : kf_model o T M) (HM : psd_model M T) (T1 : (1 < T)%N).
Hypothesis Htm : ~ selects (requested o ev) Tm.
Hypotheses (Sb : steady (mb M) T.-1) (SQ : steady (mQ M) T.-1).
Let e := requested o ev.
Local Notation new M1 := (em_model T (xs_ T M1 mis y) (Ps_ T M1 mis) (Lag_ T M1 mis) mis y M1 e).

Definition kinv (M1 : lgm R n m) : Prop :=
  [/\ psd_model M1 T, mA M1 = mA M, forall t, (t < T.-1)%N -> mb M1 t = mb M 0%N,
      forall t, (t < T.-1)%N -> mQ M1 t = mQ M 0%N & mmu M1 = mmu M /\ mP M1 = mP M].
Lemma lt_pred t : (t < T.-1)%N -> (t.+1 < T)%N. Proof. by move=> tT; rewrite -(prednK T0) ltnS. Qed.
Lemma avg k l (F : nat -> 'M[R]_(k, l)) X : (forall t, (t < T.-1)%N -> F t = X) -> T.-1%:R^-1 *: (\sum_(t < T.-1) F t) = X.
Proof.
move=> H; rewrite (eq_bigr (fun=> X)) => [|i _]; last exact: H.
rewrite sumr_const card_ord -scaler_nat scalerA mulVf ?scale1r // pnatr_eq0 -lt0n.
by rewrite -ltnS prednK.
Qed.
Lemma not_tm : sel e Tm = false. Proof. by apply/negP=> /sel_selects. Qed.
Lemma keep_to (M1 : lgm R n m) : kinv M1 -> f_to T (xs_ T M1 mis y) (mA M1) = mb M 0%N.
Proof.
move=> [_ _ Hb _ _]; apply: (avg (F := fun t => xs_ T M1 mis y t.+1 - mA M1 t *m xs_ T M1 mis y t)) => t tT.
by rewrite xs_blind ?lt_pred // addrAC subrr add0r Hb.
Qed.
Lemma keep_tc (M1 : lgm R n m) : kinv M1 -> f_tc T (xs_ T M1 mis y) (Ps_ T M1 mis) (Lag_ T M1 mis) (mA M1) (mb M1) = mQ M 0%N.
Proof.
move=> [HM1 _ _ HQ _].
have HF t : (t < T.-1)%N -> (xs_ T M1 mis y t.+1 - mA M1 t *m xs_ T M1 mis y t - mb M1 t) *m
   (xs_ T M1 mis y t.+1 - mA M1 t *m xs_ T M1 mis y t - mb M1 t)^T + mA M1 t *m (Ps_ T M1 mis t *m (mA M1 t)^T) +
   Ps_ T M1 mis t.+1 - Lag_ T M1 mis t.+1 *m (mA M1 t)^T - (Lag_ T M1 mis t.+1 *m (mA M1 t)^T)^T = mQ M 0%N.
  move=> tT; have tT1 := lt_pred tT.
  have sP : (Ps_ T M1 mis t)^T = Ps_ T M1 mis t.
    by apply: psd_sym; rewrite /Ps_ /Ps smo_blind ?(ltnW tT1) //; exact: (Pp_psd HM1 mis (ltnW tT1)).
  rewrite xs_blind // addrAC (addrC (mA M1 t *m _)) addrK subrr mul0mx add0r Ps_blind // Lag_blind // -(HQ t tT).
  rewrite !trmx_mul trmxK sP -!mulmxA; move: (mA M1 t *m _) (mQ M1 t) => U V.
  by zmod.
by rewrite /f_tc (avg (F := fun t => _) HF).
Qed.
Lemma keep_x0 (M1 : lgm R n m) : xs_ T M1 mis y 0 = mmu M1.
Proof. by rewrite /xs_ smo_blind. Qed.
Lemma keep_ic (M1 : lgm R n m) : f_ic (xs_ T M1 mis y) (Ps_ T M1 mis) (mmu M1) = mP M1.
Proof.
rewrite /f_ic keep_x0 /Ps_ /Ps smo_blind //=; move: (mP M1) (mmu M1 *m _) => P U; zmod.
Qed.
Lemma keep_new_x0 (M1 : lgm R n m) : mmu (new M1) = mmu M1.
Proof. by rewrite /=; case: (sel e Ism); rewrite ?keep_x0. Qed.
Lemma kinv_new (M1 : lgm R n m) : kinv M1 -> kinv (new M1).
Proof.
move=> K; have [HM1 EA Eb EQ [Em EP]] := K.
have pQ : psd (mQ M 0%N) by case: HM => _ H _; apply: H; rewrite -ltnS prednK.
have [C' [d' [R' [-> HR]]]] : exists C' d' R', new M1 = LGM (mA M1) (if sel e To then fun=> mb M 0%N else mb M1)
    (if sel e Tc then fun=> mQ M 0%N else mQ M1) C' d' R' (mmu M1) (mP M1) /\ forall t, (t < T)%N -> psd (R' t).
  rewrite /em_model not_tm keep_to // keep_tc // keep_x0 if_same keep_ic if_same.
  do 3!eexists; split; first exact: erefl.
  move=> t tT; case: ifP => _; last by case: HM1 => _ _; exact.
  rewrite /f_oc big_pred0 ?scaler0; last by move=> i; rewrite Hm.
  exact: psd0.
split=> //=.
- by case: HM1 => H1 H2 _; split=> //= t tT; case: ifP => _ //; exact: H2.
- by move=> t tT; case: ifP => _ //; exact: Eb.
- by move=> t tT; case: ifP => _ //; exact: EQ.
Qed.

Lemma em_blind_keeps N : exists o', [/\ kf_em o (O2 m zs) N.+1 ev = (o', Ok tt),
  selects (requested o ev) Ism -> attribute o' Ism = Some (A1 (mmu M)),
  selects (requested o ev) Isc -> attribute o' Isc = Some (A2 (mP M)),
  selects (requested o ev) To -> attribute o' To = Some (A1 (mb M 0%N)) &
  selects (requested o ev) Tc -> attribute o' Tc = Some (A2 (mQ M 0%N))].
Proof.
have K0 : kinv M by split=> //.
have [o' [M1 [E K _ _ A]]] := em_last N Ho K0 kinv_new.
exists o'; have [_ EA _ _ [Em EP]] := K; split=> // /sel_selects/A ->; rewrite /new_value -/e ?keep_x0 ?Em //.
- by rewrite -/(mmu (new M1)) keep_new_x0 keep_ic EP.
- by rewrite /= not_tm keep_to.
- by rewrite /= not_tm keep_tc.
Qed.
End Keep.
End Blind.

(** one row *)
Lemma em_single (o : kf R) (M : lgm R n m) N : T = 1%N -> kf_model o T M -> exists o', [/\ kf_em o (O2 m zs) N.+1 ev = (o', Ok tt),
  selects (requested o ev) Tm -> attribute o' Tm = Some (A2 (0 : 'M[R]_n)),
  selects (requested o ev) To -> attribute o' To = Some (A1 (0 : 'cV[R]_n)) &
  selects (requested o ev) Tc -> attribute o' Tc = Some (A2 (0 : 'M[R]_n))].
Proof.
move=> E1 Ho; have [o' [M1 [E _ _ _ A]]] := em_last (J := fun=> True) N Ho I (fun _ _ => I).
exists o'; split=> // /sel_selects/A ->; rewrite /new_value /f_tm /f_to /f_tc big1 ?mul0mx ?scaler0 //;
  by case=> t Ht; exfalso; move: Ht; rewrite E1.
Qed.
End Idle.

Section Glue.
Variables (R : rcfType) (n m T : nat).
Variables (zs : seq (orow R m)) (ev : option emspec) (o : kf R) (M : lgm R n m).
Hypotheses (T0 : (0 < T)%N) (Hsz : size zs = T) (Hk : keeps zs) (Ho : kf_model o T M).

Lemma masked_rows : all (@missing R m) zs -> rows_of T (fun=> true) (fun=> 0) zs.
Proof.
move=> H; split=> // t r E; split=> //; elim: zs t H E => [|a l IH] [|t] //= /andP[Ha Hl]; first by case=> <-.
exact: IH.
Qed.
Lemma em_masked N : all (@missing R m) zs -> exists o', [/\ kf_em o (O2 m zs) N.+1 ev = (o', Ok tt),
  selects (requested o ev) Om' -> attribute o' Om' = Some (A2 (0 : 'M[R]_(m, n))),
  selects (requested o ev) Oo -> attribute o' Oo = Some (A1 (0 : 'cV[R]_m)) &
  selects (requested o ev) Oc -> attribute o' Oc = Some (A2 (0 : 'M[R]_m))].
Proof. by move=> H; exact: (em_blind T0 (masked_rows H) (keepsT Hsz Hk) ev (fun _ _ => isT) N Ho). Qed.
Lemma em_masked_keeps N : all (@missing R m) zs -> psd_model M T -> (1 < T)%N -> ~ selects (requested o ev) Tm ->
  steady (mb M) T.-1 -> steady (mQ M) T.-1 ->
  exists o', [/\ kf_em o (O2 m zs) N.+1 ev = (o', Ok tt),
  selects (requested o ev) Ism -> attribute o' Ism = Some (A1 (mmu M)),
  selects (requested o ev) Isc -> attribute o' Isc = Some (A2 (mP M)),
  selects (requested o ev) To -> attribute o' To = Some (A1 (mb M 0%N)) &
  selects (requested o ev) Tc -> attribute o' Tc = Some (A2 (mQ M 0%N))].
Proof. by move=> H *; exact: (em_blind_keeps T0 (masked_rows H) (keepsT Hsz Hk) (fun _ _ => isT) Ho). Qed.
Lemma em_one_row N : T = 1%N -> exists o', [/\ kf_em o (O2 m zs) N.+1 ev = (o', Ok tt),
  selects (requested o ev) Tm -> attribute o' Tm = Some (A2 (0 : 'M[R]_n)),
  selects (requested o ev) To -> attribute o' To = Some (A1 (0 : 'cV[R]_n)) &
  selects (requested o ev) Tc -> attribute o' Tc = Some (A2 (0 : 'M[R]_n))].
Proof.
by move=> E; have [mis [y Hr]] := rows_any zs; rewrite Hsz in Hr; exact: (em_single T0 Hr (keepsT Hsz Hk) ev N E Ho).
Qed.
End Glue.

Section Witness.
Variable R : rcfType.
Definition blank : seq (orow R 2) := [seq mk_row true 0 | _ <- iota 0 3].
Lemma blank_missing : all (@missing R 2) blank.
Proof. by rewrite /= !missing_row. Qed.
Lemma ex_sel_oc : selects (requested (ex_o R) None) Oc. Proof. by right; left. Qed.
Lemma em_idle_refuted : exists (o o' : kf R) (M : lgm R 2 2) (zs : seq (orow R 2)),
  [/\ kf_model o 3 M /\ psd_model M 3, size zs = 3%N /\ all (@missing R 2) zs, kf_em o (O2 2 zs) 1 None = (o', Ok tt),
      initial_value o Oc = A2 (1%:M : 'M[R]_2) & attribute o' Oc = Some (A2 (0 : 'M[R]_2))].
Proof.
have [o' [E _ _ Z]] := em_masked None (isT : (0 < 3)%N) (erefl : size blank = 3%N) (erefl : keeps blank) (ex_model R) 0 blank_missing.
exists (ex_o R), o', (ex_M R), blank; split=> //.
- by split; [exact: ex_model|exact: ex_psd].
- by split=> //; exact: blank_missing.
- rewrite /=; congr A2; apply/matrixP=> i j; by rewrite !mxE.
- exact: Z ex_sel_oc.
Qed.
Lemma ex_idle : [/\ kf_model (ex_o R) 3 (ex_M R) /\ psd_model (ex_M R) 3, keeps blank /\ all (@missing R 2) blank,
   selects (requested (ex_o R) None) Oc /\ selects (requested (ex_o R) None) Tc,
   ~ selects (requested (ex_o R) None) Tm & steady (mb (ex_M R)) 2 /\ steady (mQ (ex_M R)) 2].
Proof.
split=> //; [by split; [exact: ex_model|exact: ex_psd]|by split=> //; exact: blank_missing|by split; [exact: ex_sel_oc|left]|].
by move=> /= H; repeat (case: H => // H).
Qed.
End Witness.
