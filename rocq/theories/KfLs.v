(** Filtered and smoothed means as solutions of weighted least squares problems. *)
From Coq Require Import String List.
From mathcomp Require Import all_ssreflect all_algebra.
From mathcomp Require Import ring.
From Verif Require Import Prelude Zmod LinAlg Numpy Sklearn Standard Model KfSpec StandardInit StandardFacts KfModelFacts KfGlue KfSensors KfLsSpec Examples ExamplesEm.
Import Order.Theory GRing.Theory Num.Theory.

Set Implicit Arguments.
Unset Strict Implicit.
Unset Printing Implicit Defensive.
Local Open Scope ring_scope.

Section Square.
Variables (R : rcfType) (n m : nat) (P : 'M[R]_n) (C : 'M[R]_(m, n)) (N : 'M[R]_m).
Hypothesis HP : pd P.
Hypothesis HN : pd N.
Let S := C *m (P *m C^T) + N.
Let HP' := pd_psd HP.

Lemma sc_inv : (invmx P + inf C N) *m KfSensors.sc P C N = 1%:M.
Proof.
have UP := pd_unit HP; apply: mulmx1C.
have -> : KfSensors.sc P C N *m (invmx P + inf C N) = (KfSensors.sc P C N + KfSensors.sc P C N *m inf C N *m P) *m invmx P.
  by rewrite [RHS]mulmxDl mulmxDr -(mulmxA (_ *m inf C N)) mulmxV // mulmx1.
by rewrite (GP C HP' HN) mulmxV.
Qed.
Lemma scV : invmx (KfSensors.sc P C N) = invmx P + inf C N.
Proof.
have [U1 U2] := mulmx1_unit sc_inv.
by rewrite -[LHS]mul1mx -sc_inv mulmxK.
Qed.
Lemma inf_psd : psd (inf C N).
Proof. by apply: psd_congrT; exact: pd_psd (pd_inv HN). Qed.
Lemma sc_pd : pd (KfSensors.sc P C N).
Proof.
have [U1 U2] := mulmx1_unit sc_inv.
by rewrite -[KfSensors.sc _ _ _]invmxK scV; apply: pd_inv; apply: pdDr; [exact: pd_inv|exact: inf_psd].
Qed.
Lemma bfC k (A : 'M[R]_k) u v : A^T = A -> bf v A u = bf u A v.
Proof. by move=> H; rewrite bf_tr H. Qed.
Lemma qfB k (A : 'M[R]_k) u v : A^T = A -> qf A (u - v) = qf A u - 2%:R * bf u A v + qf A v.
Proof. by move=> H; rewrite /qf !(bfDl, bfDr, bfNl, bfNr) (bfC u v H); ring. Qed.

Lemma complete (u : 'cV[R]_n) (e : 'cV[R]_m) :
  qf (invmx P) u + qf (invmx N) (e - C *m u) = qf (invmx S) e + qf (invmx (KfSensors.sc P C N)) (u - sg P C N *m e).
Proof.
have UN := pd_unit HN; have US : S \in unitmx by exact: pd_unit (inn_pd C HP' HN).
have SN : (invmx N)^T = invmx N by rewrite trmx_inv (proj1 HN).
have SS : (invmx S)^T = invmx S by rewrite trmx_inv (proj1 (inn_pd C HP' HN)).
have SL : (invmx P + inf C N)^T = invmx P + inf C N by rewrite linearD /= trmx_inv (proj1 HP) (inf_sym C HN).
have LK : (invmx P + inf C N) *m sg P C N = C^T *m invmx N.
  by rewrite (sgE C HP' HN) !mulmxA sc_inv mul1mx.
rewrite scV !qfB //.
have -> : qf (invmx N) (C *m u) = qf (inf C N) u by rewrite /qf /inf bf_mul trmxK.
have -> : bf u (invmx P + inf C N) (sg P C N *m e) = bf e (invmx N) (C *m u).
  by rewrite -bf_mulr LK bf_tr trmx_mul trmxK SN bf_mulr.
have -> : qf (invmx P + inf C N) (sg P C N *m e) = qf (invmx N) e - qf (invmx S) e.
  rewrite /qf -bf_mulr LK.
  have -> : bf (sg P C N *m e) (C^T *m invmx N) e = bf e ((sg P C N)^T *m (C^T *m invmx N)) e.
    by rewrite [RHS]bf_mull trmxK.
  rewrite -bfNm -bfDm; apply: (f_equal (fun A => bf e A e)); apply/eqP; rewrite eq_sym subr_eq; apply/eqP.
  have -> : (sg P C N)^T = invmx S *m (C *m P).
    rewrite /sg -/S (pinv_unit US) !trmx_mul trmxK SS (proj1 HP'); by rewrite mulmxA.
  have E : S *m invmx N = C *m P *m (C^T *m invmx N) + 1%:M by rewrite /S mulmxDl mulmxV // !mulmxA.
  by rewrite -(mulmxA (invmx S)) -{2}[invmx S]mulmx1 -mulmxDr -E mulKmx.
by rewrite qfD; ring.
Qed.
End Square.

Section Path.
Variables (R : rcfType) (n m : nat) (M : lgm R n m) (zs : seq (orow R m)).
Let y := stream zs.
Let mp t := (pred M y t).1.
Let Pp t := (pred M y t).2.
Let mf t := (filt M y t).1.
Let Pf t := (filt M y t).2.
Lemma wsqE k (W : 'M[R]_k) v : wsq W v = qf (invmx W) v. Proof. by []. Qed.
(** the part of the criterion no choice of the states can avoid *)
Definition surprise t : R :=
  if y t is Some z then qf (invmx (mC M t *m (Pp t *m (mC M t)^T) + mR M t)) (z - (mC M t *m mp t + md M t)) else 0.

Lemma sub2 (a b c : 'cV[R]_n) : a - b - c = a - (b + c).
Proof. by rewrite opprD addrA. Qed.
Lemma obs_step t x : pd (Pp t) -> (y t -> pd (mR M t)) ->
  pd (Pf t) /\ wsq (Pp t) (x - mp t) + misfit M zs t x = surprise t + wsq (Pf t) (x - mf t).
Proof.
rewrite /misfit /surprise -/y /Pf /mf /filt /correct; case E: (y t) => [z|] HP HR; last by rewrite addr0 add0r.
have HN : pd (mR M t) by exact: HR.
split; first exact: (sc_pd (mC M t) HP HN).
have := complete (mC M t) HP HN (x - mp t) (z - (mC M t *m mp t + md M t)).
rewrite -/(gain M t (Pp t)) -[KfSensors.sc _ _ _]/(Pp t - gain M t (Pp t) *m (mC M t *m Pp t)) !wsqE => H.
rewrite (_ : z - (mC M t *m x + md M t) = z - (mC M t *m mp t + md M t) - mC M t *m (x - mp t)); last by rewrite mulmxBr; zmod.
rewrite H; apply: f_equal; apply: f_equal.
exact: sub2.
Qed.

Definition W t : 'M[R]_n := KfSensors.sc (Pf t) (mA M t) (mQ M t).
Lemma time_step t x x' : pd (Pf t) -> pd (mQ M t) ->
  [/\ pd (Pp t.+1), pd (W t) & wsq (Pf t) (x - mf t) + wsq (mQ M t) (x' - (mA M t *m x + mb M t)) =
    wsq (Pp t.+1) (x' - mp t.+1) + wsq (W t) (x - mf t - sgain M y t *m (x' - mp t.+1))].
Proof.
move=> HP HQ; split; first exact: (inn_pd (mA M t) (pd_psd HP) HQ).
  exact: (sc_pd (mA M t) HP HQ).
have := complete (mA M t) HP HQ (x - mf t) (x' - mp t.+1).
rewrite -/(W t) -/(sgain M y t) !wsqE => <-; apply: f_equal; apply: f_equal.
by rewrite /mp /= -/(mf t) mulmxBr; zmod.
Qed.

Definition slack k (x : nat -> 'cV[R]_n) : R :=
  wsq (Pf k) (x k - mf k) + \sum_(t < k) wsq (W t) (x t - mf t - sgain M y t *m (x t.+1 - mp t.+1)).
Variable T : nat.
Hypothesis HW : weights_exist M zs T.

Lemma cost_slack k x : (k < T)%N -> [/\ pd (Pf k), forall t, (t < k)%N -> pd (W t) &
  cost M zs k x = \sum_(t < k.+1) surprise t + slack k x].
Proof.
have [HP HQ HR] := HW; elim: k => [|k IH] kT.
  have [H1 H2] := @obs_step 0%N (x 0%N) HP (HR _ kT); split=> //.
  by rewrite /cost /slack !big_ord0 !big_ord1 !addr0; exact: H2.
have [H1 H2 H3] := IH (ltnW kT).
have kT' : (k < T.-1)%N by rewrite -ltnS prednK // (leq_trans _ kT).
have [H4 H5 H6] := time_step (x k) (x k.+1) H1 (HQ _ kT').
have [H7 H8] := obs_step (x k.+1) H4 (HR _ kT).
split=> // [t|]; first by rewrite ltnS leq_eqVlt => /orP[/eqP->//|]; exact: H2.
rewrite /cost /slack big_ord_recr /= [X in _ + X = _]big_ord_recr /= [X in _ = X + _]big_ord_recr /= [X in _ = _ + (_ + X)]big_ord_recr /=.
move: H3; rewrite /cost /slack.
set a := wsq (mP M) _; set b := \sum_(t < k) wsq (mQ M t) _; set c := \sum_(t < k.+1) misfit _ _ _ _; set d := \sum_(t < k.+1) surprise _.
set e := \sum_(t < k) _; move: H6 H8; set f := wsq (W k) _; set g := wsq (Pp k.+1) _; set h := wsq (Pf k) _; set i := wsq (mQ M k) _.
set j := misfit _ _ _ _; set l := surprise _; set q := wsq (Pf k.+1) _ => E1 E2 E3.
have -> : a + (b + i) + (c + j) = (a + b + c) + i + j by ring.
have -> : d + l + (q + (e + f)) = d + e + f + (l + q) by ring.
by rewrite -E2 E3 (_ : d + (h + e) + i = d + e + (h + i)); [rewrite E1; ring|ring].
Qed.

(** the smoothed means of the first [k.+1] rows *)
Definition path k t : 'cV[R]_n := (smo M y (k - t) t).1.
Lemma path_last k : path k k = mf k.
Proof. by rewrite /path subnn. Qed.
Lemma path_step k t : (t < k)%N -> path k t = mf t + sgain M y t *m (path k t.+1 - mp t.+1).
Proof. by move=> H; rewrite /path subnS; case: (k - t)%N (subn_gt0 t k) => [|j]; rewrite H. Qed.

Lemma path_slack k : slack k (path k) = 0.
Proof.
rewrite /slack path_last subrr wsqE qf0 add0r big1 // => -[t H] _ /=.
by rewrite path_step // [mf t + _]addrC addrK subrr wsqE qf0.
Qed.
Lemma wsq_pos k (A : 'M[R]_k) v : pd A -> v = 0 \/ 0 < wsq A v.
Proof.
move=> H; have [->|Nv] := eqVneq v 0; [by left|right].
by rewrite wsqE; exact: (proj2 (pd_inv H)).
Qed.
Lemma wsq_ge0 k (A : 'M[R]_k) v : pd A -> 0 <= wsq A v.
Proof. by move=> H; rewrite wsqE; exact: (proj2 (pd_psd (pd_inv H))). Qed.
Lemma slack_pos k x : (k < T)%N -> (forall t, (t <= k)%N -> x t = path k t) \/ 0 < slack k x.
Proof.
move=> kT; have [HP HWt _] := cost_slack x kT.
have Hs : 0 <= \sum_(t < k) wsq (W t) (x t - mf t - sgain M y t *m (x t.+1 - mp t.+1)).
  by apply: sumr_ge0 => -[t H] _; apply: wsq_ge0; exact: HWt.
have [E0|P0] := wsq_pos (x k - mf k) HP; last by right; rewrite /slack ltr_paddr.
have [Hall|] := boolP [forall t : 'I_k, x t - mf t - sgain M y t *m (x t.+1 - mp t.+1) == 0].
  left=> t; move: {2}(k - t)%N (erefl (k - t)%N) => j; elim: j t => [|j IH] t Ej tk.
    have -> : t = k by apply/eqP; rewrite eqn_leq tk -subn_eq0 Ej.
    by rewrite path_last; apply/eqP; rewrite -subr_eq0 E0.
  have tk' : (t < k)%N by rewrite -subn_gt0 Ej.
  rewrite path_step // -IH //; last by rewrite subnS Ej.
  move/forallP: Hall => /(_ (Ordinal tk')) /= /eqP H.
  by apply/eqP; rewrite -subr_eq0 -H; apply/eqP; zmod.
rewrite negb_forall => /existsP[[t tk] /= Ht]; right; rewrite /slack ltr_paddl //; first by apply: wsq_ge0.
rewrite (bigD1 (Ordinal tk)) //= ltr_paddr //.
  by apply: sumr_ge0 => -[s H] _; apply: wsq_ge0; exact: HWt.
by have [E|//] := wsq_pos (x t - mf t - sgain M y t *m (x t.+1 - mp t.+1)) (HWt _ tk); rewrite E eqxx in Ht.
Qed.
Lemma path_best k : (k < T)%N -> best_path M zs k (path k).
Proof.
move=> kT x'; have [H|H] := slack_pos x' kT; [by left|right].
have [_ _ ->] := cost_slack (path k) kT; have [_ _ ->] := cost_slack x' kT.
by rewrite path_slack ltr_add2l.
Qed.
End Path.

Lemma map_same (U V : Type) (a : V) (s : seq U) : [seq a | _ <- s] = nseq (size s) a.
Proof. by elim: s => //= x s ->. Qed.

Section Rest.
Variables (R : rcfType) (n m : nat) (M : lgm R n m) (zs : seq (orow R m)) (T : nat).
Let y := stream zs.
Hypothesis HA : at_rest M T.
Hypothesis HF : fit_weights_exist M zs T.

Lemma rest_pred t : (t.+1 < T)%N -> pred M y t.+1 = filt M y t.
Proof.
move=> tT; have tT' : (t < T.-1)%N by rewrite -ltnS prednK // (leq_trans _ tT).
have [E1 E2 E3] := HA tT'; rewrite /= /predict E1 E2 E3 trmx1 mulmx1 !mul1mx !addr0.
by rewrite -/(filt M y t); case: (filt M y t).
Qed.
Lemma scV_obs t : pd (pred M y t).2 -> (y t -> pd (mR M t)) ->
  invmx (filt M y t).2 = invmx (pred M y t).2 + if y t then (mC M t)^T *m invmx (mR M t) *m mC M t else 0.
Proof.
rewrite /filt /correct; case E: (y t) => [z|] HP HR; last by rewrite addr0.
exact: (scV (mC M t) HP (HR isT)).
Qed.
Lemma rest_fit k c : (k < T)%N -> [/\ pd (filt M y k).2, invmx (filt M y k).2 = precision M zs k &
  scost M zs k c = \sum_(t < k.+1) surprise M zs t + wsq (filt M y k).2 (c - (filt M y k).1)].
Proof.
have [HP HR] := HF; elim: k => [|k IH] kT.
  have [H1 H2] := @obs_step _ _ _ M zs 0%N c HP (HR _ kT); split=> //.
    by rewrite /precision big_ord1; exact: (@scV_obs 0%N HP (HR _ kT)).
  by rewrite /scost !big_ord1; exact: H2.
have [H1 H2 H3] := IH (ltnW kT).
have HPp : pd (pred M y k.+1).2 by rewrite rest_pred.
have [H4 H5] := @obs_step _ _ _ M zs k.+1 c HPp (HR _ kT); split=> //.
  by rewrite (scV_obs HPp (HR _ kT)) rest_pred // H2 /precision [in RHS]big_ord_recr /= addrA.
rewrite /scost big_ord_recr /= [in RHS]big_ord_recr /=.
rewrite -/y (rest_pred kT) in H5.
have -> : forall a b d : R, a + (b + d) = a + b + d by move=> *; rewrite addrA.
rewrite -/(scost M zs k c) H3 -[in RHS]addrA; rewrite -[LHS]addrA; apply: f_equal; exact: H5.
Qed.
Lemma rest_best k : (k < T)%N -> best_fit M zs k (filt M y k).1.
Proof.
move=> kT c'; have [HP _ ->] := rest_fit (filt M y k).1 kT; have [_ _ ->] := rest_fit c' kT.
rewrite subrr [X in _ + X < _]wsqE qf0 addr0 ltr_addl.
by have [/eqP|] := wsq_pos (c' - (filt M y k).1) HP; [rewrite subr_eq0 => /eqP; left|right].
Qed.
Lemma rest_smo j t : (t + j < T)%N -> smo M y j t = filt M y (t + j).
Proof.
elim: j t => [|j IH] t H; first by rewrite addn0.
have tT : (t.+1 < T)%N by apply: leq_ltn_trans H; rewrite addnS ltnS leq_addr.
have H' : (t.+1 + j < T)%N by rewrite addSnnS.
have tT' : (t < T.-1)%N by rewrite -ltnS prednK // (leq_trans _ tT).
have [E1 E2 E3] := HA tT'.
have [HP _ _] := rest_fit 0 (ltnW tT).
have EG : sgain M y t = 1%:M.
  by rewrite /sgain rest_pred // E1 trmx1 mul1mx pinv_pd // mulmxV //; exact: pd_unit.
have -> : smo M y j.+1 t = ((filt M y t).1 + sgain M y t *m ((smo M y j t.+1).1 - (pred M y t.+1).1),
       (filt M y t).2 + sgain M y t *m (((smo M y j t.+1).2 - (pred M y t.+1).2) *m (sgain M y t)^T)) by exact: erefl.
rewrite EG IH // rest_pred // trmx1 mulmx1 !mul1mx addSnnS ![_ + (_ - _)]addrC !subrK.
by case: (filt M y (t + j.+1)).
Qed.
End Rest.

Section Api.
Variables (R : rcfType) (n m : nat) (o : kf R) (T : nat) (M : lgm R n m).
Hypothesis Ho : kf_model o T M.
Variable zs : seq (orow R m).
Hypothesis Hsz : size zs = T.
Hypothesis Hk : keeps zs.

Lemma smooth_least_squares : weights_exist M zs T -> (0 < T)%N ->
  exists (x : nat -> 'cV[R]_n) (P : nat -> 'M[R]_n),
  kf_smooth o (O2 m zs) = Ok [seq (A1 (x t), A2 (P t)) | t <- iota 0 T] /\ best_path M zs T.-1 x.
Proof.
move=> HW T0; do 2 eexists; split; first exact: (kf_smooth_ok Ho Hsz (keepsT Hsz Hk) T0).
by apply: (path_best HW); rewrite prednK.
Qed.
Lemma filter_least_squares : weights_exist M zs T ->
  exists (x : nat -> 'cV[R]_n) (P : nat -> 'M[R]_n),
  kf_filter o (O2 m zs) = Ok [seq (A1 (x t), A2 (P t)) | t <- iota 0 T] /\
  forall k, (k < T)%N -> exists2 p, p k = x k & best_path M zs k p.
Proof.
move=> HW; do 2 eexists; split; first exact: (kf_filter_ok Ho Hsz (keepsT Hsz Hk)).
by move=> k kT /=; exists (path M zs k); [exact: path_last|exact: (path_best HW)].
Qed.
Lemma rest_api : at_rest M T -> fit_weights_exist M zs T ->
  exists (x : nat -> 'cV[R]_n) (P : nat -> 'M[R]_n),
  [/\ kf_filter o (O2 m zs) = Ok [seq (A1 (x t), A2 (P t)) | t <- iota 0 T],
      forall k, (k < T)%N -> best_fit M zs k (x k) /\ P k *m precision M zs k = 1%:M &
      (0 < T)%N -> kf_smooth o (O2 m zs) = Ok (nseq T (A1 (x T.-1), A2 (P T.-1)))].
Proof.
move=> HA HF; do 2 eexists; split; first exact: (kf_filter_ok Ho Hsz (keepsT Hsz Hk)).
  move=> k kT /=; split; first exact: (rest_best HA HF).
  by have [HP <- _] := rest_fit HA HF 0 kT; rewrite mulmxV // pd_unit.
move=> T0; rewrite (kf_smooth_ok Ho Hsz (keepsT Hsz Hk) T0); apply: f_equal.
rewrite -[in RHS](size_iota 0 T) -map_same; apply/eq_in_map => t; rewrite mem_iota add0n => /andP[_ tT].
have tT' : (t <= T.-1)%N by rewrite -ltnS prednK.
by rewrite /= (rest_smo HA HF (idx_lt tT)) subnKC // size_iota.
Qed.
End Api.

Section Examples.
Variable R : rcfType.
Lemma ls_met : [/\ kf_model (em_o R) 3 (em_M R), size (ex_zs R) = 3%N, keeps (ex_zs R) & weights_exist (em_M R) (ex_zs R) 3].
Proof.
split=> //; first exact: em_o_model.
by split=> *; [exact: pp_pd|exact: pp_pd|exact: pd1].
Qed.
(** one unknown vector, seen through a different matrix each time *)
Definition rest_M : lgm R 2 2 :=
  LGM (fun _ => 1%:M) (fun _ => 0) (fun _ => 0) (fun t => shear t%:R) (fun _ => e0 R) (fun _ => 1%:M) (e0 R) (proj R + 1%:M).
Lemma rest_met : [/\ kf_model (obj_of rest_M 3 true) 3 rest_M, size (ex_zs R) = 3%N, keeps (ex_zs R), at_rest rest_M 3 &
  fit_weights_exist rest_M (ex_zs R) 3].
Proof.
split=> //; first exact: obj_model.
by split=> *; [exact: pp_pd|exact: pd1].
Qed.
End Examples.
