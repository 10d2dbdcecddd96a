(** Covariances as curvature of the least squares criterion; smoothing backwards
    in time. *)
From Coq Require Import String List.
From mathcomp Require Import all_ssreflect all_algebra.
From mathcomp Require Import ring.
From Verif Require Import Prelude Zmod LinAlg Numpy Sklearn Standard Model KfSpec StandardFacts KfModelFacts KfGlue KfSensors KfLsSpec KfLs KfCurvSpec.
Import Order.Theory GRing.Theory Num.Theory.

Set Implicit Arguments.
Unset Strict Implicit.
Unset Printing Implicit Defensive.
Local Open Scope ring_scope.

Section Alg.
Variables (R : rcfType) (n : nat).
Lemma curv_S (Pf Q A J V Ps : 'M[R]_n) : pd Pf -> pd Q -> V = A *m (Pf *m A^T) + Q -> J = Pf *m (A^T *m pinv V) ->
  J *m (Ps *m J^T) + KfSensors.sc Pf A Q = Pf + J *m ((Ps - V) *m J^T).
Proof.
move=> HP HQ HV HJ; have PV : pd V by rewrite HV; exact: (inn_pd A (pd_psd HP) HQ).
have UV := pd_unit PV.
have E : KfSensors.sc Pf A Q = Pf - J *m (V *m J^T).
  rewrite /KfSensors.sc /sg -HV -HJ; apply: f_equal; apply: f_equal; apply: f_equal.
  by rewrite HJ (pinv_unit UV) !trmx_mul trmxK (proj1 HP) trmx_inv (proj1 PV) !mulmxA mulmxV // mul1mx.
by rewrite E mulmxBl mulmxBr addrC -addrA; apply: f_equal; rewrite addrC.
Qed.
End Alg.

Section Curv.
Variables (R : rcfType) (n m : nat) (M : lgm R n m) (zs : seq (orow R m)).
Let y := stream zs.
Let mp t := (pred M y t).1.
Let Pp t := (pred M y t).2.
Let mf t := (filt M y t).1.
Let Pf t := (filt M y t).2.
Let J t := sgain M y t.
Let f (x : nat -> 'cV[R]_n) t := wsq (W M zs t) (x t - mf t - J t *m (x t.+1 - mp t.+1)).
Fixpoint tail t j x : R := if j is j'.+1 then f x t + tail t.+1 j' x else wsq (Pf t) (x t - mf t).

Lemma tail_ext t j x x' : (forall s, (t <= s)%N -> x' s = x s) -> tail t j x' = tail t j x.
Proof.
elim: j t => [|j IH] t H /=; first by rewrite H.
by rewrite (IH t.+1) => [|s Hs]; [rewrite /f !H|rewrite H // ltnW].
Qed.
Lemma slack_tail t j x : slack M zs (t + j) x = \sum_(s < t) f x s + tail t j x.
Proof.
elim: j t => [|j IH] t; first by rewrite addn0 /slack addrC.
by rewrite -addSnnS IH big_ord_recr /= -addrA.
Qed.
Lemma fill t x : exists2 x', (forall s, (t <= s)%N -> x' s = x s) & forall s, (s < t)%N -> f x' s = 0.
Proof.
elim: t x => [|t IH] x; first by exists x.
have [x' H1 H2] := IH (fun s => if s == t then mf t + J t *m (x t.+1 - mp t.+1) else x s).
exists x' => [s ts|s]; first by rewrite H1 ?(ltnW ts) // gtn_eqF.
rewrite ltnS leq_eqVlt => /orP[/eqP->|]; last exact: H2.
rewrite /f !H1 // eqxx gtn_eqF // [mf t + _]addrC addrK subrr; exact: qf0.
Qed.
Variable T : nat.
Hypothesis HW : weights_exist M zs T.

Lemma tail_profile j t : (t + j < T)%N -> pd (smo M y j t).2 /\
  ((forall x, wsq (smo M y j t).2 (x t - (smo M y j t).1) <= tail t j x) /\
  forall c, exists2 x, x t = c & tail t j x = wsq (smo M y j t).2 (c - (smo M y j t).1)).
Proof.
elim: j t => [|j IH] t H.
  rewrite addn0 in H; have [HP _ _] := cost_slack HW (fun=> 0) H.
  split; [exact: HP|split=> // c]; by exists (fun=> c).
have H' : (t.+1 + j < T)%N by rewrite addSnnS.
have tT : (t.+1 < T)%N by apply: leq_ltn_trans H'; rewrite leq_addr.
have tT' : (t < T.-1)%N by rewrite -ltnS prednK // (leq_trans _ tT).
have [HP [Hl He]] := IH _ H'.
have [HPf _ _] := cost_slack HW (fun=> 0) (ltnW tT).
have [_ HQ _] := HW.
have [_ HWt _] := time_step (zs := zs) 0 0 HPf (HQ _ tT').
set P := (smo M y j t.+1).2 in HP Hl He *; set u := (smo M y j t.+1).1 in Hl He *.
have EP : J t *m (P *m (J t)^T) + W M zs t = (smo M y j.+1 t).2 by exact: (curv_S P HPf (HQ _ tT') erefl erefl).
have Eu : (smo M y j.+1 t).1 = mf t + J t *m (u - mp t.+1) by [].
have CC c c' := complete (J t) HP HWt (c' - u) (c - (smo M y j.+1 t).1).
have Ee c c' : c - (smo M y j.+1 t).1 - J t *m (c' - u) = c - mf t - J t *m (c' - mp t.+1).
  by rewrite Eu !mulmxBr; move: (J t *m u) (J t *m mp t.+1) (J t *m c') (mf t) => v1 v2 v3 v4; zmod.
have pS : pd (smo M y j.+1 t).2 by rewrite -EP; exact: (inn_pd (J t) (pd_psd HP) HWt).
have psc : pd (KfSensors.sc P (J t) (W M zs t)) by exact: (sc_pd (J t) HP HWt).
have EC c c' : f (fun s => if s == t then c else c') t + wsq P (c' - u) = wsq (smo M y j.+1 t).2 (c - (smo M y j.+1 t).1) +
    wsq (KfSensors.sc P (J t) (W M zs t)) (c' - u - sg P (J t) (W M zs t) *m (c - (smo M y j.+1 t).1)).
  by rewrite /f eqxx gtn_eqF // -Ee addrC !wsqE CC EP.
split=> //; split=> [x|c] /=.
  have -> : f x t = f (fun s => if s == t then x t else x t.+1) t by rewrite /f eqxx gtn_eqF.
  apply: le_trans (ler_add (lexx _) (Hl x)); rewrite (EC (x t) (x t.+1)) ler_addl; exact: wsq_ge0.
pose c' := u + sg P (J t) (W M zs t) *m (c - (smo M y j.+1 t).1).
have [x Hx Hc] := He c'.
exists (fun s => if s == t then c else x s); first by rewrite eqxx.
have -> : tail t.+1 j (fun s => if s == t then c else x s) = tail t.+1 j x by apply: tail_ext => s ts; rewrite gtn_eqF.
have -> : f (fun s => if s == t then c else x s) t = f (fun s => if s == t then c else c') t by rewrite /f eqxx gtn_eqF // Hx.
rewrite Hc (EC c c') /c' [u + _]addrC addrK subrr [X in _ + X = _]wsqE qf0 addr0; exact: erefl.
Qed.

Lemma path_curv k t : (t <= k)%N -> (k < T)%N -> curvature M zs k t (path M zs k) (smo M y (k - t) t).2.
Proof.
move=> tk kT; have kT' : (t + (k - t) < T)%N by rewrite subnKC.
have [HP [Hl He]] := tail_profile kT'; split=> // c.
have [_ HWt Ec] := cost_slack HW (path M zs k) kT; rewrite path_slack addr0 in Ec.
have Es x : slack M zs k x = \sum_(s < t) f x s + tail t (k - t) x by rewrite -slack_tail subnKC.
split=> [x' Hx'|].
  have [_ _ ->] := cost_slack HW x' kT; rewrite Ec ler_add2l Es -Hx'.
  apply: le_trans (Hl x') _; rewrite ler_addr; apply: sumr_ge0 => -[s st] _; apply: wsq_ge0; apply: HWt; exact: leq_trans tk.
have [x Hx Hc] := He c; have [x' H1 H2] := fill t x; exists x'; first by rewrite H1.
have [_ _ ->] := cost_slack HW x' kT; rewrite Ec Es.
have -> : \sum_(s < t) f x' s = 0 by apply: big1 => -[s st] _; exact: H2.
by rewrite add0r (tail_ext _ H1) Hc.
Qed.
End Curv.

Section Api.
Variables (R : rcfType) (n m : nat) (o : kf R) (T : nat) (M : lgm R n m).
Hypothesis Ho : kf_model o T M.
Variable zs : seq (orow R m).
Hypothesis Hsz : size zs = T.
Hypothesis Hk : keeps zs.
Hypothesis HW : weights_exist M zs T.

Lemma smooth_curvature : (0 < T)%N ->
  exists (x : nat -> 'cV[R]_n) (P : nat -> 'M[R]_n),
  [/\ kf_smooth o (O2 m zs) = Ok [seq (A1 (x t), A2 (P t)) | t <- iota 0 T], best_path M zs T.-1 x &
      forall t, (t < T)%N -> curvature M zs T.-1 t x (P t)].
Proof.
move=> T0; do 2 eexists; split; first exact: (kf_smooth_ok Ho Hsz (keepsT Hsz Hk) T0).
  by apply: (path_best HW); rewrite prednK.
by move=> t tT; apply: (path_curv HW); rewrite ?prednK // -ltnS prednK.
Qed.
Lemma filter_curvature :
  exists (x : nat -> 'cV[R]_n) (P : nat -> 'M[R]_n),
  kf_filter o (O2 m zs) = Ok [seq (A1 (x t), A2 (P t)) | t <- iota 0 T] /\
  forall k, (k < T)%N -> exists p, [/\ p k = x k, best_path M zs k p & curvature M zs k k p (P k)].
Proof.
do 2 eexists; split; first exact: (kf_filter_ok Ho Hsz (keepsT Hsz Hk)).
move=> k kT; exists (path M zs k); split; [exact: path_last|exact: (path_best HW)|].
by have := path_curv HW (leqnn k) kT; rewrite subnn.
Qed.
End Api.
