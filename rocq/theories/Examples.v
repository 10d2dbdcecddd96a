(** A concrete non-trivial KalmanFilter: two states, two observations, three
    time steps, time-varying transition matrices, singular process noise and
    initial covariance, observation matrix and noise left at their defaults,
    second observation missing.  Used to show that the hypotheses of the
    property theorems can be met. *)
From Coq Require Import String List.
From mathcomp Require Import all_ssreflect all_algebra.
From Verif Require Import Prelude Zmod LinAlg Numpy NumpyFacts Sklearn SklearnFacts Standard Model KfSpec StandardInit StandardFacts
  KfStruct KfStruct2 SpecL2 L2Facts Lmmse Exists KfOptimal KfModelFacts KfOnline KfEquiv GaussSpec KfLoglik Joint KfJoint KfGlue.
Import GRing.Theory Num.Theory Order.Theory.

Set Implicit Arguments.
Unset Strict Implicit.
Unset Printing Implicit Defensive.
Local Open Scope ring_scope.

Section Ex.
Variable R : rcfType.
Definition e0 : 'cV[R]_2 := \col_i (i == ord0)%:R.
Definition e1 : 'cV[R]_2 := \col_i (i != ord0)%:R.
(** [[1, k], [0, 1]] *)
Definition shear (k : R) : 'M[R]_2 := 1%:M + k *: (e0 *m e1^T).
(** [[1, 0], [0, 0]] *)
Definition proj : 'M[R]_2 := e0 *m e0^T.

Definition ex_args : kfargs R :=
  KFArgs (Some (A3 [:: shear 1; shear 2%:R])) None (Some (A2 proj)) None
         None (Some (A1 (e0 + e1))) (Some (A1 e0)) (Some (A2 proj)) (Some (RsSeed 7)) None None (Some 2%N).
Definition ex_o : kf R :=
  KF (Some (A3 [:: shear 1; shear 2%:R])) None (Some (A2 proj)) None
     None (Some (A1 (e0 + e1))) (Some (A1 e0)) (Some (A2 proj)) (Some (RsSeed 7)) None 2 2
     (EmNames default_em_vars).
Definition ex_M : lgm R 2 2 :=
  LGM (fun t => nth 0 [:: shear 1; shear 2%:R] t) (fun _ => 0) (fun _ => proj)
      (fun _ => 1%:M) (fun _ => e0 + e1) (fun _ => 1%:M) e0 proj.
Definition ex_mis (t : nat) : bool := t == 1%N.
(** observed values *)
Definition ex_d (t : nat) : 'cV[R]_2 := t%:R *: e0 - e1.
Definition mk_row m (b : bool) (d : 'cV[R]_m) : orow R m := (d, const_mx b).
Definition ex_zs : seq (orow R 2) := [seq mk_row (ex_mis t) (ex_d t) | t <- iota 0 3].

Lemma ex_init : kf_init ex_args = Ok ex_o. Proof. by []. Qed.

Lemma missing_row m b (d : 'cV[R]_m.+1) : missing (mk_row b d) = b.
Proof.
rewrite /missing; apply/existsP; case: b; first by exists ord0; rewrite mxE.
by case=> j; rewrite mxE.
Qed.
Lemma nth_error_iota (U : Type) (f : nat -> U) T t r :
  List.nth_error [seq f s | s <- iota 0 T] t = Some r -> (t < T)%N /\ r = f t.
Proof.
have H : forall a, List.nth_error [seq f s | s <- iota a T] t = Some r -> (t < T)%N /\ r = f (a + t)%N.
  elim: T t => [|T IH] [|t] a //=; first by move=> [<-]; rewrite addn0.
  by move=> /IH[H1 ->]; rewrite addnS addSn.
exact: H.
Qed.
Lemma rows_of_mk m T mis (d : nat -> 'cV[R]_m.+1) :
  rows_of T mis d [seq mk_row (mis t) (d t) | t <- iota 0 T].
Proof.
split; first by rewrite size_map size_iota.
move=> t r H; have [_ ->] := nth_error_iota H; by rewrite missing_row.
Qed.
Lemma ex_rows : rows_of 3 ex_mis ex_d ex_zs. Proof. exact: rows_of_mk. Qed.

Lemma data_of_mk (Sp : l2space R) m T mis (z : nat -> Om Sp -> 'cV[R]_m.+1) :
  data_of T z mis (fun om => [seq mk_row (mis t) (z t om) | t <- iota 0 T]).
Proof. by move=> om; exact: rows_of_mk. Qed.

Lemma ex_model : kf_model ex_o 3 ex_M.
Proof.
split=> //.
- by right; exists [:: shear 1; shear 2%:R].
- by left; exists proj.
- by move=> t _; apply/matrixP => i j; rewrite /eye !mxE.
- by left; exists (e0 + e1).
Qed.
Lemma ex_rows_differ : [seq mk_row (ex_mis t) e1 | t <- iota 0 3] <> ex_zs.
Proof.
case=> /matrixP /(_ (lift ord0 ord0) ord0); rewrite !mxE /= mul0r add0r => E _ _.
have H : (-1 : R) < 1 by apply: lt_trans ltr01; rewrite oppr_lt0 ltr01.
by move: H; rewrite -E ltxx.
Qed.
Lemma proj_psd : psd proj. Proof. exact: psd_gram. Qed.
Lemma ex_psd : psd_model ex_M 3.
Proof. by split=> *; [exact: proj_psd|exact: proj_psd|exact: psd1]. Qed.

Lemma ex_obeys : exists (Sp : l2space R) x z w v, @obeys R Sp 2 2 ex_M 3 x z w v.
Proof. exact: model_exists ex_psd. Qed.

(** the process noise is not positive definite *)
Lemma proj_not_pd : ~ pd proj.
Proof.
case=> _ /(_ e1); have N : e1 != 0.
  apply/eqP => /matrixP /(_ (lift ord0 ord0) ord0); rewrite !mxE => /eqP; by rewrite oner_eq0.
move=> /(_ N); have -> : qf proj e1 = 0.
  rewrite /qf /bf /proj mulmxA -mulmxA.
  have -> : e0^T *m e1 = 0.
    by apply/matrixP => i j; rewrite !mxE big_ord_recl big_ord1 !mxE /= mulr0 mul0r addr0.
  by rewrite mulmx0 /sc mxE.
by rewrite ltxx.
Qed.

(** an object for any model: all time-varying parameters given as stacks,
    except the observation covariance when [c] *)
Definition obj_of n m (M : lgm R n m) (T : nat) (c : bool) : kf R :=
  KF (Some (A3 [seq mA M t | t <- iota 0 T])) (Some (A3 [seq mC M t | t <- iota 0 T]))
     (Some (A3 [seq mQ M t | t <- iota 0 T]))
     (Some (if c then A2 (mR M 0) else A3 [seq mR M t | t <- iota 0 T]))
     (Some (A2 (\matrix_(t < T, j < n) mb M t j 0))) (Some (A2 (\matrix_(t < T, j < m) md M t j 0)))
     (Some (A1 (mmu M))) (Some (A2 (mP M))) None None n m (EmNames default_em_vars).
Lemma obj_model n m (M : lgm R n m) T (c : bool) : (c -> forall t, (t < T)%N -> mR M t = mR M 0%N) ->
  kf_model (obj_of M T c) T M.
Proof.
have L2 k l (F : nat -> 'M[R]_(k, l)) a : (a <= T)%N -> rep2 (A3 [seq F t | t <- iota 0 T]) a F.
  move=> aT; right; eexists; split; first by [].
    by rewrite size_map size_iota.
  by move=> t ta; rewrite (nth_map 0%N) ?size_iota ?nth_iota //; exact: leq_trans aT.
have L1 k (F : nat -> 'cV[R]_k) a : (a <= T)%N -> rep1 (A2 (\matrix_(t < T, j < k) F t j 0)) a F.
  move=> aT; right; exists T; eexists; split; [by []|by []|].
  move=> t ta i; have tT := leq_trans ta aT.
  by rewrite -[in RHS]/(nat_of_ord (Ordinal tT)) mgetE mxE.
move=> Hc; split; rewrite //=.
- by apply: L2; exact: leq_pred.
- by apply: L1; exact: leq_pred.
- by apply: L2; exact: leq_pred.
- exact: L2.
- exact: L1.
- by case: c Hc => /= Hc; [left; exists (mR M 0); [|exact: Hc]|exact: L2].
Qed.

Lemma shear_unit k : shear k \in unitmx.
Proof.
have E : shear (- k) *m shear k = 1%:M.
  have E10 : e1^T *m e0 = 0.
    by apply/matrixP => i j; rewrite !mxE big_ord_recl big_ord1 !mxE /= mulr0 mul0r addr0.
  rewrite /shear mulmxDl mul1mx mulmxDr mulmx1 -scalemxAl -scalemxAr mulmxA.
  by rewrite -(mulmxA e0) E10 mulmx0 mul0mx !scaler0 addr0 -addrA -scalerDl subrr scale0r addr0.
by case/mulmx1_unit: E.
Qed.

Lemma ex_jitter :
  [/\ pd (1%:M : 'M[R]_2), ~ pd proj /\ proj^T = proj & pd (proj + (min_covar R)%:M)] /\
  (~ pd (- 1%:M : 'M[R]_1) /\ ~ pd (- 1%:M + (min_covar R)%:M : 'M[R]_1)).
Proof.
have c0 : 0 < min_covar R by rewrite invr_gt0 exprn_gt0 // ltr0n.
have c1 : min_covar R <= 1.
  by rewrite invf_le1 ?exprn_gt0 ?ltr0n // -natrX ler1n.
have N1 : (1%:M : 'cV[R]_1) != 0 by apply/eqP => /matrixP /(_ 0 0); rewrite !mxE => /eqP; rewrite oner_eq0.
have Hq (x : R) : x <= 0 -> ~ pd (x%:M : 'M[R]_1).
  move=> x0 [_ /(_ _ N1)]; rewrite /qf /bf trmx1 mul1mx mulmx1 /sc mxE eqxx mulr1n => H.
  by have := lt_le_trans H x0; rewrite ltxx.
split; first split.
- exact: pd1.
- by split; [exact: proj_not_pd|exact: psd_sym proj_psd].
- apply: pdD; first exact: proj_psd.
  by rewrite -scalemx1; apply: pdZ => //; exact: pd1.
- by rewrite -raddfN -raddfD; split; apply: Hq; rewrite ?oppr_le0 ?ler01 // addrC subr_le0.
Qed.
End Ex.
