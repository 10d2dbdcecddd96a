(** The Cholesky filter computes the textbook recursions. *)
From Coq Require Import String List.
From mathcomp Require Import all_ssreflect all_algebra.
From Verif Require Import Prelude Zmod LinAlg Numpy NumpyFacts Sklearn SklearnFacts Standard Model StandardInit StandardFacts.
From Verif Require Import Sqrt SqrtFacts Cholesky.
Import GRing.Theory Num.Theory.

Set Implicit Arguments.
Unset Strict Implicit.
Unset Printing Implicit Defensive.
Local Open Scope ring_scope.

#[global] Arguments ch_block : simpl never.

Section Steps.
Variable R : rcfType.
Variable qr : qr_fun R.
Hypothesis Hqr : qr_valid qr.

Lemma ch_predictE n (A Q2 S : 'M[R]_n) (b mu : 'cV[R]_n) :
  exists2 S' : 'M[R]_n,
    ch_predict qr (A2 A) (A2 Q2) (A1 b) (A1 mu) (A2 S) = Ok (A1 (A *m mu + b), A2 S')
    & S' *m S'^T = A *m (S *m S^T *m A^T) + Q2 *m Q2^T.
Proof.
set M := (row_mx (A *m S) Q2)^T.
exists (usubmx (qr M).2)^T.
  by rewrite /ch_predict; np; rewrite hstackE bO tr2 bO qr_rE bO np_sliceE slice_u bO tr2.
have dl : dsubmx (qr M).2 = 0.
  have [_ H _] := Hqr M; apply/matrixP=> i j; rewrite !mxE; apply: H => /=.
  by apply: leq_trans (ltn_ord j) _; rewrite leq_addr.
have := qr_gram M Hqr; rewrite -{1 2}(vsubmxK (qr M).2) dl tr_col_mx mul_row_col mulmx0 addr0 => E.
by rewrite trmxK E /M trmxK tr_row_mx mul_row_col trmx_mul !mulmxA.
Qed.

Lemma ch_correct_miss n m (C : 'M[R]_(m, n)) (R2 : 'M[R]_m) (d : 'cV[R]_m) mu (S : 'M[R]_n) (z : arr R) :
  ch_correct qr (A2 C) (A2 R2) (A1 d) mu (A2 S) z true = Ok (mu, A2 S).
Proof. by []. Qed.

Lemma ch_blockE m n (a : 'M[R]_m) (b : 'M[R]_(n, m)) (c : 'M[R]_n) :
  ch_block m n (A2 a) (A2 b) (A2 c) = A2 (block_mx a 0 b c).
Proof.
rewrite /ch_block; apply: A2_eq => // i j Hi Hj; rewrite mget_block //.
rewrite (mgetE _ (Ordinal Hi) (Ordinal Hj)) mxE /=.
case: ifP => // _; case: ifP => // H.
by rewrite /mget; case: insub => //; case: insub => // *; rewrite mxE.
Qed.

Lemma ch_correctE n m (C : 'M[R]_(m, n)) (R2 : 'M[R]_m) (d : 'cV[R]_m) mu (S : 'M[R]_n) z :
  let P := S *m S^T in let V := C *m (P *m C^T) + R2 *m R2^T in
  let K := P *m (C^T *m pinv V) in
  pd (R2 *m R2^T) ->
  exists2 F : 'M[R]_n,
    ch_correct qr (A2 C) (A2 R2) (A1 d) (A1 mu) (A2 S) (A1 z) false =
      Ok (A1 (mu + K *m (z - (C *m mu + d))), A2 F)
    & F *m F^T = P - K *m (C *m P).
Proof.
move=> P V K HR.
set M := block_mx R2^T 0 (C *m S)^T S^T.
set r := (qr M).2.
set N := (ulsubmx r)^T; set G := (ursubmx r)^T; set F := (drsubmx r)^T.
have dl : dlsubmx r = 0 by apply: qr_dl.
have E : block_mx (N *m N^T) (N *m G^T) (G *m N^T) (G *m G^T + F *m F^T) =
         block_mx V (C *m P) (P *m C^T) P.
  have := qr_gram M Hqr; rewrite -/r -{1 2}(submxK r) dl tr_block_mx mulmx_block trmx0 !mulmx0 !mul0mx !addr0.
  rewrite /N /G /F !trmxK => ->; rewrite /M tr_block_mx mulmx_block !trmxK trmx0 !mulmx0 !mul0mx !add0r.
  by rewrite /V /P !trmx_mul !mulmxA addrC.
have [EN ENG EGN EGF] := eq_block_mx E.
have pV : pd V by apply: pdD HR; rewrite mulmxA; apply: psd_congr; exact: psd_gram.
have uV := pd_unit pV.
have uN : N \in unitmx by move: uV; rewrite -EN unitmx_mul => /andP[].
have uNt : N^T \in unitmx by rewrite unitmx_tr.
have iV : invmx V = invmx N^T *m invmx N by rewrite -[RHS](mulKmx uV) -{3}EN -mulmxA mulKVmx // mulmxV // mulmx1.
have GE : G = P *m C^T *m invmx N^T by rewrite -EGN mulmxK.
have KE : K = G *m invmx N by rewrite /K pinv_unit // iV GE !mulmxA.
have KV : G *m G^T = K *m (C *m P) by rewrite KE -ENG mulmxA mulmxKV.
exists F; last by rewrite -KV; apply/eqP; rewrite eq_sym subr_eq addrC EGF.
rewrite /ch_correct [~~ _]/= len1E bO len1E bO tr2 bO assign2E bO dot22 bO tr2 bO assign2E bO tr2 bO assign2E bO.
rewrite ch_blockE qr_rE bO np_sliceE slice_ur bO tr2 bO np_sliceE slice_ul bO.
rewrite tr2 bO dot21 bO add11 bO NumpyFacts.pinv2 bO sub11 bO dot21 bO dot21 bO add11 bO np_sliceE slice_dr bO tr2 bO.
by rewrite -/M -/r -/N -/G -/F pinv_unit // KE !mulmxA.
Qed.
End Steps.

Section Refine.
Variables (R : rcfType) (qr : qr_fun R).
Hypothesis Hqr : qr_valid qr.
Variables (n m : nat) (M : lgm R n m) (p : kfparams R) (T : nat).
Hypothesis Hp : params_model p T M.
Variables (Q : 'M[R]_n) (Rc : 'M[R]_m).
Hypothesis HQ : p_tc p = A2 Q.
Hypothesis HR : p_oc p = A2 Rc.
Hypothesis pQ : pd Q.
Hypothesis pR : pd Rc.
Hypothesis pP : pd (mP M).
Variable (zs0 : seq (orow R m)).
Hypothesis Hsz : size zs0 = T.
Let y := stream zs0.

Lemma rep2_A2 a b (X : 'M[R]_(a, b)) T' F : rep2 (A2 X) T' F -> forall t, (t < T')%N -> F t = X.
Proof. by case=> [[X' e H] t tT|[s []]] //; rewrite H // (A2_inj e). Qed.

Definition is_crow (t : nat) (r : frow R) : Prop :=
  exists S F : 'M[R]_n,
    [/\ r = FRow (A1 (pred M y t).1) (A2 S) (zeros2 0 0) (A1 (filt M y t).1) (A2 F),
        S *m S^T = (pred M y t).2 & F *m F^T = (filt M y t).2].

Definition ckrow t : frow R :=
  FRow (A1 (pred M y t).1) (A2 (pred M y t).2) (zeros2 0 0) (A1 (filt M y t).1) (A2 (filt M y t).2).

Variables (Q2 P2 : 'M[R]_n) (R2 : 'M[R]_m).
Hypothesis EQ : Q2 *m Q2^T = Q.
Hypothesis ER : R2 *m R2^T = Rc.
Hypothesis EP : P2 *m P2^T = mP M.

Lemma ch_step_ok t z prev :
  (t < T)%N -> List.nth_error zs0 t = Some z ->
  (if t is t'.+1 then exists2 r, prev = Some r & is_crow t' r else prev = None) ->
  exists2 r, ch_step qr p (A2 Q2) (A2 R2) (A2 P2) n t prev z = Ok r & is_crow t r.
Proof.
case: Hp => Htm Hto Htc Hom Hoo Hoc Him Hic tT Hz Hprev.
rewrite /ch_step.
set X := (X in bind X _).
have [S -> ES] : exists2 S : 'M[R]_n, X = Ok (A1 (pred M y t).1, A2 S) & S *m S^T = (pred M y t).2.
  rewrite /X; case: t tT Hprev {Hz X} => [|t] tT; first by move=> ->; rewrite Him; exists P2 => //; np.
  case=> r -> [S0 [F0 [-> _ EF0]]].
  have tT' : (t < T.-1)%N by rewrite -ltnS prednK //; apply: leq_ltn_trans tT.
  rewrite (rep2_last_dims Htm tT') (rep1_last_dims Hto tT') !bO.
  have [S' -> ES'] := ch_predictE Hqr (mA M t) Q2 F0 (mb M t) (filt M y t).1.
  exists S'; first by rewrite bO assign1E bO assign2E.
  rewrite ES' EF0 EQ [pred _ _ _.+1]/= /predict [X in _ = X]/=; congr (_ + _).
  by rewrite HQ in Htc; rewrite (rep2_A2 Htc tT').
rewrite bO (rep2_last_dims Hom tT) (rep1_last_dims Hoo tT) !bO.
have Hs := stream_nth Hz; rewrite -/y in Hs.
case Ez: (missing z) Hs => Hs.
  rewrite ch_correct_miss bO assign1E bO assign2E bO.
  by eexists; [reflexivity|exists S, S; split=> //; rewrite /filt /correct Hs].
have pRR : pd (R2 *m R2^T) by rewrite ER.
have [F -> EF] := ch_correctE Hqr (mC M t) (md M t) (pred M y t).1 S z.1 pRR.
rewrite bO assign1E bO assign2E bO; eexists; first reflexivity.
have eR : mR M t = Rc by rewrite HR in Hoc; rewrite (rep2_A2 Hoc tT).
exists S, F; split=> //.
  by rewrite /filt /correct Hs /gain /innov_cov eR ES ER.
by rewrite EF ES /filt /correct Hs /gain /innov_cov eR ER.
Qed.

Lemma ch_loop_ok t zs prev :
  zs = drop t zs0 ->
  (if t is t'.+1 then exists2 r, prev = Some r & is_crow t' r else prev = None) ->
  exists2 rs, ch_loop qr p (A2 Q2) (A2 R2) (A2 P2) n t prev zs = Ok rs
    & List.Forall2 is_crow (iota t (size zs)) rs.
Proof.
elim: zs t prev => [|z zs IH] t prev Hzs Hprev; first by exists [::]; [|constructor].
have [Hz Hd] := nth_error_drop (esym Hzs).
have tT : (t < T)%N.
  rewrite -Hsz ltnNge; apply/negP => /drop_oversize; by rewrite -Hzs.
rewrite [ch_loop _ _ _ _ _ _ _ _ _]/=.
have [r -> Hr] := ch_step_ok tT Hz Hprev; rewrite bO.
have [|rs -> Hrs] := IH t.+1 (Some r) (esym Hd); first by exists r.
by exists (r :: rs) => //; constructor.
Qed.

Lemma rec_rows_ok ts rs : List.Forall2 is_crow ts rs ->
  mapr (fun r => pc <-- reconstruct (f_pc r) ;; fc <-- reconstruct (f_fc r) ;;
                 Ok (FRow (f_pm r) pc (f_kg r) (f_fm r) fc)) rs = Ok [seq ckrow t | t <- ts].
Proof.
elim=> [|t r ts' rs' [S [F [-> ES EF]]] _ IH] //=.
by rewrite /reconstruct; np; rewrite IH /= ES EF.
Qed.
End Refine.

Section Refine2.
Variables (R : rcfType) (qr : qr_fun R).
Hypothesis Hqr : qr_valid qr.
Variables (n m : nat) (M : lgm R n m) (p : kfparams R) (T : nat).
Hypothesis Hp : params_model p T M.
Variables (Q : 'M[R]_n) (Rc : 'M[R]_m).
Hypothesis HQ : p_tc p = A2 Q.
Hypothesis HR : p_oc p = A2 Rc.
Hypothesis pQ : pd Q.
Hypothesis pR : pd Rc.
Hypothesis pP : pd (mP M).
Variable (zs0 : seq (orow R m)).
Hypothesis Hsz : size zs0 = T.

Lemma ch_flt_ok : ch_flt qr p zs0 = Ok [seq ckrow M zs0 t | t <- iota 0 T].
Proof.
rewrite /ch_flt /ch_filter_ (pm_im Hp) len1E bO HQ HR (pm_ic Hp) !cholE.
have [Q2 EQ] := chol_pd pQ; have [R2 ER] := chol_pd pR; have [P2 EP] := chol_pd pP.
have [EQ' _ _] := chol_spec (pd_sym pQ) EQ; have [ER' _ _] := chol_spec (pd_sym pR) ER.
have [EP' _ _] := chol_spec (pd_sym pP) EP.
rewrite EQ ER EP !bO.
have [|//|rs -> Hrs] := @ch_loop_ok _ _ Hqr _ _ _ _ _ Hp _ _ HQ HR pR zs0 Hsz Q2 P2 R2 (esym EQ') (esym ER') (esym EP') 0 zs0 None.
  by rewrite drop0.
by rewrite bO (rec_rows_ok Hrs) Hsz.
Qed.
End Refine2.
