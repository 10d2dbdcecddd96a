(** The Bierman filter computes the textbook recursions. *)
From Coq Require Import String List.
From mathcomp Require Import all_ssreflect all_algebra.
From Verif Require Import Prelude Zmod LinAlg Numpy NumpyFacts Sklearn SklearnFacts Standard Model StandardInit StandardFacts.
From Verif Require Import Sqrt SqrtFacts ChFacts Bierman BiUdu BiSingle BiBatch.
Import GRing.Theory Num.Theory Order.Theory.

Set Implicit Arguments.
Unset Strict Implicit.
Unset Printing Implicit Defensive.
Local Open Scope ring_scope.

Section Steps.
Variable R : rcfType.

Lemma udu_psd n (P U : 'M[R]_n) D : is_udu P U D -> psd P.
Proof.
case=> _ D0 <-; apply: psd_congr; split; first by rewrite tr_diag_mx.
move=> v; rewrite /qf /bf /sc mxE sumr_ge0 // => l _; rewrite mxE (bigD1 l) //= big1 ?addr0.
  by rewrite !mxE eqxx mulr1n mulrAC mulr_ge0 // -expr2 sqr_ge0.
by move=> k ne; rewrite !mxE (negbTE ne) mulr0n mulr0.
Qed.

Lemma reconE n (P U : 'M[R]_n) D : is_udu P U D -> bi_reconstruct (A2 U, A1 D) = Ok (A2 P).
Proof. by case=> _ _ E; rewrite /bi_reconstruct bO dot22 bO tr2 bO dot22 E. Qed.

Lemma bi_predictE n (A Q P U : 'M[R]_n) (b mu D : 'cV[R]_n) : (0 < n)%N -> psd Q -> is_udu P U D ->
  exists U' D', bi_predict (A2 A) (A2 Q) (A1 b) (A1 mu) (A2 U, A1 D) = Ok (A1 (A *m mu + b), (A2 U', A1 D'))
    /\ is_udu (A *m (P *m A^T) + Q) U' D'.
Proof.
move=> n0 pQ HU; have pP := udu_psd HU.
have pN : psd (A *m P *m A^T + Q) by apply: psdD => //; exact: psd_congr.
have [U' [D' [E H _]]] := udu_ok n0 pN; exists U', D'; split; last by rewrite mulmxA.
by rewrite /bi_predict dot21 bO add11 bO (reconE HU) bO dot22 bO tr2 bO dot22 bO add22 bO E bO.
Qed.

Lemma vidxE n (v : 'cV[R]_n) (i : 'I_n) : vidx (A1 v) i = Ok (v i 0).
Proof. by rewrite /vidx ltn_ord vgetE. Qed.
Lemma ridxE m n (M : 'M[R]_(m, n)) (i : 'I_m) : ridx (A2 M) i = Ok (A1 (row i M)^T).
Proof.
rewrite /ridx ltn_ord; congr (Ok (A1 _)); apply/matrixP => a b.
by rewrite !mxE mgetE.
Qed.
Lemma didxE n (M : 'M[R]_n) (i : 'I_n) : didx (A2 M) i = Ok (M i i).
Proof. by rewrite /didx ltn_ord /= mgetE. Qed.
Lemma dot11 n (u v : 'cV[R]_n) : dot (A1 u) (A1 v) = Ok (A0 (bf u 1%:M v)).
Proof. by rewrite /dot mulr_dynE bO /bf mulmx1. Qed.
Lemma dot10 n (u : 'cV[R]_n) (x : R) : dot (A1 u) (A0 x) = Ok (A1 (x *: u)).
Proof. by []. Qed.

Lemma bi_correct1E n m (B : 'M[R]_(m, n)) (d z : 'cV[R]_m) (i : 'I_m) (y : 'cV[R]_n) (P U : 'M[R]_n) D :
  (0 < n)%N -> is_udu P U D ->
  exists U' D', bi_correct1 (A2 B) (A2 (1%:M : 'M[R]_m)) (A1 d) (A1 z) (A1 y, (A2 U, A1 D)) i =
      Ok (A1 (seq1 B z d (y, P) i).1, (A2 U', A1 D')) /\ is_udu (seq1 B z d (y, P) i).2 U' D'.
Proof.
move=> n0 HU; have [U' [D' [E H]]] := single_ok (row i B)^T n0 HU ltr01.
exists U', D'; split=> //.
rewrite /bi_correct1 !vidxE !bO ridxE bO didxE bO (_ : (1%:M : 'M[R]_m) i i = 1); last by rewrite mxE eqxx.
by rewrite [(_, _).2]/= [(_, _).1]/= E bO dot11 bO bO bO dot10 bO add11 bO.
Qed.

(** all components *)
Lemma bi_corrects n m (B : 'M[R]_(m, n)) (d z : 'cV[R]_m) (x : 'cV[R]_n) (P : 'M[R]_n) j i st U D :
  (0 < n)%N -> psd P -> (i + j = m)%N -> sinv P x B z d i st -> is_udu st.2 U D ->
  exists st' U' D', [/\ foldr_res (bi_correct1 (A2 B) (A2 (1%:M : 'M[R]_m)) (A1 d) (A1 z)) (A1 st.1, (A2 U, A1 D)) (iota i j) =
      Ok (A1 st'.1, (A2 U', A1 D')), sinv P x B z d m st' & is_udu st'.2 U' D'].
Proof.
move=> n0 pP; elim: j i st U D => [|j IH] i st U D Ei Hs HU.
  by rewrite addn0 in Ei; subst i; exists st, U, D.
have im : (i < m)%N by rewrite -Ei -addSnnS leq_addr.
case: st Hs HU => y X Hs HU.
have [U' [D' [E H]]] := bi_correct1E B d z (Ordinal im) y n0 HU.
have [|||st' [U2 [D2 [E2 H2 H3]]]] := IH i.+1 (seq1 B z d (y, X) (Ordinal im)) U' D'.
- by rewrite addSnnS.
  exact: (sinvS (i := Ordinal im) Hs).
- by [].
exists st', U2, D2; split=> //; rewrite [iota _ _]/=.
rewrite [foldr_res _ _ _]/=; move: E; rewrite [nat_of_ord _]/= => ->; rewrite bO.
exact: E2.
Qed.

Lemma bi_correct_miss C Rc d mu u n (z : 'cV[R]_n) : bi_correct C Rc d mu u (A1 z) true = Ok (mu, u).
Proof. by []. Qed.

Lemma bi_correctE n m (C : 'M[R]_(m, n)) (L : 'M[R]_m) (d z : 'cV[R]_m) (mu : 'cV[R]_n) (P U : 'M[R]_n) D :
  let K := P *m (C^T *m pinv (C *m (P *m C^T) + L *m L^T)) in
  (0 < n)%N -> L \in unitmx -> is_udu P U D ->
  exists U' D',
    bi_correct (A2 (invmx L *m C)) (A2 (1%:M : 'M[R]_m)) (A1 (invmx L *m d)) (A1 mu) (A2 U, A1 D)
      (A1 (invmx L *m z)) false = Ok (A1 (mu + K *m (z - (C *m mu + d))), (A2 U', A1 D'))
    /\ is_udu (P - K *m (C *m P)) U' D'.
Proof.
move=> K n0 uL HU; have pP := udu_psd HU.
set B := invmx L *m C; set d' := invmx L *m d; set z' := invmx L *m z.
have [|st' [U' [D' [E Hs Hu]]]] := @bi_corrects n m B d' z' mu P m 0 (mu, P) U D n0 pP (add0n m) _ HU.
  exact: sinv0.
have := seq_joint pP Hs; lazy zeta; rewrite (_ : z' - (B *m mu + d') = invmx L *m (z - (C *m mu + d))); last first.
  by rewrite /z' /B /d' mulmxBr mulmxDr mulmxA.
rewrite [P *m B^T *m _ *m (invmx L *m _)]mulmxA (deco_gain C pP uL) -/K => Est.
have EK : P *m B^T *m invmx (B *m P *m B^T + 1%:M) *m (B *m P) = K *m (C *m P).
  by rewrite /K -(deco_gain C pP uL) /B !mulmxA.
rewrite EK in Est; rewrite Est in E Hu.
by exists U', D'; split=> //; rewrite /bi_correct len1E bO.
Qed.
End Steps.

(** ** Decorrelated parameters *)
Section Deco.
Variable R : rcfType.

Lemma deco_factorE m (Rc : 'M[R]_m) : pd Rc ->
  exists L : 'M[R]_m, [/\ deco_factor (A2 Rc) = Ok (A2 (invmx L)), L \in unitmx & L *m L^T = Rc].
Proof.
move=> pR; have [L EL] := chol_pd pR; have [E tL dL] := chol_spec (pd_sym pR) EL.
have uL : L \in unitmx by exact: lower_tri_gt0_unit.
by exists L; split=> //; rewrite /deco_factor cholE EL bO NumpyFacts.pinv2 pinv_unit.
Qed.

Lemma mapr_map X Y (f : X -> res Y) (g : X -> Y) s : (forall x, f x = Ok (g x)) -> mapr f s = Ok (map g s).
Proof. by move=> H; elim: s => [|x s IH] //=; rewrite H bO IH. Qed.

Lemma deco_matE m n (Li : 'M[R]_m) C T (F : nat -> 'M[R]_(m, n)) : rep2 C T F ->
  exists2 C', deco_mat (A2 Li) C = Ok C' & rep2 C' T (fun t => Li *m F t).
Proof.
case=> [[X -> H]|[s [-> Hs H]]].
  exists (A2 (Li *m X)); first by rewrite /deco_mat dot22.
  by left; exists (Li *m X) => // t tT; rewrite H.
rewrite /deco_mat (@mapr_map _ _ _ (fun X => A2 (Li *m X))) => [|X]; last by rewrite dot22 bO assign2E.
rewrite bO; eexists; first reflexivity.
right; eexists; split; first reflexivity; first by rewrite !size_map.
move=> t tT; have ts := leq_trans tT Hs.
rewrite H // (nth_map (A2 (0 : 'M[R]_(m, n)))) ?size_map // (nth_map 0) //.
by apply/matrixP => a b; rewrite [RHS]mxE /aget mgetE.
Qed.

Lemma deco_vecE m (Li : 'M[R]_m) d T (F : nat -> 'cV[R]_m) : rep1 d T F ->
  exists2 d', deco_vec (A2 Li) d = Ok d' & rep1 d' T (fun t => Li *m F t).
Proof.
case=> [[v -> H]|[k [M [-> Hk H]]]].
  exists (A1 (Li *m v)); first by rewrite /deco_vec bO dot21 bO.
  by left; exists (Li *m v) => // t tT; rewrite H.
rewrite /deco_vec tr2 bO dot22 bO tr2; eexists; first reflexivity.
right; do 2 eexists; split; first reflexivity; first exact: Hk.
move=> t tT i; have tk := leq_trans tT Hk.
rewrite (mgetE _ (Ordinal tk) i) !mxE; apply: eq_bigr => j _.
by rewrite mxE (H t tT) (mgetE M (Ordinal tk) j).
Qed.

Definition deco_row m (Li : 'M[R]_m) (z : orow R m) : orow R m := (Li *m z.1, z.2).
Lemma deco_rowsE m (Li : 'M[R]_m) (zs : seq (orow R m)) : deco_rows (A2 Li) zs = Ok (map (deco_row Li) zs).
Proof. by rewrite /deco_rows; case: eqP => // e; rewrite castmx_id. Qed.
Lemma deco_rows_width m k (Li : 'M[R]_m) (zs : seq (orow R k)) : k <> m -> deco_rows (A2 Li) zs = Err ValueError.
Proof. by move=> N; rewrite /deco_rows; case: eqP => // e; case: N. Qed.
End Deco.

Section Refine.
Variables (R : rcfType) (n m : nat) (M : lgm R n m) (p : kfparams R) (T : nat).
Hypothesis n0 : (0 < n)%N.
Hypothesis Hp : params_model p T M.
Variables (Q : 'M[R]_n) (Rc L : 'M[R]_m).
Hypothesis HQ : p_tc p = A2 Q.
Hypothesis HR : p_oc p = A2 Rc.
Hypothesis pQ : psd Q.
Hypothesis uL : L \in unitmx.
Hypothesis EL : L *m L^T = Rc.
Variables (C d : arr R) (U0 : 'M[R]_n) (D0 : 'cV[R]_n).
Hypothesis HC : rep2 C T (fun t => invmx L *m mC M t).
Hypothesis Hd : rep1 d T (fun t => invmx L *m md M t).
Hypothesis HU0 : is_udu (mP M) U0 D0.
Variable (zs0 : seq (orow R m)).
Hypothesis Hsz : size zs0 = T.
Let y := stream zs0.

Definition is_brow (t : nat) (r : brow R) : Prop :=
  exists U U' D D',
    [/\ r = BRow (A1 (pred M y t).1) (A2 U, A1 D) (A1 (filt M y t).1) (A2 U', A1 D'),
        is_udu (pred M y t).2 U D & is_udu (filt M y t).2 U' D'].

Lemma bi_step_ok t z prev :
  (t < T)%N -> List.nth_error zs0 t = Some z ->
  (if t is t'.+1 then exists2 r, prev = Some r & is_brow t' r else prev = None) ->
  exists2 r, bi_step p C d (A2 U0, A1 D0) n t prev (deco_row (invmx L) z) = Ok r & is_brow t r.
Proof.
case: Hp => Htm Hto Htc Hom Hoo Hoc Him Hic tT Hz Hprev.
rewrite /bi_step.
set X := (X in bind X _).
have [U [D [-> HU]]] : exists U D, X = Ok (A1 (pred M y t).1, (A2 U, A1 D)) /\ is_udu (pred M y t).2 U D.
  rewrite /X; case: t tT Hprev {Hz X} => [|t] tT.
    by move=> ->; rewrite Him assign1E bO; exists U0, D0.
  case=> r -> [U [U' [D [D' [-> _ HU']]]]].
  have tT' : (t < T.-1)%N by rewrite -ltnS prednK //; apply: leq_ltn_trans tT.
  rewrite (rep2_last_dims Htm tT') (rep1_last_dims Hto tT') !bO HQ.
  have [U2 [D2 [E2 H2]]] := bi_predictE (mA M t) (mb M t) (filt M y t).1 n0 pQ HU'.
  exists U2, D2; split; first by rewrite E2 bO assign1E bO.
  rewrite HQ in Htc; have EQt := rep2_A2 Htc tT'.
  by rewrite [pred _ _ _.+1]/= /predict -/(filt M y t) EQt.
rewrite bO (rep2_last_dims HC tT) (rep1_last_dims Hd tT) !bO.
have Hs := stream_nth Hz; rewrite -/y in Hs.
have -> : missing (deco_row (invmx L) z) = missing z by [].
case Ez: (missing z) Hs => Hs.
  rewrite bi_correct_miss bO assign1E bO.
  by eexists; [reflexivity|exists U, U, D, D; split=> //; rewrite /filt /correct Hs].
have [U' [D' [E' H']]] := bi_correctE (mC M t) (md M t) z.1 (pred M y t).1 n0 uL HU.
rewrite E' bO assign1E bO; eexists; first reflexivity.
have eR : mR M t = Rc by rewrite HR in Hoc; rewrite (rep2_A2 Hoc tT).
exists U, U', D, D'; rewrite /filt /correct Hs /gain /innov_cov eR -EL; split=> //.
Qed.

Lemma bi_loop_ok t zs prev :
  zs = drop t zs0 ->
  (if t is t'.+1 then exists2 r, prev = Some r & is_brow t' r else prev = None) ->
  exists2 rs, bi_loop p C d (A2 U0, A1 D0) n t prev (map (deco_row (invmx L)) zs) = Ok rs
    & List.Forall2 is_brow (iota t (size zs)) rs.
Proof.
elim: zs t prev => [|z zs IH] t prev Hzs Hprev; first by exists [::]; [|constructor].
have [Hz Hdr] := nth_error_drop (esym Hzs).
have tT : (t < T)%N.
  rewrite -Hsz ltnNge; apply/negP => /drop_oversize; by rewrite -Hzs.
rewrite [map _ _]/= [bi_loop _ _ _ _ _ _ _ _]/=.
have [r -> Hr] := bi_step_ok tT Hz Hprev; rewrite bO.
have [|rs -> Hrs] := IH t.+1 (Some r) (esym Hdr); first by exists r.
by exists (r :: rs) => //; constructor.
Qed.

Lemma bi_rec_ok ts rs : List.Forall2 is_brow ts rs ->
  mapr (fun r => pc <-- bi_reconstruct (b_pu r) ;; fc <-- bi_reconstruct (b_fu r) ;;
                 Ok (FRow (b_pm r) pc (zeros2 0 0) (b_fm r) fc)) rs = Ok [seq ckrow M zs0 t | t <- ts].
Proof.
elim=> [|t r ts' rs' [U [U' [D [D' [-> HU HU']]]]] _ IH] //.
rewrite [mapr _ _]/= (reconE HU) bO (reconE HU') !bO IH bO.
by [].
Qed.
End Refine.

Section Refine2.
Variables (R : rcfType) (n m : nat) (M : lgm R n m) (p : kfparams R) (T : nat).
Hypothesis n0 : (0 < n)%N.
Hypothesis Hp : params_model p T M.
Variables (Q : 'M[R]_n) (Rc : 'M[R]_m).
Hypothesis HQ : p_tc p = A2 Q.
Hypothesis HR : p_oc p = A2 Rc.
Hypothesis pQ : psd Q.
Hypothesis pR : pd Rc.
Hypothesis pP : psd (mP M).
Variable (zs0 : seq (orow R m)).
Hypothesis Hsz : size zs0 = T.

Lemma bi_flt_ok : (0 < T)%N -> bi_flt p zs0 = Ok [seq ckrow M zs0 t | t <- iota 0 T].
Proof.
move=> T0; rewrite /bi_flt /bi_filter_ (pm_im Hp) len1E bO (pm_ic Hp) HR.
have [U0 [D0 [-> HU0 _]]] := udu_ok n0 pP; rewrite bO.
have [L [-> uL EL]] := deco_factorE pR; rewrite bO.
have [C -> HC] := deco_matE (invmx L) (pm_om Hp); rewrite bO.
have [d -> Hd] := deco_vecE (invmx L) (pm_oo Hp); rewrite bO deco_rowsE bO.
have [|//|rs -> Hrs] := @bi_loop_ok _ _ _ _ _ _ n0 Hp Q Rc L HQ HR pQ uL EL C d U0 D0 HC Hd HU0 zs0 Hsz 0 zs0 None.
  by rewrite drop0.
rewrite bO; case: rs Hrs => [H|r rs Hrs].
  by inversion H as [E|]; move: E; rewrite Hsz -(prednK T0).
by rewrite (bi_rec_ok Hrs) Hsz.
Qed.
End Refine2.
