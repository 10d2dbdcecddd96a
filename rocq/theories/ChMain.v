(** Statements about CholeskyKalmanFilter at the level of its methods. *)
From Coq Require Import String List.
From mathcomp Require Import all_ssreflect all_algebra.
From Verif Require Import Prelude Zmod LinAlg Numpy NumpyFacts Sklearn SklearnFacts Standard Model KfSpec StandardInit StandardFacts
  KfStruct KfStruct2 KfOnline KfEm.
From Verif Require Import Sqrt SqrtFacts SqrtSpec SqrtApi Cholesky ChFacts.
Import GRing.Theory Num.Theory.

Set Implicit Arguments.
Unset Strict Implicit.
Unset Printing Implicit Defensive.
Local Open Scope ring_scope.

Section Same.
Variables (R : rcfType) (qr : qr_fun R).
Hypothesis Hqr : qr_valid qr.

Lemma ch_same n m (o : kf R) T (M : lgm R n m) (zs : seq (orow R m)) :
  pd_kf o T M -> size zs = T -> same_flt (ch_flt qr) (@filter_ R) (init_value o) zs.
Proof.
case=> Ho [Q HQ pQ] [Rc HR pR] pP Hsz; rewrite /same_flt.
have Hp := kf_model_params Ho.
rewrite (ch_flt_ok Hqr Hp (cov_is_tc Ho HQ) (cov_is_oc Ho HR) pQ pR pP Hsz) (filter_ok Hp Hsz).
by rewrite /rmap; apply: f_equal; rewrite -!map_comp; apply: eq_map.
Qed.

Section One.
Variables (n m : nat) (o : kf R) (T : nat) (M : lgm R n m) (zs : seq (orow R m)).
Hypothesis Ho : pd_kf o T M.
Hypothesis Hsz : size zs = T.
Hypothesis Hk : keeps zs.
Let X := O2 m zs.
Let Hinit := initialize_parametersE (km_rs (pk_model Ho)).

Lemma ch_equal :
  [/\ ckf_filter qr o X = kf_filter o X, ckf_smooth qr o X = kf_smooth o X &
      forall ln ln2pi, ckf_loglikelihood qr ln ln2pi o X = kf_loglikelihood ln ln2pi o X].
Proof.
have HX : parse_observations X = existT _ m zs by exact: parse_keep.
split; first exact: (filter_with_same Hinit HX (ch_same Ho Hsz)).
  exact: (smooth_with_same Hinit HX (ch_same Ho Hsz)).
by move=> ln l2; exact: (loglik_with_same Hinit HX (ch_same Ho Hsz)).
Qed.

Lemma ch_em_equal e N :
  (forall i, (i < N)%N -> exists M' : lgm R n m, pd_kf (kf_em o X i (Some e)).1 T M') ->
  ckf_em qr o X N (Some e) = kf_em o X N (Some e).
Proof.
move=> H; apply: em_with_same; first exact: (km_rs (pk_model Ho)).
  exact: filter_flt_ok.
move=> i iN k zs'; rewrite /X parse_keep // => -[] E; case: _ / E zs' => zs' E.
have [M' HM'] := H i iN.
have <- : zs = zs' by apply: (Eqdep_dec.inj_pair2_eq_dec _ PeanoNat.Nat.eq_dec _ _ _ _ E).
exact: (ch_same HM' Hsz).
Qed.
End One.
End Same.

(** ** Covariances without a Cholesky factor *)
Section NotPd.
Variables (R : rcfType) (qr : qr_fun R).
Lemma ch_not_pd n m (o : kf R) T (M : lgm R n m) (Q : 'M[R]_n) (Rc : 'M[R]_m) k (zs : seq (orow R k)) :
  kf_model o T M -> cov_is (k_tc o) Q -> cov_is (k_oc o) Rc ->
  Q^T = Q -> Rc^T = Rc -> (mP M)^T = mP M -> ~ (pd Q /\ pd Rc /\ pd (mP M)) ->
  ckf_filter qr o (O2 k zs) = Err LinAlgError.
Proof.
move=> Ho HQ HR sQ sR sP N; rewrite /ckf_filter /filter_with.
case: (parse_observations _) => k' zs'; rewrite (initialize_parametersE (km_rs Ho)) bO.
rewrite /ch_flt /ch_filter_ (pm_im (kf_model_params Ho)) len1E bO.
rewrite (cov_is_tc Ho HQ) (cov_is_oc Ho HR) (pm_ic (kf_model_params Ho)) !cholE.
case E1: (chol Q) => [L1|] //; rewrite bO; case E2: (chol Rc) => [L2|] //; rewrite bO.
case E3: (chol (mP M)) => [L3|] //; case: N.
by split; [exact: chol_some_pd E1|split; [exact: chol_some_pd E2|exact: chol_some_pd E3]].
Qed.

(** time-varying noise covariances are not accepted *)
Lemma ch_varying_tc n m (o : kf R) T (M : lgm R n m) a b (s : seq 'M[R]_(a, b)) k (zs : seq (orow R k)) :
  kf_model o T M -> k_tc o = Some (A3 s) -> ckf_filter qr o (O2 k zs) = Err ValueError.
Proof.
move=> Ho HQ; rewrite /ckf_filter /filter_with.
case: (parse_observations _) => k' zs'; rewrite (initialize_parametersE (km_rs Ho)) bO.
rewrite /ch_flt /ch_filter_ (pm_im (kf_model_params Ho)) len1E bO.
by rewrite /init_value HQ /=.
Qed.
End NotPd.

(** ** Causality and masks, any object *)
Section Struct.
Variables (R : rcfType) (qr : qr_fun R).

Lemma mapr_take X Y (f : X -> res Y) s l j : mapr f s = Ok l -> mapr f (take j s) = Ok (take j l).
Proof.
elim: s l j => [|x s IH] l j /=; first by case=> <-; case: j.
case E: (f x) => [y|] //=; case E2: (mapr f s) => [ys|] //= [<-].
by case: j => [|j] //=; rewrite E /= (IH _ _ E2).
Qed.
Lemma ch_loop_take p Q2 R2 P2 n k t prev (zs : seq (orow R k)) rows j :
  ch_loop qr p Q2 R2 P2 n t prev zs = Ok rows ->
  ch_loop qr p Q2 R2 P2 n t prev (take j zs) = Ok (take j rows).
Proof.
elim: zs t prev rows j => [|z zs IH] t prev rows j /=.
  by case=> <-; case: j.
case E: (ch_step _ _ _ _ _ _ _ _ z) => [r|] //=.
case E2: (ch_loop _ _ _ _ _ _ t.+1 (Some r) zs) => [rs|] //= [<-].
by case: j => [|j] //=; rewrite E /= (IH _ _ _ _ E2).
Qed.
Lemma ch_flt_take p k (zs : seq (orow R k)) rows j :
  ch_flt qr p zs = Ok rows -> ch_flt qr p (take j zs) = Ok (take j rows).
Proof.
rewrite /ch_flt /ch_filter_; case: (np_len _) => // n; rewrite !bO.
case: (np_cholesky_lower _) => // Q2; case: (np_cholesky_lower _) => // R2.
case: (np_cholesky_lower _) => // P2; rewrite !bO.
case E: (ch_loop _ _ _ _ _ _ _ _ _) => [rs|] //; rewrite bO => H.
by rewrite (ch_loop_take j E) bO; exact: mapr_take.
Qed.

Lemma ch_step_sv p Q2 R2 P2 n k t prev (z z' : orow R k) : same_visible z z' ->
  ch_step qr p Q2 R2 P2 n t prev z = ch_step qr p Q2 R2 P2 n t prev z'.
Proof.
move=> H; rewrite /ch_step -(sv_missing H); case Hm: (missing z).
  by apply: bind_ext => -[pm pc].
by have -> : z.1 = z'.1; [case: H => _ /(_ Hm)|exact: erefl].
Qed.
Lemma ch_flt_sv : flt_sv (ch_flt qr).
Proof.
move=> p k zs zs' H; rewrite /ch_flt /ch_filter_.
have E Q2 R2 P2 n : ch_loop qr p Q2 R2 P2 n 0 None zs = ch_loop qr p Q2 R2 P2 n 0 None zs'.
  move: 0%N None; elim: H => [|z z' l l' Hz Hl IH] t prev //=.
  rewrite (ch_step_sv _ _ _ _ _ _ _ Hz); apply: bind_ext => r.
  by rewrite IH.
apply: (f_equal (fun x => bind x _)).
by do 4 (apply: bind_ext => ?); rewrite E.
Qed.

Lemma ckf_filter_take (o : kf R) k (zs : seq (orow R k)) rows j :
  keeps zs -> keeps (take j zs) ->
  ckf_filter qr o (O2 k zs) = Ok rows -> ckf_filter qr o (O2 k (take j zs)) = Ok (take j rows).
Proof.
move=> H1 H2; rewrite /ckf_filter /filter_with !parse_keep //.
case: (initialize_parameters o) => // p; rewrite !bO.
case E: (ch_flt qr p zs) => [rs|] //; rewrite bO => -[<-].
by rewrite (ch_flt_take j E) bO map_take.
Qed.
Lemma ckf_mask_hides (o : kf R) k (zs zs' : seq (orow R k)) : keeps zs -> same_visible_rows zs zs' ->
  [/\ ckf_filter qr o (O2 k zs) = ckf_filter qr o (O2 k zs'), ckf_smooth qr o (O2 k zs) = ckf_smooth qr o (O2 k zs'),
      forall ln ln2pi, ckf_loglikelihood qr ln ln2pi o (O2 k zs) = ckf_loglikelihood qr ln ln2pi o (O2 k zs') &
      forall i ev, ckf_em qr o (O2 k zs) i ev = ckf_em qr o (O2 k zs') i ev].
Proof.
move=> Hk H; have Hf := ch_flt_sv.
split=> *; [exact: filter_with_sv|exact: smooth_with_sv|exact: loglik_with_sv|exact: em_with_sv].
Qed.

(** ** em without em_vars *)
Lemma ckf_em_default (o : kf R) X N : seed_ok (k_rs o) -> k_em o = None ->
  ckf_em qr o X N None = (set_params o (init_value o), Err TypeError).
Proof.
by move=> Hs E; rewrite /ckf_em /em_with E; case: (parse_observations X) => k zs; rewrite (initialize_parametersE Hs).
Qed.
End Struct.

(** ** filter_update *)
Section Update.
Variables (R : rcfType) (qr : qr_fun R).
Definition ckf_update (o : kf R) (s : arr R * arr R) (u : uargs R) : res (arr R * arr R) :=
  ckf_filter_update qr o s.1 s.2 (u_z u) (u_tm u) (u_to u) (u_tc u) (u_om u) (u_oo u) (u_oc u).

Variables (n m : nat) (o : kf R) (T : nat) (M : lgm R n m).
Hypothesis Ho : kf_model o T M.
Hypothesis m0 : (0 < m)%N.

(** the arguments every update starts from *)
Lemma args_resolved t (r : orow R m) u : (t.+1 < T)%N -> step_args o M t r u ->
  [/\ initialize_parameters o = Ok (init_value o),
      [/\ arg_or_default (u_to u) (p_to (init_value o)) 1 = Ok (A1 (mb M t)),
          arg_or_default (u_oo u) (p_oo (init_value o)) 1 = Ok (A1 (md M t.+1)) &
          arg_or_default (u_tm u) (p_tm (init_value o)) 2 = Ok (A2 (mA M t))],
      [/\ arg_or_default (u_om u) (p_om (init_value o)) 2 = Ok (A2 (mC M t.+1)),
          arg_or_default (u_tc u) (p_tc (init_value o)) 2 = Ok (A2 (mQ M t)) &
          arg_or_default (u_oc u) (p_oc (init_value o)) 2 = Ok (A2 (mR M t.+1))] &
      exists2 za, (match u_z u with
        | None => no <-- shape0 (A2 (mR M t.+1)) ;; Ok (zeros1 no, (0 < no)%N)
        | Some zm => Ok zm end) = Ok (za, missing r) & (missing r = false -> za = A1 r.1)].
Proof.
move=> tT [Hz Htm Hto Htc Hom Hoo Hoc].
have tT' : (t < T.-1)%N by rewrite -ltnS prednK //; apply: leq_ltn_trans tT.
have [Ptm Pto Ptc Pom Poo Poc Pim Pic] := kf_model_params Ho.
split; first exact: (initialize_parametersE (km_rs Ho)).
- split.
  + exact: (rep1_arg (a := k_to o) (d := 0) Pto tT' erefl Hto).
  + exact: (rep1_arg (a := k_oo o) (d := 0) Poo tT erefl Hoo).
  + exact: (rep2_arg (a := k_tm o) Ptm tT' erefl Htm).
- split.
  + exact: (rep2_arg (a := k_om o) Pom tT erefl Hom).
  + exact: (rep2_arg (a := k_tc o) Ptc tT' erefl Htc).
  + exact: (rep2_arg (a := k_oc o) Poc tT erefl Hoc).
case: Hz => [->|[-> [->|[a ->]]]]; first by eexists.
  by rewrite /= m0; eexists.
by eexists.
Qed.

Lemma ch_update_ok t (r : orow R m) u (mu : 'cV[R]_n) (P : 'M[R]_n) : qr_valid qr ->
  (t.+1 < T)%N -> step_args o M t r u -> pd (mQ M t) -> pd (mR M t.+1) -> pd P ->
  exists (mu' : 'cV[R]_n) (P' : 'M[R]_n), update o (A1 mu, A2 P) u = Ok (A1 mu', A2 P')
    /\ ckf_update o (A1 mu, A2 P) u = Ok (A1 mu', A3 [:: P']).
Proof.
move=> Hqr tT Hu pQ pR pP.
have [E0 [E1 E2 E3] [E4 E5 E6] [za E7 Hza]] := args_resolved tT Hu.
have [Q2 EQ] := chol_pd pQ; have [R2 ER] := chol_pd pR; have [P2 EP] := chol_pd pP.
have [EQ' _ _] := chol_spec (pd_sym pQ) EQ; have [ER' _ _] := chol_spec (pd_sym pR) ER.
have [EP' _ _] := chol_spec (pd_sym pP) EP.
rewrite /update /ckf_update /kf_filter_update /ckf_filter_update.
rewrite E0 !bO E1 !bO E2 !bO E3 !bO E4 !bO E5 !bO E6 !bO E7 !bO.
rewrite [(A1 mu, A2 P).1]/= [(A1 mu, A2 P).2]/= !cholE EQ ER EP !bO.
have [S -> ES] := ch_predictE Hqr (mA M t) Q2 P2 (mb M t) mu; rewrite bO.
have -> : filter_predict (A2 (mA M t)) (A2 (mQ M t)) (A1 (mb M t)) (A1 mu) (A2 P) =
    Ok (A1 (mA M t *m mu + mb M t), A2 (S *m S^T)).
  by rewrite /filter_predict; np; rewrite ES -EQ' -EP'.
rewrite bO; case: (missing r) Hza => [_|/(_ erefl) ->].
  rewrite ch_correct_miss bO /reconstruct_one /reconstruct tr2 bO dot22 bO.
  rewrite /filter_correct [~~ true]/=; do 2 eexists; split; reflexivity.
have pRR : pd (R2 *m R2^T) by rewrite -ER'.
have [F -> EF] := ch_correctE Hqr (mC M t.+1) (md M t.+1) (mA M t *m mu + mb M t) S r.1 pRR.
rewrite bO /reconstruct_one /reconstruct tr2 bO dot22 bO EF -ER'.
by rewrite /filter_correct [~~ false]/=; do 2 eexists; split; [np; reflexivity|reflexivity].
Qed.

(** the returned array is not accepted by the next call *)
Lemma ch_update_chain t (r : orow R m) u mu a b (s : seq 'M[R]_(a, b)) :
  (t.+1 < T)%N -> step_args o M t r u -> pd (mQ M t) -> pd (mR M t.+1) ->
  ckf_update o (mu, A3 s) u = Err ValueError.
Proof.
move=> tT Hu pQ pR.
have [E0 [E1 E2 E3] [E4 E5 E6] [za E7 Hza]] := args_resolved tT Hu.
have [Q2 EQ] := chol_pd pQ; have [R2 ER] := chol_pd pR.
rewrite /ckf_update /ckf_filter_update.
by rewrite E0 !bO E1 !bO E2 !bO E3 !bO E4 !bO E5 !bO E6 !bO E7 !bO !cholE EQ ER !bO.
Qed.
End Update.

(** ** wrong number of columns *)
Section Width.
Variables (R : rcfType) (qr : qr_fun R) (n m : nat) (o : kf R) (T : nat) (M : lgm R n m).
Hypothesis Ho : pd_kf o T M.
Variables (k : nat).
Hypothesis km : k <> m.
Hypothesis m1 : m != 1%N.

Lemma assign_sq (X : 'M[R]_m) : assign2 k k (A2 X) = Err ValueError.
Proof.
rewrite /assign2 /assign2_mx; case: eqP => [e|_]; first by case: km.
by rewrite (negbTE m1).
Qed.

Lemma ch_step_width Q2 (R2 : 'M[R]_m) (P2 : 'M[R]_n) prev t (z : orow R k) : (t < T)%N -> @ok_prev R n prev t ->
  if missing z
  then exists2 r, ch_step qr (init_value o) (A2 Q2) (A2 R2) (A2 P2) n t prev z = Ok r & @ok_prev R n (Some r) t.+1
  else ch_step qr (init_value o) (A2 (Q2 : 'M[R]_n)) (A2 R2) (A2 P2) n t prev z = Err ValueError.
Proof.
move=> tT Hprev.
have [Ptm Pto Ptc Pom Poo Poc Pim Pic] := kf_model_params (pk_model Ho).
rewrite /ch_step; set X := (X in bind X _).
have [pm [pc ->]] : exists (pm : 'cV[R]_n) (pc : 'M[R]_n), X = Ok (A1 pm, A2 pc).
  rewrite /X; case: prev Hprev {X} => [r [t0 [mu [P [-> ->]]]]|_]; last by rewrite Pim; np; do 2 eexists.
  have tT' : (t.-1 < T.-1)%N by case: t t0 tT => //= t _ tT; by case: (T) tT.
  rewrite (rep2_last_dims Ptm tT') (rep1_last_dims Pto tT') !bO /ch_predict.
  rewrite len1E bO dot21 bO add11 bO dot22 bO hstackE bO tr2 bO qr_rE bO np_sliceE slice_u bO tr2 bO bO.
  by np; do 2 eexists.
rewrite bO (rep2_last_dims Pom tT) (rep1_last_dims Poo tT) !bO.
case: (missing z).
  rewrite ch_correct_miss bO; np; eexists; first reflexivity.
  by split=> //; do 2 eexists.
by rewrite /ch_correct [~~ _]/= len1E bO len1E bO tr2 bO assign_sq.
Qed.

Lemma ch_loop_width Q2 R2 P2 prev t (zs : seq (orow R k)) : (t + size zs <= T)%N -> @ok_prev R n prev t ->
  has (fun z => ~~ missing z) zs ->
  ch_loop qr (init_value o) (A2 (Q2 : 'M[R]_n)) (A2 (R2 : 'M[R]_m)) (A2 (P2 : 'M[R]_n)) n t prev zs = Err ValueError.
Proof.
elim: zs t prev => [|z zs IH] t prev //= Hs Hp Hh.
have tT : (t < T)%N by apply: leq_trans Hs; rewrite addnS ltnS leq_addr.
have := ch_step_width Q2 R2 P2 z tT Hp; case: ifP => [Hm [r -> Hr]|_ -> //].
rewrite bO IH ?addSnnS //.
by move: Hh; rewrite Hm.
Qed.

Lemma ch_width (zs : seq (orow R k)) : size zs = T -> keeps zs ->
  has (fun z => ~~ missing z) zs -> ckf_filter qr o (O2 k zs) = Err ValueError.
Proof.
case: (Ho) => Hm [Q HQ pQ] [Rc HR pR] pP Hs Hk Hh.
rewrite /ckf_filter /filter_with (parse_keep Hk) (initialize_parametersE (km_rs Hm)) bO.
rewrite /ch_flt /ch_filter_ (pm_im (kf_model_params Hm)) len1E bO.
rewrite (cov_is_tc Hm HQ) (cov_is_oc Hm HR) (pm_ic (kf_model_params Hm)) !cholE.
have [Q2 ->] := chol_pd pQ; have [R2 ->] := chol_pd pR; have [P2 ->] := chol_pd pP.
by rewrite !bO ch_loop_width ?add0n ?Hs.
Qed.
End Width.

(** ** one observed dimension: any number of columns is accepted *)
Section Wide.
Variables (R : rcfType) (qr : qr_fun R) (n : nat).

Lemma assign2_any m k p q (X : 'M[R]_(p, q)) : (p == m) || (p == 1%N) -> (q == k) || (q == 1%N) ->
  exists Y : 'M[R]_(m, k), assign2 m k (A2 X) = Ok (A2 Y).
Proof.
move=> H1 H2; rewrite /assign2 /assign2_mx; case: ifP => [/andP[/eqP e1 /eqP e2]|_]; last by rewrite H1 H2; eexists.
by case: _ / e1; case: _ / e2; exists X.
Qed.
Lemma sub_any k (z : 'cV[R]_k) (d : 'cV[R]_1) : exists e : 'cV[R]_k, sub (A1 z) (A1 d) = Ok (A1 e).
Proof.
rewrite /sub /bop /bdim; case: eqP => [_|k1]; first by eexists.
by case: eqP => // _; eexists.
Qed.

Lemma ch_correct_wide k (C : 'M[R]_(1, n)) R2 d (mu : 'cV[R]_n) (S : 'M[R]_n) (z : 'cV[R]_k) :
  exists (m : 'cV[R]_n) (s : 'M[R]_n),
    ch_correct qr (A2 C) (A2 (R2 : 'M_1)) (A1 (d : 'cV_1)) (A1 mu) (A2 S) (A1 z) false = Ok (A1 m, A2 s).
Proof.
rewrite /ch_correct [~~ _]/= len1E bO len1E bO tr2 bO.
have [|//|a ->] := @assign2_any k k 1 1 R2^T; first by rewrite orbT.
  by rewrite orbT.
rewrite bO dot22 bO tr2 bO.
have [||b ->] := @assign2_any n k n 1 (C *m S)^T; first by rewrite eqxx.
  by rewrite orbT.
rewrite bO tr2 bO assign2E bO ch_blockE qr_rE bO np_sliceE slice_ur bO tr2 bO np_sliceE slice_ul bO.
rewrite tr2 bO dot21 bO add11 bO NumpyFacts.pinv2 bO.
have [e ->] := sub_any z (C *m mu + d); rewrite bO dot21 bO dot21 bO add11 bO np_sliceE slice_dr bO tr2 bO.
by do 2 eexists.
Qed.

Variables (o : kf R) (T : nat) (M : lgm R n 1).
Hypothesis Ho : pd_kf o T M.
Variable k : nat.

Lemma ch_step_wide Q2 (R2 : 'M[R]_1) (P2 : 'M[R]_n) prev t (z : orow R k) : (t < T)%N -> @ok_prev R n prev t ->
  exists2 r, ch_step qr (init_value o) (A2 (Q2 : 'M[R]_n)) (A2 R2) (A2 P2) n t prev z = Ok r &
    @ok_prev R n (Some r) t.+1 /\ exists P : 'M[R]_n, f_pc r = A2 P.
Proof.
move=> tT Hprev.
have [Ptm Pto Ptc Pom Poo Poc Pim Pic] := kf_model_params (pk_model Ho).
rewrite /ch_step; set X := (X in bind X _).
have [pm [pc ->]] : exists (pm : 'cV[R]_n) (pc : 'M[R]_n), X = Ok (A1 pm, A2 pc).
  rewrite /X; case: prev Hprev {X} => [r [t0 [mu [P [-> ->]]]]|_]; last by rewrite Pim; np; do 2 eexists.
  have tT' : (t.-1 < T.-1)%N by case: t t0 tT => //= t _ tT; by case: (T) tT.
  rewrite (rep2_last_dims Ptm tT') (rep1_last_dims Pto tT') !bO /ch_predict.
  rewrite len1E bO dot21 bO add11 bO dot22 bO hstackE bO tr2 bO qr_rE bO np_sliceE slice_u bO tr2 bO bO.
  by np; do 2 eexists.
rewrite bO (rep2_last_dims Pom tT) (rep1_last_dims Poo tT) !bO.
case: (missing z).
  rewrite ch_correct_miss bO; np; eexists; first reflexivity.
  by split; [split=> //; do 2 eexists|eexists].
have [m [s ->]] := ch_correct_wide (mC M t) R2 (md M t) pm pc z.1; rewrite bO; np; eexists; first reflexivity.
by split; [split=> //; do 2 eexists|eexists].
Qed.

Lemma ch_loop_wide Q2 R2 P2 prev t (zs : seq (orow R k)) : (t + size zs <= T)%N -> @ok_prev R n prev t ->
  exists rs, [/\ ch_loop qr (init_value o) (A2 (Q2 : 'M[R]_n)) (A2 (R2 : 'M[R]_1)) (A2 (P2 : 'M[R]_n)) n t prev zs = Ok rs,
    size rs = size zs &
    exists rs', mapr (fun r => pc <-- reconstruct (f_pc r) ;; fc <-- reconstruct (f_fc r) ;;
                 Ok (FRow (f_pm r) pc (f_kg r) (f_fm r) fc)) rs = Ok rs' /\ size rs' = size rs].
Proof.
elim: zs t prev => [|z zs IH] t prev //= Hs Hp; first by exists [::]; split=> //; exists [::].
have tT : (t < T)%N by apply: leq_trans Hs; rewrite addnS ltnS leq_addr.
have [r -> [Hr [P EP]]] := ch_step_wide Q2 R2 P2 z tT Hp; rewrite bO.
have [|rs [-> Es [rs' [E1 E2]]]] := IH _ _ _ Hr; first by rewrite addSnnS.
rewrite bO; exists (r :: rs); split=> //=; first by rewrite Es.
case: Hr => _ [mu [F [_ EF]]]; rewrite EP EF /reconstruct !tr2 !bO !dot22 !bO E1 bO.
by eexists; split; [reflexivity|rewrite /= E2].
Qed.

Lemma ch_wide_accepted (zs : seq (orow R k)) : size zs = T -> keeps zs ->
  exists rows, ckf_filter qr o (O2 k zs) = Ok rows /\ size rows = T.
Proof.
case: (Ho) => Hm [Q HQ pQ] [Rc HR pR] pP Hs Hk.
rewrite /ckf_filter /filter_with (parse_keep Hk) (initialize_parametersE (km_rs Hm)) bO.
rewrite /ch_flt /ch_filter_ (pm_im (kf_model_params Hm)) len1E bO.
rewrite (cov_is_tc Hm HQ) (cov_is_oc Hm HR) (pm_ic (kf_model_params Hm)) !cholE.
have [Q2 ->] := chol_pd pQ; have [R2 ->] := chol_pd pR; have [P2 ->] := chol_pd pP.
rewrite !bO.
have [||rs [-> Es [rs' [E1 E2]]]] := @ch_loop_wide Q2 R2 P2 None 0 zs; rewrite ?add0n ?Hs //.
rewrite bO E1 bO; eexists; split; first reflexivity.
by rewrite size_map E2 Es.
Qed.
End Wide.
