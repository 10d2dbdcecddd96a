(** Statements about BiermanKalmanFilter at the level of its methods. *)
From Coq Require Import String List.
From mathcomp Require Import all_ssreflect all_algebra.
From Verif Require Import Prelude Zmod LinAlg Numpy NumpyFacts Sklearn SklearnFacts Standard Model KfSpec StandardInit StandardFacts
  KfStruct KfStruct2 KfOnline KfEm KfGlue EmGlue.
From Verif Require Import Sqrt SqrtFacts SqrtSpec SqrtApi SqrtEm ChFacts ChMain Bierman BiUdu BiSingle BiBatch BiFacts.
Import GRing.Theory Num.Theory.

Set Implicit Arguments.
Unset Strict Implicit.
Unset Printing Implicit Defensive.
Local Open Scope ring_scope.

Section Same.
Variables (R : rcfType).

Lemma bi_same n m (o : kf R) T (M : lgm R n m) (zs : seq (orow R m)) : (0 < n)%N -> (0 < T)%N ->
  psd_kf o T M -> size zs = T -> same_flt (@bi_flt R) (@filter_ R) (init_value o) zs.
Proof.
move=> n0 T0 [Ho [Q HQ pQ] [Rc HR pR] pP] Hsz; rewrite /same_flt.
have Hp := kf_model_params Ho.
rewrite (bi_flt_ok n0 Hp (cov_is_tc Ho HQ) (cov_is_oc Ho HR) pQ pR pP Hsz T0) (filter_ok Hp Hsz).
by rewrite /rmap; apply: f_equal; rewrite -!map_comp; apply: eq_map.
Qed.

Section One.
Variables (n m : nat) (o : kf R) (T : nat) (M : lgm R n m) (zs : seq (orow R m)).
Hypothesis n0 : (0 < n)%N.
Hypothesis T0 : (0 < T)%N.
Hypothesis Ho : psd_kf o T M.
Hypothesis Hsz : size zs = T.
Hypothesis Hk : keeps zs.
Let X := O2 m zs.
Let Hinit := initialize_parametersE (km_rs (sk_model Ho)).

Lemma bi_equal :
  [/\ bkf_filter o X = kf_filter o X, bkf_smooth o X = kf_smooth o X &
      forall ln ln2pi, bkf_loglikelihood ln ln2pi o X = kf_loglikelihood ln ln2pi o X].
Proof.
have HX : parse_observations X = existT _ m zs by exact: parse_keep.
split; first exact: (filter_with_same Hinit HX (bi_same n0 T0 Ho Hsz)).
  exact: (smooth_with_same Hinit HX (bi_same n0 T0 Ho Hsz)).
by move=> ln l2; exact: (loglik_with_same Hinit HX (bi_same n0 T0 Ho Hsz)).
Qed.

Lemma bi_em_equal e N :
  (forall i, (i < N)%N -> exists M' : lgm R n m, psd_kf (kf_em o X i (Some e)).1 T M') ->
  bkf_em o X N (Some e) = kf_em o X N (Some e).
Proof.
move=> H; apply: em_with_same; first exact: (km_rs (sk_model Ho)).
  exact: filter_flt_ok.
move=> i iN k zs'; rewrite /X parse_keep // => -[] E; case: _ / E zs' => zs' E.
have [M' HM'] := H i iN.
have <- : zs = zs' by apply: (Eqdep_dec.inj_pair2_eq_dec _ PeanoNat.Nat.eq_dec _ _ _ _ E).
exact: (bi_same n0 T0 HM' Hsz).
Qed.
End One.

Lemma bi_em_fixed n m (o : kf R) T (M : lgm R n m) (zs : seq (orow R m)) e N :
  (0 < n)%N -> psd_kf o T M -> (1 < T)%N -> size zs = T -> keeps zs -> ~ selects e Oc ->
  bkf_em o (O2 m zs) N (Some e) = kf_em o (O2 m zs) N (Some e) /\ (kf_em o (O2 m zs) N (Some e)).2 = Ok tt.
Proof.
move=> n0 Ho T1 Hsz Hk N2; split.
  by apply: (bi_em_equal n0 (ltnW T1) Ho Hsz Hk) => i _; exact: (em_psd_kf i Ho T1 Hsz Hk N2).
have [o' [M' [-> _ _]]] := kf_em_psd (sk_model Ho) (psd_kf_model Ho) (ltnW T1) Hsz Hk N (Some e).
exact: erefl.
Qed.

(** ** outside the domain *)
Lemma bi_empty n m (o : kf R) T (M : lgm R n m) : (0 < n)%N -> psd_kf o T M ->
  bkf_filter o (O2 m [::]) = Err IndexError.
Proof.
move=> n0 [Ho [Q HQ pQ] [Rc HR pR] pP].
rewrite /bkf_filter /filter_with.
have -> : parse_observations (O2 m [::]) = existT (fun k => seq (orow R k)) m [::] by exact: parse_keep.
rewrite (initialize_parametersE (km_rs Ho)) bO; have Hp := kf_model_params Ho.
rewrite /bi_flt /bi_filter_ (pm_im Hp) len1E bO (pm_ic Hp) (cov_is_oc Ho HR).
have [U0 [D0 [-> HU0 _]]] := udu_ok n0 pP; rewrite bO.
have [L [-> uL EL]] := deco_factorE pR; rewrite bO.
have [C -> HC] := deco_matE (invmx L) (pm_om Hp); rewrite bO.
have [d -> Hd] := deco_vecE (invmx L) (pm_oo Hp).
by rewrite bO deco_rowsE bO.
Qed.

Lemma bi_oc_not_pd n m (o : kf R) T (M : lgm R n m) (Rc : 'M[R]_m) k (zs : seq (orow R k)) : (0 < n)%N ->
  kf_model o T M -> psd (mP M) -> cov_is (k_oc o) Rc -> Rc^T = Rc -> ~ pd Rc ->
  bkf_filter o (O2 k zs) = Err LinAlgError.
Proof.
move=> n0 Ho pP HR sR N; rewrite /bkf_filter /filter_with.
case: (parse_observations _) => k' zs'; rewrite (initialize_parametersE (km_rs Ho)) bO.
have Hp := kf_model_params Ho; rewrite /bi_flt /bi_filter_ (pm_im Hp) len1E bO (pm_ic Hp) (cov_is_oc Ho HR).
have [U0 [D0 [-> HU0 _]]] := udu_ok n0 pP; rewrite bO /deco_factor cholE.
by case E: (chol Rc) => [L|] //; case: N; exact: chol_some_pd E.
Qed.

(** ** wrong number of columns: always rejected *)
Lemma bi_width n m (o : kf R) T (M : lgm R n m) k (zs : seq (orow R k)) : (0 < n)%N -> psd_kf o T M ->
  k <> m -> keeps zs -> bkf_filter o (O2 k zs) = Err ValueError.
Proof.
move=> n0 [Ho [Q HQ pQ] [Rc HR pR] pP] km Hk.
rewrite /bkf_filter /filter_with (parse_keep Hk) (initialize_parametersE (km_rs Ho)) bO.
have Hp := kf_model_params Ho.
rewrite /bi_flt /bi_filter_ (pm_im Hp) len1E bO (pm_ic Hp) (cov_is_oc Ho HR).
have [U0 [D0 [-> HU0 _]]] := udu_ok n0 pP; rewrite bO.
have [L [-> uL EL]] := deco_factorE pR; rewrite bO.
have [C -> HC] := deco_matE (invmx L) (pm_om Hp); rewrite bO.
have [d -> Hd] := deco_vecE (invmx L) (pm_oo Hp).
by rewrite bO deco_rows_width.
Qed.
End Same.

(** ** Causality and masks, any object *)
Section Struct.
Variables (R : rcfType).

Lemma bi_loop_take p C d u0 n k t prev (zs : seq (orow R k)) rows j :
  bi_loop p C d u0 n t prev zs = Ok rows ->
  bi_loop p C d u0 n t prev (take j zs) = Ok (take j rows).
Proof.
elim: zs t prev rows j => [|z zs IH] t prev rows j /=.
  by case=> <-; case: j.
case E: (bi_step _ _ _ _ _ _ _ z) => [r|] //=.
case E2: (bi_loop _ _ _ _ _ t.+1 (Some r) zs) => [rs|] //= [<-].
by case: j => [|j] //=; rewrite E /= (IH _ _ _ _ E2).
Qed.
Lemma deco_rows_take (Ri : arr R) k (zs zs' : seq (orow R k)) j :
  deco_rows Ri zs = Ok zs' -> deco_rows Ri (take j zs) = Ok (take j zs').
Proof.
rewrite /deco_rows; case: Ri => // a b X; case: eqP => // e; case: eqP => // e' [<-].
by rewrite map_take.
Qed.
Lemma bi_flt_take p k (zs : seq (orow R k)) rows j : (0 < j)%N ->
  bi_flt p zs = Ok rows -> bi_flt p (take j zs) = Ok (take j rows).
Proof.
move=> j0; rewrite /bi_flt /bi_filter_; case: (np_len _) => // n; rewrite !bO.
case: (udu _) => // u0; rewrite !bO; case: (deco_factor _) => // Ri; rewrite !bO.
case: (deco_mat _ _) => // C; case: (deco_vec _ _) => // d; rewrite !bO.
case E1: (deco_rows Ri zs) => [zs'|] //; rewrite (deco_rows_take j E1) !bO.
case E: (bi_loop _ _ _ _ _ _ _ _) => [rs|] //; rewrite (bi_loop_take j E) !bO.
case: rs E => // r rs _ H; rewrite -(mapr_take j H); case: j j0 => // j _; exact: erefl.
Qed.

Lemma bi_step_sv p C d u0 n k t prev (z z' : orow R k) : same_visible z z' ->
  bi_step p C d u0 n t prev z = bi_step p C d u0 n t prev z'.
Proof.
move=> H; rewrite /bi_step -(sv_missing H); case Hm: (missing z).
  by apply: bind_ext => -[pm pc].
by have -> : z.1 = z'.1; [case: H => _ /(_ Hm)|exact: erefl].
Qed.
Lemma deco_rows_sv (Ri : arr R) k (zs zs' : seq (orow R k)) : same_visible_rows zs zs' ->
  match deco_rows Ri zs, deco_rows Ri zs' with
  | Ok l, Ok l' => same_visible_rows l l' | Err e, Err e' => e = e' | _, _ => False end.
Proof.
move=> H; rewrite /deco_rows; case: Ri => // a b X; case: eqP => // e; case: eqP => // e'.
elim: H => [|z z' l l' Hz Hl IH]; constructor=> //.
case: Hz => E1 E2; split=> //= Hm; rewrite E2 //.
Qed.
Lemma bi_flt_sv : flt_sv (@bi_flt R).
Proof.
move=> p k zs zs' H; rewrite /bi_flt /bi_filter_; apply: (f_equal (fun x => bind x _)).
apply: bind_ext => n; apply: bind_ext => u0; apply: bind_ext => Ri; apply: bind_ext => C; apply: bind_ext => d.
have := deco_rows_sv Ri H; case: (deco_rows Ri zs) => [l|e]; case: (deco_rows Ri zs') => [l'|e'] //; last by move=> ->.
rewrite !bO; move: 0%N None => t prev {}H; elim: H t prev => [|z z' s s' Hz Hl IH] t prev //=.
rewrite (bi_step_sv _ _ _ _ _ _ _ Hz); apply: bind_ext => r.
by rewrite IH.
Qed.

Lemma bkf_filter_take (o : kf R) k (zs : seq (orow R k)) rows j : (0 < j)%N ->
  keeps zs -> keeps (take j zs) ->
  bkf_filter o (O2 k zs) = Ok rows -> bkf_filter o (O2 k (take j zs)) = Ok (take j rows).
Proof.
move=> j0 H1 H2; rewrite /bkf_filter /filter_with !parse_keep //.
case: (initialize_parameters o) => // p; rewrite !bO.
case E: (bi_flt p zs) => [rs|] //; rewrite bO => -[<-].
by rewrite (bi_flt_take j0 E) bO map_take.
Qed.
Lemma bkf_filter_agree (o : kf R) k (zs zs' : seq (orow R k)) rows rows' j :
  keeps zs -> keeps zs' -> take j zs = take j zs' ->
  bkf_filter o (O2 k zs) = Ok rows -> bkf_filter o (O2 k zs') = Ok rows' -> take j rows = take j rows'.
Proof.
case: j => [|j]; first by rewrite !take0.
move=> Hk Hk' E; rewrite /bkf_filter /filter_with (parse_keep Hk) (parse_keep Hk').
case: (initialize_parameters o) => // p; rewrite !bO.
case E1: (bi_flt p zs) => [r1|] //; case E2: (bi_flt p zs') => [r2|] //.
rewrite !bO => -[<-] [<-]; rewrite -!map_take.
have j0 : (0 < j.+1)%N by [].
by have := bi_flt_take j0 E1; have := bi_flt_take j0 E2; rewrite E => -> [<-].
Qed.
Lemma bkf_mask_hides (o : kf R) k (zs zs' : seq (orow R k)) : keeps zs -> same_visible_rows zs zs' ->
  [/\ bkf_filter o (O2 k zs) = bkf_filter o (O2 k zs'), bkf_smooth o (O2 k zs) = bkf_smooth o (O2 k zs'),
      forall ln ln2pi, bkf_loglikelihood ln ln2pi o (O2 k zs) = bkf_loglikelihood ln ln2pi o (O2 k zs') &
      forall i ev, bkf_em o (O2 k zs) i ev = bkf_em o (O2 k zs') i ev].
Proof.
move=> Hk H; have Hf := bi_flt_sv.
split=> *; [exact: filter_with_sv|exact: smooth_with_sv|exact: loglik_with_sv|exact: em_with_sv].
Qed.

Lemma bkf_em_default (o : kf R) X N : seed_ok (k_rs o) -> k_em o = None ->
  (bkf_em o X N None).2 = Err TypeError /\
  forall x, attribute (bkf_em o X N None).1 x = Some (initial_value o x).
Proof.
move=> Hs He.
have -> : bkf_em o X N None = (set_params o (init_value o), Err TypeError).
  by rewrite /bkf_em /em_with He; case: (parse_observations X) => k zs; rewrite (initialize_parametersE Hs).
split=> // x; rewrite [(_, _).1]/= attribute_set; apply: f_equal.
by case: x => /=; [case: (k_tm o)|case: (k_to o)|case: (k_tc o)|case: (k_om o)|case: (k_oo o)|case: (k_oc o)
  |case: (k_im o)|case: (k_ic o)] => // -[].
Qed.
End Struct.

(** ** filter_update *)
Section Update.
Variables (R : rcfType).
Definition bkf_update (o : kf R) (s : arr R * arr R) (u : uargs R) : res (arr R * arr R) :=
  bkf_filter_update o s.1 s.2 (u_z u) (u_tm u) (u_to u) (u_tc u) (u_om u) (u_oo u) (u_oc u).
(** the observation, if any, is a vector of the right length *)
Definition full_obs m (u : uargs R) : Prop := forall za b, u_z u = Some (za, b) -> exists v : 'cV[R]_m, za = A1 v.

Variables (n m : nat) (o : kf R) (T : nat) (M : lgm R n m).
Hypothesis Ho : kf_model o T M.
Hypothesis n0 : (0 < n)%N.
Hypothesis m0 : (0 < m)%N.

Lemma full_za t (r : orow R m) u (za : arr R) b : full_obs m u ->
  (match u_z u with
   | None => no <-- shape0 (A2 (mR M t)) ;; Ok (zeros1 no, (0 < no)%N)
   | Some zm => Ok zm end) = Ok (za, b) -> exists v : 'cV[R]_m, za = A1 v.
Proof.
move=> H; case E: (u_z u) => [[x c]|].
  by case=> <- _; exact: (H x c E).
by rewrite /=; case=> <- _; eexists.
Qed.

Lemma bi_update_ok t (r : orow R m) u (mu : 'cV[R]_n) (P : 'M[R]_n) :
  (t.+1 < T)%N -> step_args o M t r u -> full_obs m u -> psd (mQ M t) -> pd (mR M t.+1) -> psd P ->
  exists (mu' : 'cV[R]_n) (P' : 'M[R]_n), [/\ update o (A1 mu, A2 P) u = Ok (A1 mu', A2 P'), psd P'
    & bkf_update o (A1 mu, A2 P) u = Ok (A1 mu', A3 [:: P'])].
Proof.
move=> tT Hu Hf pQ pR pP.
have [E0 [E1 E2 E3] [E4 E5 E6] [za E7 Hza]] := args_resolved Ho m0 tT Hu.
have [v Ev] := full_za r Hf E7.
have [L [EL uL ELL]] := deco_factorE pR.
have [U0 [D0 [EU0 HU0 _]]] := udu_ok n0 pP.
rewrite /update /bkf_update /kf_filter_update /bkf_filter_update.
rewrite E0 !bO E1 !bO E2 !bO E3 !bO E4 !bO E5 !bO E6 !bO E7 !bO.
rewrite [(A1 mu, A2 P).1]/= [(A1 mu, A2 P).2]/= EU0 bO Ev [deco_width _]/= bO EL bO.
rewrite [deco_mat _ _]/= dot22 bO /deco_vec [tr (A1 _)]/= bO dot21 bO [tr (A1 _)]/= bO dot21 bO.
have [U [D [EU HU]]] := bi_predictE (mA M t) (mb M t) mu n0 pQ HU0; rewrite EU bO.
set P1 := mA M t *m (P *m (mA M t)^T) + mQ M t in HU.
have -> : filter_predict (A2 (mA M t)) (A2 (mQ M t)) (A1 (mb M t)) (A1 mu) (A2 P) =
    Ok (A1 (mA M t *m mu + mb M t), A2 P1).
  by rewrite /filter_predict; np.
rewrite bO; case: (missing r) Hza => [_|/(_ erefl)].
  rewrite bi_correct_miss bO (reconE HU) bO /filter_correct [~~ true]/=.
  by do 2 eexists; split; [reflexivity|exact: udu_psd HU|reflexivity].
rewrite Ev => -[Ez].
have -> : v = r.1.
  by have := Eqdep_dec.inj_pair2_eq_dec _ PeanoNat.Nat.eq_dec _ _ _ _ Ez.
have [U' [D' [EU' HU']]] := bi_correctE (mC M t.+1) (md M t.+1) r.1 (mA M t *m mu + mb M t) n0 uL HU.
rewrite EU' bO (reconE HU') bO /filter_correct [~~ false]/=; do 2 eexists; split; [np|exact: udu_psd HU'|reflexivity].
by rewrite ELL.
Qed.

(** the result passed back: with several state dimensions the next call raises *)
Lemma bi_update_chain t (r : orow R m) u mu (P : 'M[R]_n) : (1 < n)%N ->
  (t.+1 < T)%N -> step_args o M t r u ->
  bkf_update o (mu, A3 [:: P]) u = Err ValueError \/ bkf_update o (mu, A3 [:: P]) u = Err AssertionError.
Proof.
move=> n1 tT Hu.
have [E0 [E1 E2 E3] [E4 E5 E6] [za E7 Hza]] := args_resolved Ho m0 tT Hu.
rewrite /bkf_update /bkf_filter_update.
rewrite E0 !bO E1 !bO E2 !bO E3 !bO E4 !bO E5 !bO E6 !bO E7 !bO [(_, _).2]/=.
rewrite /udu (gtn_eqF n1) /= eqxx (gtn_eqF n0) /=.
by case: ifP => _; [left|right].
Qed.
End Update.

Lemma udu_single (R : rcfType) (X : 'M[R]_1) : udu (A3 [:: X]) = udu (A2 X).
Proof.
rewrite /udu /= as_squareE.
have -> : [forall i, [forall j, isclose (X i j) (X j i)]].
  by apply/forallP => i; apply/forallP => j; rewrite (ord1 i) (ord1 j) isclose_refl.
rewrite /=; congr (Ok (_, A1 _)); apply/matrixP => a b.
by rewrite !mxE (ord1 a) (mgetE X 0 0) (mgetE _ 0 0) mxE.
Qed.

(** with one state dimension the result can be passed back *)
Lemma bi_update_one (R : rcfType) (o : kf R) mu (P : 'M[R]_1) u :
  bkf_update o (mu, A3 [:: P]) u = bkf_update o (mu, A2 P) u.
Proof. by rewrite /bkf_update /bkf_filter_update [(_, _).2]/= udu_single. Qed.

Lemma bi_chain_fails (R : rcfType) n m (o : kf R) T (M : lgm R n m) t (r r' : orow R m) u u' (mu : 'cV[R]_n) (P : 'M[R]_n) :
  kf_model o T M -> (1 < n)%N -> (0 < m)%N ->
  (t.+2 < T)%N -> step_args o M t r u -> full_obs m u -> step_args o M t.+1 r' u' ->
  psd (mQ M t) -> pd (mR M t.+1) -> psd P ->
  exists2 e, (s <-- bkf_update o (A1 mu, A2 P) u ;; bkf_update o s u') = Err e & e = ValueError \/ e = AssertionError.
Proof.
move=> Ho n1 m0 tT Hu Hf Hu' pQ pR pP.
have [mu' [P' [_ _ ->]]] := bi_update_ok Ho (ltnW n1) m0 mu (ltnW tT) Hu Hf pQ pR pP; rewrite bO.
by have [->|->] := bi_update_chain Ho (ltnW n1) m0 (A1 mu') P' n1 tT Hu'; eexists; [reflexivity|left| reflexivity|right].
Qed.

Lemma kf_empty (R : rcfType) n m (o : kf R) T (M : lgm R n m) : kf_model o T M ->
  kf_filter o (O2 m [::]) = Ok [::].
Proof.
move=> Ho; rewrite /kf_filter /filter_with.
have -> : parse_observations (O2 m [::]) = existT (fun k => seq (orow R k)) m [::] by exact: parse_keep.
by rewrite (initialize_parametersE (km_rs Ho)) bO /filter_ (pm_im (kf_model_params Ho)).
Qed.

(** an indefinite matrix is factored into something else, silently *)
Definition swap2 (R : rcfType) : 'M[R]_2 := \matrix_(i, j) (i != j)%:R.
Lemma udu_swap (R : rcfType) : exists (U : 'M[R]_2) (d : 'cV[R]_2), udu (A2 (swap2 R)) = Ok (A2 U, A1 d) /\
  bi_reconstruct (A2 U, A1 d) = Ok (A2 (0 : 'M[R]_2)).
Proof.
rewrite /udu eqxx as_squareE.
have -> : [forall i, [forall j, isclose (swap2 R i j) (swap2 R j i)]].
  by apply/forallP => i; apply/forallP => j; rewrite !mxE eq_sym isclose_refl.
rewrite /udu_core.
have -> : foldl (@udu_outer R 2) (triu (swap2 R), 1%:M, 0) (rev (iota 2 2.-1)) =
          udu_outer (triu (swap2 R), 1%:M, 0) 2 by [].
have -> : udu_outer (triu (swap2 R), 1%:M, 0) 2 = (triu (swap2 R), 1%:M, 0).
  have E0 : triu (swap2 R) (1 : 'I_2) (1 : 'I_2) = 0 by rewrite !mxE.
  rewrite (outer_ok (1 : 'I_2)) E0 Order.POrderTheory.ltxx; congr (_, _, _); apply/matrixP => a b; rewrite !mxE.
  - by case: ifP => // _; rewrite mul0r mulr0 subr0.
  - by case: ifP => // /andP[/eqP -> a1]; rewrite mul0r; case: eqP => // e; rewrite e in a1.
  - by case: ifP.
rewrite (mgetE (triu (swap2 R)) 0 0) !mxE /=.
eexists; eexists; split; first reflexivity.
rewrite /bi_reconstruct bO dot22 bO tr2 bO dot22; congr (Ok (A2 _)).
rewrite (_ : vset _ _ _ = 0); last by apply/matrixP => a b; rewrite !mxE; case: ifP.
rewrite trmx0 (_ : diag_mx 0 = 0) ?mulmx0 ?mul0mx //.
by apply/matrixP => a b; rewrite !mxE mul0rn.
Qed.
