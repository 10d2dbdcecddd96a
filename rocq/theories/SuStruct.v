(** Causality, wrong widths and online updates of the square-root unscented filter. *)
From Coq Require Import String List.
From mathcomp Require Import all_ssreflect all_algebra.
From Verif Require Import Prelude Zmod LinAlg Numpy NumpyFacts Sklearn Standard Model KfSpec StandardInit StandardFacts Rng Sqrt SqrtFacts Unscented UscSpec UscFacts UscRefine UscLoop
  UscInit UscMain UscPsd UscShape UscOnline SqrtUnscented CuFacts CuRank SuTri SuFacts SuStep SuMain SuSmooth.
Import GRing.Theory Num.Theory Order.Theory.

Set Implicit Arguments.
Unset Strict Implicit.
Unset Printing Implicit Defensive.
Local Open Scope ring_scope.

#[local] Arguments fun_at : simpl never.
#[local] Arguments wdef : simpl never.
#[local] Arguments sigma_rows : simpl never.
#[local] Arguments fmap : simpl never.
#[local] Arguments spts : simpl never.
#[local] Arguments ucorr : simpl never.

Section Causal.
Variables (R : rcfType) (qr : qr_fun R).
Lemma covs_take (xs : seq (moments R)) rows j : su_covariances xs = Ok rows -> su_covariances (take j xs) = Ok (take j rows).
Proof.
elim: xs rows j => [|x xs IH] rows j; first by case=> <-; case: j.
rewrite /su_covariances mapr_cons; case E: (su_gram x.2) => [c|//]; rewrite !bO.
case El: (mapr _ _) => [l|//]; rewrite bO => [] [<-]; case: j => [//|j].
by rewrite [take _ _]/= mapr_cons E !bO -/(su_covariances _) (IH _ _ El) bO.
Qed.
Lemma covs_size (xs : seq (moments R)) rows : su_covariances xs = Ok rows -> size rows = size xs.
Proof.
elim: xs rows => [|x xs IH] rows; first by case=> <-.
rewrite /su_covariances mapr_cons; case E: (su_gram x.2) => [c|//]; rewrite !bO.
by case El: (mapr _ _) => [l|//]; rewrite bO => [] [<-] /=; rewrite (IH _ El).
Qed.
Lemma uloop_size (stp : ustep R) p n k (zs : seq (orow R k)) t prev rows :
  ufilter_loop stp p n t prev zs = Ok rows -> size rows = size zs.
Proof.
elim: zs t prev rows => [|z zs IH] t prev rows; first by case=> <-.
rewrite uloop_cons; case E: (stp _ _ _ _ _) => [r|//]; rewrite bO.
by case El: (ufilter_loop _ _ _ _ _ _) => [l|//]; rewrite bO => [] [<-] /=; rewrite (IH _ _ _ El).
Qed.
Lemma sukf_take o k (zs : seq (orow R k)) rows j : keeps zs -> keeps (take j zs) ->
  sukf_filter qr o (O2 k zs) = Ok rows -> sukf_filter qr o (O2 k (take j zs)) = Ok (take j rows) /\ size rows = size zs.
Proof.
move=> H1 H2; rewrite /sukf_filter (parse_keep H1) (parse_keep H2).
case: (uinitialize _ _) => [p|//]; rewrite !bO /su_filter_.
case: (shape_m1 _) => [n|//]; rewrite !bO; case: (np_cholesky_upper _) => [Q2|//]; rewrite !bO.
case: (np_cholesky_upper _) => [R2|//]; rewrite !bO.
case El: (ufilter_loop _ _ _ _ _ _) => [xs|//]; rewrite bO => Ec.
by rewrite (uloop_take j El) bO (covs_take j Ec) (covs_size Ec) (uloop_size El).
Qed.
Lemma sukf_future o k (zs zs' : seq (orow R k)) rows rows' j : keeps zs -> keeps zs' -> keeps (take j zs) ->
  take j zs = take j zs' -> sukf_filter qr o (O2 k zs) = Ok rows -> sukf_filter qr o (O2 k zs') = Ok rows' ->
  take j rows = take j rows'.
Proof.
move=> H1 H2 H3 E F F'.
have [A _] := sukf_take H1 H3 F; have H4 : keeps (take j zs') by rewrite -E.
have [A' _] := sukf_take H2 H4 F'.
by move: A; rewrite E A' => [] [].
Qed.
End Causal.

Section Width.
Variables (R : rcfType) (qr : qr_fun R).
Hypothesis Hqr : qr_valid qr.
Variables (n m : nat).

(** a step that ends in a correction by the observation *)
Definition su_ends (stp : arr R * bool -> res (moments R)) : Prop :=
  exists (C : 'M[R]_(n, m)) (mp : 'cV[R]_n) (Sp : 'M[R]_n) (mu : 'cV[R]_m) (S : 'M[R]_m),
    forall z, stp z = ('(m0, c) <-- su_correct (A2 C) (A1 mp, A2 Sp) (A1 mu, A2 S) z ;;
                       fm <-- assign1 n m0 ;; fs <-- assign2 n n c ;; Ok (fm, fs)).

Lemma su_bad k (C : 'M[R]_(n, m)) mp (mu : 'cV[R]_m) (S : 'M[R]_m) (z : 'cV[R]_k) : k <> m -> k <> 1%N ->
  su_correct (A2 C) mp (A1 mu, A2 S) (A1 z, false) = Err ValueError.
Proof.
move=> km k1; rewrite /su_correct [~~ _]/= [fst _]/= [snd _]/= tr2 bO lstsqE bO tr2 bO lstsqE bO tr2 bO.
rewrite /sub [bop _ _ _]/= /bdim; case: eqP => // _; case: eqP => // _.
case: eqP => [m1|_] //; rewrite bO.
rewrite /dot mulr_dyn_err //; exact/eqP.
Qed.
Lemma su_wide (C : 'M[R]_(n, m)) mp (mu : 'cV[R]_m) (S : 'M[R]_m) (z : 'cV[R]_1) b :
  su_correct (A2 C) mp (A1 mu, A2 S) (A1 z, b) = su_correct (A2 C) mp (A1 mu, A2 S) (A1 (const_mx (z 0 0) : 'cV_m), b).
Proof.
have E : sub (A1 z) (A1 mu) = sub (A1 (const_mx (z 0 0) : 'cV_m)) (A1 mu).
  rewrite sub11; rewrite /sub /= /bdim.
  case: eqP => [m1|_].
    move: mu; rewrite -m1 => mu; congr (Ok (A1 _)); apply/matrixP=> i j.
    by rewrite !mxE !bget_col !ord1.
  rewrite eqxx; congr (Ok (A1 _)); apply/matrixP=> i j.
  by rewrite !mxE (ord1 j) (bget_col mu i) -(bget_col z ord0 0).
by rewrite /su_correct -[fst (A1 z, b)]/(A1 z) -[fst (A1 (const_mx _), b)]/(A1 _) [fst (A1 mu, _)]/= E.
Qed.

Lemma ends_masked' stp (a : arr R) : su_ends stp -> exists (mp : 'cV[R]_n) (Sp : 'M[R]_n), stp (a, true) = Ok (A1 mp, A2 Sp).
Proof.
case=> C [mp [Sp [mu [S ->]]]]; exists mp, Sp.
by rewrite /su_correct [~~ _]/= bO assign1E bO assign2E bO.
Qed.
Lemma ends_shape stp a x : su_ends stp -> stp a = Ok x -> exists (mp : 'cV[R]_n) (Sp : 'M[R]_n), x = (A1 mp, A2 Sp).
Proof.
case=> C [mp [Sp [mu [S ->]]]]; case: (su_correct _ _ _ _) => [[e h]|//]; rewrite bO; exact: asg_shape.
Qed.

Section Steps.
Variables (p : uparams R) (mu0 : 'cV[R]_n) (P0 : 'M[R]_n) (Q2 : 'M[R]_n) (R2 : 'M[R]_m).
Hypotheses (E0 : u_im p = A1 mu0) (EP : u_ic p = A2 P0).
Lemma su_correct_at k (P : 'M[R]_(k.+1, n)) (w : 'cV[R]_k.+1) (G : pyfun R) (g : 'cV[R]_n -> 'cV[R]_m) (mu : 'cV[R]_n) (Sp : 'M[R]_n) : fun1 G g ->
  exists (C : 'M[R]_(n, m)) (om : 'cV[R]_m) (V : 'M[R]_m), forall z,
    su_filter_correct qr G (A1 mu, A2 Sp) (SigmaPoints (A2 P) (A1 w) (A1 w)) z (Some (A2 R2)) =
    su_correct (A2 C) (A1 mu, A2 Sp) (A1 om, A2 V) z.
Proof.
move=> HG; have [V E H] := su_utE Hqr P w w R2 HG; do 3 eexists; move=> z.
rewrite /su_filter_correct E bO [sp_points _]/= [fst _]/= sub_row bO tr2 bO [sp_wm _]/= diag1 bO dot22 bO.
by rewrite [sp_points _]/= [fst _]/= sub_row bO dot22 bO.
Qed.
Lemma su_ends0 G (g : 'cV[R]_n -> 'cV[R]_m) : pd P0 -> fun_at (u_g p) 0 = Ok G -> fun1 G g ->
  su_ends (su_step qr p (A2 Q2) (A2 R2) n 0 None).
Proof.
move=> HP EG HG; rewrite /su_ends /su_step E0 EP; have [F -> HF] := cholupperE HP.
have rF := is_chol_regular HF; have [V EV _] := p2m_self Hqr mu0 rF.
have [C [om [W E]]] := su_correct_at (sigma_rows mu0 F^T 3%:R) (wdef R n) mu0 V HG.
exists C, mu0, V, om, W => z; by rewrite bO bO su_m2pE bO EV bO EG bO E.
Qed.
Lemma su_endsN t (mu : 'cV[R]_n) (S : 'M[R]_n) F G (f : 'cV[R]_n -> 'cV[R]_n) (g : 'cV[R]_n -> 'cV[R]_m) :
  fun_at (u_f p) t = Ok F -> fun1 F f -> fun_at (u_g p) t.+1 = Ok G -> fun1 G g ->
  su_ends (su_step qr p (A2 Q2) (A2 R2) n t.+1 (Some (A1 mu, A2 S))).
Proof.
move=> EF HF EG HG; rewrite /su_ends /su_step.
have [V EV _] := su_utE Hqr (sigma_rows mu S^T 3%:R) (wdef R n) (wdef R n) Q2 HF.
set mp := wmean _ _ in EV.
have [C [om [W E]]] := su_correct_at (sigma_rows mp V^T 3%:R) (wdef R n) mp V HG.
exists C, mp, V, om, W => z; by rewrite bO su_m2pE bO [_.+1.-1]/= EF bO EV bO su_m2pE bO EG bO bO E.
Qed.
End Steps.

Section Loops.
Variables (T : nat) (stp : ustep R) (p : uparams R).
Hypothesis H0 : (0 < T)%N -> su_ends (stp p n 0%N None).
Hypothesis HN : forall t mu S, (t.+1 < T)%N -> su_ends (stp p n t.+1 (Some (A1 (mu : 'cV[R]_n), A2 (S : 'M[R]_n)))).
Definition sprev (t : nat) (prev : option (moments R)) : Prop :=
  if t is _.+1 then exists (mu : 'cV[R]_n) (S : 'M[R]_n), prev = Some (A1 mu, A2 S) else prev = None.
Lemma sends_at t prev : (t < T)%N -> sprev t prev -> su_ends (stp p n t prev).
Proof. by case: t => [|t] tT /=; [move=> ->; exact: H0|case=> mu [S ->]; exact: HN]. Qed.

Lemma swidth_loop k (zs : seq (orow R k)) t prev : k <> m -> k <> 1%N -> (t + size zs <= T)%N -> sprev t prev ->
  has (fun z : orow R k => ~~ missing z) zs -> ufilter_loop stp p n t prev zs = Err ValueError.
Proof.
move=> km k1; elim: zs t prev => [//|z zs IH] t prev Ht Hp Hh.
have tT : (t < T)%N by apply: leq_trans Ht; rewrite /= addnS ltnS leq_addr.
have HE := sends_at tT Hp; rewrite uloop_cons.
case Em: (missing z); last first.
  by case: HE => C [mp [Sp [mu [S ->]]]]; rewrite su_bad.
have [mp [Sp ->]] := ends_masked' (A1 z.1) HE; rewrite bO IH //.
- by rewrite addSnnS.
- by exists mp, Sp.
- by move: Hh => /=; rewrite Em.
Qed.
Lemma swiden_loop (zs : seq (orow R 1)) t prev : (0 < m)%N -> (t + size zs <= T)%N -> sprev t prev ->
  ufilter_loop stp p n t prev zs = ufilter_loop stp p n t prev (map (@widen R m) zs).
Proof.
move=> m0; elim: zs t prev => [//|z zs IH] t prev Ht Hp.
have tT : (t < T)%N by apply: leq_trans Ht; rewrite /= addnS ltnS leq_addr.
have HE := sends_at tT Hp.
rewrite [map _ _]/= !uloop_cons missing_widen //.
have E : stp p n t prev (A1 z.1, missing z) = stp p n t prev (A1 (widen m z).1, missing z).
  by case: HE => C [mp [Sp [mu [S EE]]]]; rewrite !EE su_wide.
rewrite -E; case Es: (stp _ _ _ _ _) => [x|//]; rewrite !bO IH //; first by rewrite addSnnS.
by have [mp [Sp ->]] := ends_shape HE Es; exists mp, Sp.
Qed.
End Loops.

Section Api.
Variables (o : ukf R) (T : nat) (f : nat -> 'cV[R]_n -> 'cV[R]_n) (g : nat -> 'cV[R]_n -> 'cV[R]_m).
Variables (Q : 'M[R]_n) (Rn : 'M[R]_m) (mu0 : 'cV[R]_n) (P0 : 'M[R]_n).
Hypothesis HM : aukf_model o T f g Q Rn mu0 P0.
Hypotheses (HR : pd Rn) (HP : pd P0) (HQ : pd Q).
Let p := uinit_value (@add_default R) o.
Lemma sukf_ends (Q2 : 'M[R]_n) (R2 : 'M[R]_m) :
  ((0 < T)%N -> su_ends (su_step qr p (A2 Q2) (A2 R2) n 0%N None)) /\
  (forall t (mu : 'cV[R]_n) (S : 'M[R]_n), (t.+1 < T)%N -> su_ends (su_step qr p (A2 Q2) (A2 R2) n t.+1 (Some (A1 mu, A2 S)))).
Proof.
split=> [T0|t mu S tT].
  have [G EG HG] := um_G HM (@dflt1 R n m) T0.
  exact: (su_ends0 Q2 R2 (um_E0 _ HM) (um_EP _ HM) HP EG HG).
have [F' EF HF] := um_F HM (@dflt1 R n n) (predn_lt tT); have [G EG HG] := um_G HM (@dflt1 R n m) tT.
exact: (su_endsN Q2 R2 mu S EF HF EG HG).
Qed.
Lemma sukf_width k (zs : seq (orow R k)) : k <> m -> k <> 1%N ->
  size zs = T -> keeps zs -> has (fun z : orow R k => ~~ missing z) zs -> sukf_filter qr o (O2 k zs) = Err ValueError.
Proof.
move=> km k1 Hsz Hk Hh; rewrite /sukf_filter (parse_keep Hk) (um_init _ HM) !bO /su_filter_ (um_EQ _ HM) (um_ER _ HM) [shape_m1 _]/= bO.
have [Q2 -> HQ2] := cholupperE HQ; have [R2 -> HR2] := cholupperE HR; rewrite bO bO.
have [H0 HN] := sukf_ends Q2 R2.
by rewrite (@swidth_loop T (fun p n t prev z => su_step qr p (A2 Q2) (A2 R2) n t prev z) p H0 HN) // add0n Hsz.
Qed.
Lemma sukf_widen (zs : seq (orow R 1)) : (0 < m)%N -> size zs = T -> T <> 1%N ->
  sukf_filter qr o (O2 1 zs) = sukf_filter qr o (O2 m (map (@widen R m) zs)).
Proof.
move=> m0 Hsz T1; have Hk : keeps zs by rewrite /keeps orbT.
have Hk' : keeps (map (@widen R m) zs) by rewrite /keeps size_map Hsz; apply/orP; left; exact/eqP.
rewrite /sukf_filter (parse_keep Hk) (parse_keep Hk') (um_init _ HM) !bO /su_filter_ (um_EQ _ HM) (um_ER _ HM) [shape_m1 _]/= !bO.
have [Q2 -> HQ2] := cholupperE HQ; have [R2 -> HR2] := cholupperE HR; rewrite !bO.
have [H0 HN] := sukf_ends Q2 R2.
by rewrite (@swiden_loop T (fun p n t prev z => su_step qr p (A2 Q2) (A2 R2) n t prev z) p H0 HN) // add0n Hsz.
Qed.

(** ** online updates *)
Hypotheses (dQ : is_diag_mx Q).
Lemma sukf_updateE t r u (mu : 'cV[R]_n) (P : 'M[R]_n) : (t.+1 < T)%N -> aukf_args o f g Q Rn t r u -> pd P -> tame (f t) ->
  (missing r \/ (m <= 1)%N /\ tame (g t.+1)) ->
  exists (mu' : 'cV[R]_n) (P' : 'M[R]_n), [/\ uupdate (@aukf_filter_update R) o (A1 mu, A2 P) u = Ok (A1 mu', A2 P'),
     uupdate (@sukf_filter_update R qr) o (A1 mu, A2 P) u = Ok (A1 mu', A3 [:: P']) & pd P'].
Proof.
move=> tT Hu HPP Hf Hg.
rewrite -[(A1 mu, A2 P)]/(lift_s (mu, P)) (aukf_updateE (mu, P) HM tT Hu).
case: (Hu) => [Hz Hfa Hq Hga Hr]; rewrite /uupdate /sukf_filter_update (um_init _ HM) bO.
have [F -> HF] := default_F HM (@dflt1 R n n) (predn_lt tT) Hfa; rewrite bO.
have [G -> HG] := default_G HM (@dflt1 R n m) tT Hga; rewrite bO.
rewrite (default_C (um_EQ _ HM) Hq) bO (default_C (um_ER _ HM) Hr) bO.
have [v -> Hv] := uobsE Rn Hz; rewrite bO [(lift_s _).1]/= [(lift_s _).2]/=.
have [S2 -> HS2] := cholupperE HPP; have [Q2 -> HQ2] := cholupperE HQ; have [R2 -> HR2] := cholupperE HR; rewrite !bO su_m2pE bO.
have rS := is_chol_regular HS2; have ES : S2^T *m S2 = (mu, P).2 by case: HS2.
have [mp [pp [V [E1 -> rV EV _]]]] := su_predE Hqr HQ HQ2 dQ rS ES HF Hf.
rewrite bO su_m2pE bO.
pose r' : orow R m := (v, r.2).
have Em : missing r' = missing r by [].
have Hg' : missing r' \/ (m <= 1)%N /\ tame (g t.+1) by rewrite Em.
have [s' [x' [H1 H2 [F' EF' [rF' EF2]]]]] := su_corrE Hqr HR HR2 mp.1 rV EV rV EV HG Hg'.
rewrite Em in H2; rewrite H2 EF' bO /su_reconstruct_one /su_gram tr2 bO dot22 !bO EF2.
exists s'.1, s'.2; split; [|exact: erefl|rewrite -EF2; exact: regular_pd].
have Ec : cut r' = cut r by rewrite /cut Em; case Eb: (missing r) => //; rewrite [fst _]/= Hv.
rewrite Ec in H1.
have -> : add_next Q Rn f g t (mu, P) (cut r) = Some s' by rewrite /add_next E1 -H1 [obind _ _]/= /add_corr; case: (mp).
exact: erefl.
Qed.
Lemma sukf_chain t r u mu Cs : (t.+1 < T)%N -> aukf_args o f g Q Rn t r u ->
  uupdate (@sukf_filter_update R qr) o (mu, @A3 R n n Cs) u = Err ValueError.
Proof.
move=> tT [Hz Hfa Hq Hga Hr]; rewrite /uupdate /sukf_filter_update (um_init _ HM) bO.
have [F -> HF] := default_F HM (@dflt1 R n n) (predn_lt tT) Hfa; rewrite bO.
have [G -> HG] := default_G HM (@dflt1 R n m) tT Hga; rewrite bO.
rewrite (default_C (um_EQ _ HM) Hq) bO (default_C (um_ER _ HM) Hr) bO.
by have [v -> Hv] := uobsE Rn Hz.
Qed.
End Api.
End Width.
