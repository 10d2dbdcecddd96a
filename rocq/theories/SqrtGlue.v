(** Method-level statements combining several files. *)
From Coq Require Import String List.
From mathcomp Require Import all_ssreflect all_algebra.
From Verif Require Import Prelude Zmod LinAlg Numpy NumpyFacts Sklearn SklearnFacts Standard Model KfSpec StandardInit StandardFacts
  KfStruct KfStruct2 KfOnline KfEm KfGlue EmGlue.
From Verif Require Import Sqrt SqrtFacts SqrtSpec SqrtApi SqrtEm Cholesky ChFacts ChMain.
Import GRing.Theory Num.Theory.

Set Implicit Arguments.
Unset Strict Implicit.
Unset Printing Implicit Defensive.
Local Open Scope ring_scope.

Section Ch.
Variables (R : rcfType) (qr : qr_fun R).

Lemma ch_em_fixed n m (o : kf R) T (M : lgm R n m) (zs : seq (orow R m)) e N : qr_valid qr ->
  pd_kf o T M -> (1 < T)%N -> size zs = T -> keeps zs -> ~ selects e Oc ->
  ckf_em qr o (O2 m zs) N (Some e) = kf_em o (O2 m zs) N (Some e) /\ (kf_em o (O2 m zs) N (Some e)).2 = Ok tt.
Proof.
move=> Hqr Ho T1 Hsz Hk N2; split.
  by apply: (ch_em_equal Hqr Ho Hsz Hk) => i _; exact: (em_pd_kf i Ho T1 Hsz Hk N2).
have [o' [M' [-> _ _]]] := kf_em_psd (pk_model Ho) (psd_kf_model (pd_kf_psd Ho)) (ltnW T1) Hsz Hk N (Some e).
exact: erefl.
Qed.

Lemma ckf_filter_agree (o : kf R) k (zs zs' : seq (orow R k)) rows rows' j :
  keeps zs -> keeps zs' -> take j zs = take j zs' ->
  ckf_filter qr o (O2 k zs) = Ok rows -> ckf_filter qr o (O2 k zs') = Ok rows' -> take j rows = take j rows'.
Proof.
move=> Hk Hk' E; rewrite /ckf_filter /filter_with (parse_keep Hk) (parse_keep Hk').
case: (initialize_parameters o) => // p; rewrite !bO.
case E1: (ch_flt qr p zs) => [r1|] //; case E2: (ch_flt qr p zs') => [r2|] //.
rewrite !bO => -[<-] [<-]; rewrite -!map_take.
by have := ch_flt_take j E1; have := ch_flt_take j E2; rewrite E => -> [<-].
Qed.

Lemma ch_chain_fails n m (o : kf R) T (M : lgm R n m) t (r r' : orow R m) u u' (mu : 'cV[R]_n) (P : 'M[R]_n) :
  kf_model o T M -> (0 < m)%N -> qr_valid qr ->
  (t.+2 < T)%N -> step_args o M t r u -> step_args o M t.+1 r' u' ->
  pd (mQ M t) -> pd (mR M t.+1) -> pd (mQ M t.+1) -> pd (mR M t.+2) -> pd P ->
  (s <-- ckf_update qr o (A1 mu, A2 P) u ;; ckf_update qr o s u') = Err ValueError.
Proof.
move=> Ho m0 Hqr tT Hu Hu' pQ pR pQ' pR' pP.
have [mu' [P' [_ ->]]] := ch_update_ok Ho m0 mu Hqr (ltnW tT) Hu pQ pR pP.
by rewrite bO; exact: (ch_update_chain qr Ho m0 _ _ tT Hu' pQ' pR').
Qed.

Lemma ckf_em_default' (o : kf R) X N : seed_ok (k_rs o) -> k_em o = None ->
  (ckf_em qr o X N None).2 = Err TypeError /\
  forall x, attribute (ckf_em qr o X N None).1 x = Some (initial_value o x).
Proof.
move=> Hs He; rewrite (ckf_em_default qr X N Hs He); split=> // x.
rewrite [(_, _).1]/= attribute_set; apply: f_equal.
by case: x => /=; [case: (k_tm o)|case: (k_to o)|case: (k_tc o)|case: (k_om o)|case: (k_oo o)|case: (k_oc o)
  |case: (k_im o)|case: (k_ic o)] => // -[].
Qed.
End Ch.

Lemma kf_em_default (R : rcfType) (o : kf R) X N (a : kfargs R) : kf_init a = Ok o -> a_em a = None ->
  kf_em o X N None = kf_em o X N (Some (EmNames [:: "transition_covariance"; "observation_covariance";
    "initial_state_mean"; "initial_state_covariance"]%string)).
Proof. by move=> Hi Ha; have [_ _ _ E] := kf_init_attrs Hi; rewrite /kf_em E Ha. Qed.
