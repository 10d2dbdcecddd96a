(** EM started from constant covariances keeps them constant; those not
    estimated keep their value. *)
From Coq Require Import String List.
From mathcomp Require Import all_ssreflect all_algebra.
From Verif Require Import Prelude Zmod LinAlg Numpy NumpyFacts Sklearn SklearnFacts Standard Model KfSpec StandardInit StandardFacts
  SpecL2 L2Facts Lmmse Exists KfOptimal KfModelFacts KfOnline KfEm KfGlue EmForm EmSpec EmMax EmStep EmGlue EmChain EmMono.
From Verif Require Import Sqrt SqrtFacts SqrtSpec SqrtApi Cholesky ChFacts.
Import GRing.Theory Num.Theory.

Set Implicit Arguments.
Unset Strict Implicit.
Unset Printing Implicit Defensive.
Local Open Scope ring_scope.

Section Em.
Variable R : rcfType.

Lemma cov_is_init n (X : 'M[R]_n) a : cov_is a X -> as_mat (odflt (A2 (eye R n n)) a) = A2 X.
Proof.
rewrite /cov_is; case: a => [v|] //= ->; apply: f_equal.
by apply/matrixP => i j; rewrite /eye !mxE.
Qed.

Section One.
Variables (n m : nat) (o : kf R) (T : nat) (M : lgm R n m) (zs : seq (orow R m)).
Hypothesis T0 : (0 < T)%N.
Hypothesis Ho : kf_model o T M.
Hypothesis Hps : psd_model M T.
Hypothesis Hsz : size zs = T.
Hypothesis Hk : keeps zs.
Variables (e : emspec) (N : nat).
Let X := O2 m zs.
Let o' := (kf_em o X N (Some e)).1.

Lemma em_model_after : exists2 M' : lgm R n m, kf_model o' T M' & psd_model M' T.
Proof.
have [o1 [M' [E Hm Hp]]] := kf_em_psd Ho Hps T0 Hsz Hk N (Some e).
by exists M'; rewrite /o' /X ?E.
Qed.
Lemma em_fixed x : ~ selects e x -> attribute o' x = Some (initial_value o x).
Proof. by move=> H; rewrite /o' (kf_em_only_selected _ _ (ev := Some e) (km_rs Ho)). Qed.
Lemma em_fixed_tc (Q : 'M[R]_n) : ~ selects e Tc -> cov_is (k_tc o) Q -> cov_is (k_tc o') Q.
Proof.
move=> /em_fixed E HQ; rewrite /cov_is; move: E; rewrite [attribute _ _]/= => ->.
by rewrite /attr [initial_value _ _]/= (km_n Ho) (cov_is_init HQ).
Qed.
Lemma em_fixed_oc (Rc : 'M[R]_m) : ~ selects e Oc -> cov_is (k_oc o) Rc -> cov_is (k_oc o') Rc.
Proof.
move=> /em_fixed E HQ; rewrite /cov_is; move: E; rewrite [attribute _ _]/= => ->.
by rewrite /attr [initial_value _ _]/= (km_m Ho) (cov_is_init HQ).
Qed.
Lemma em_fixed_ic (M' : lgm R n m) : ~ selects e Isc -> kf_model o' T M' -> mP M' = mP M.
Proof.
move=> /em_fixed E Ho'; move: E; rewrite [attribute _ _]/= => E.
have := km_ic Ho'; rewrite E /attr [initial_value _ _]/= (km_n Ho).
have -> : as_mat (odflt (A2 (eye R n n)) (k_ic o)) = A2 (mP M).
  have := km_ic Ho; rewrite /attr; case: (k_ic o) => [v|] //= ->.
  by apply: f_equal; apply/matrixP => i j; rewrite /eye !mxE.
move=> H; symmetry.
by have /= := f_equal (fun a : arr R => if a is @A2 _ p q Z then \matrix_(i < n, j < n) mget Z i j else 0) H;
  move/matrixP => H'; apply/matrixP => i j; have := H' i j; rewrite !mxE !mgetE.
Qed.
End One.

(** the estimated transition covariance is a matrix *)
Lemma em_loop_tc flt k (zs : seq (orow R k)) p0 e i p : flt_ok flt -> is2 (p_tc p0) -> is2 (p_tc p) ->
  is2 (p_tc (em_loop flt zs (mk_given p0 e) i p).1).
Proof.
move=> Hf H0; elim: i p => [|i IH] p Hp //=; case E: (em_iter _ _ _ _) => [p'|] //=.
apply: IH; move: E; rewrite /em_iter; case E: (flt p k zs) => [rows|] //=; case: (np_len _) => //= n.
case E1: (smooth_ _ _ _) => [[ss gs]|] //=; case: (smooth_pair _ _ _) => //= pw.
have Hs := smooth_shape E1 (Hf _ _ _ _ E).
rewrite /em_; do 3 (case: (given_or _ _ _) => //= ?).
case E2: (given_or _ "transition_covariance" _) => [a|] //=; do 4 (case: (given_or _ _ _) => //= ?).
case=> <- /=; move: E2; rewrite /given_or (given_field p0 e Tc); case: ifP => _; first by move=> /em_tc_shape.
by case=> <-.
Qed.

Lemma psd_kf_model n m (o : kf R) T (M : lgm R n m) : psd_kf o T M -> psd_model M T.
Proof.
case=> Ho [Q HQ pQ] [Rc HR pR] pP; have Hp := kf_model_params Ho; split=> // t tT.
  by have := pm_tc Hp; rewrite (cov_is_tc Ho HQ) => /rep2_A2/(_ _ tT) ->.
by have := pm_oc Hp; rewrite (cov_is_oc Ho HR) => /rep2_A2/(_ _ tT) ->; exact: pd_psd.
Qed.

Lemma pd_kf_psd n m (o : kf R) T (M : lgm R n m) : pd_kf o T M -> psd_kf o T M.
Proof. by case=> Ho [Q HQ pQ] HR pP; split=> //; [exists Q => //; exact: pd_psd|exact: pd_psd]. Qed.

Lemma em_tc_mat n m (o : kf R) T (M : lgm R n m) (zs : seq (orow R m)) e N (Q : 'M[R]_n) (M' : lgm R n m) :
  kf_model o T M -> cov_is (k_tc o) Q -> (1 < T)%N -> keeps zs -> kf_model (kf_em o (O2 m zs) N (Some e)).1 T M' ->
  cov_is (k_tc (kf_em o (O2 m zs) N (Some e)).1) (mQ M' 0%N).
Proof.
move=> Hm HQ T1 Hk Hm'.
have T0' : (0 < T.-1)%N by case: (T) T1 => // -[].
have : is2 (p_tc (em_loop (@filter_ R) zs (mk_given (init_value o) e) N (init_value o)).1).
  have H : is2 (p_tc (init_value o)) by rewrite (cov_is_tc Hm HQ); do 3 eexists.
  exact: (em_loop_tc zs e N (@filter_flt_ok R) H H).
have E : k_tc (kf_em o (O2 m zs) N (Some e)).1 =
    Some (p_tc (em_loop (@filter_ R) zs (mk_given (init_value o) e) N (init_value o)).1).
  rewrite /kf_em /em_with (parse_keep Hk) (initialize_parametersE (km_rs Hm)).
  by case: (em_loop _ _ _ _ _).
case=> a [b [Z EZ]]; rewrite EZ in E; move: (km_tc Hm'); rewrite /cov_is E /attr [as_mat _]/=.
by case=> [[Z' H1 H2]|[s []]] //; rewrite (H2 0%N T0').
Qed.

(** positive definite covariances stay so unless the observation covariance is estimated *)
Lemma em_pd_model n m (o : kf R) T (M : lgm R n m) (zs : seq (orow R m)) e N mis y :
  kf_model o T M -> psd_model M T -> pd_model mis T M -> (0 < T)%N -> rows_of T mis y zs -> keeps zs -> ~ selects e Oc ->
  exists o' (M' : lgm R n m), [/\ kf_em o (O2 m zs) N (Some e) = (o', Ok tt), kf_model o' T M', psd_model M' T &
    pd_model mis T M'].
Proof.
move=> Ho HM Hpd T0 Hr Hk Hoc; have Hsz := size_rows Hr.
have Hk' : (T != 1%N) || (m <= 1)%N by rewrite -Hsz.
elim: N => [|N [o1 [M1 [E1 Ho1 HM1 Hpd1]]]].
  rewrite /kf_em /em_with parse_keep // (initialize_parametersE (km_rs Ho)) /=.
  exists (set_params o (init_value o)), M; split=> //.
  apply: set_model; [exact: km_n Ho|exact: km_m Ho|exact: km_rs Ho|exact: kf_model_params].
have [Sp [x [z [w [v Hob]]]]] := model_exists HM1.
have [o2 [E2 Ho2 _]] := kf_em_one Ho1 T0 Hr Hk' (Some e).
exists o2, (M_new o1 T M1 mis y (Some e)); split=> //.
- by rewrite -addn1 -(kf_em_compose _ (km_rs Ho) E1).
- apply: (em_psd (X := fun t => Xpost mis y Hob t)) => //; [exact: Xpost_mean|exact: Xpost_cov|exact: Xpost_lag].
- by apply: (em_pd Hob T0 Hpd1) => /sel_selects.
Qed.

Lemma em_pd_kf n m (o : kf R) T (M : lgm R n m) (zs : seq (orow R m)) e N :
  pd_kf o T M -> (1 < T)%N -> size zs = T -> keeps zs -> ~ selects e Oc ->
  exists M' : lgm R n m, pd_kf (kf_em o (O2 m zs) N (Some e)).1 T M'.
Proof.
move=> Ho T1 Hsz Hk N2; have T0 := ltnW T1; have Hps := psd_kf_model (pd_kf_psd Ho).
have [mis [y Hr]] := rows_any zs; rewrite Hsz in Hr.
case: Ho => Hm [Q HQ pQ] [Rc HR pR] pP.
have Hp := kf_model_params Hm.
have T0' : (0 < T.-1)%N by case: (T) T1 => // -[].
have Hpd : pd_model mis T M.
  split=> // t tT; first by have := pm_tc Hp; rewrite (cov_is_tc Hm HQ) => /rep2_A2/(_ _ tT) ->.
  by move=> _; have := pm_oc Hp; rewrite (cov_is_oc Hm HR) => /rep2_A2/(_ _ tT) ->.
have [o' [M' [E Hm' _ Hpd']]] := em_pd_model N Hm Hps Hpd T0 Hr Hk N2.
have Hm1 : kf_model (kf_em o (O2 m zs) N (Some e)).1 T M' by rewrite E.
exists M'; split; first exact: Hm1.
- by exists (mQ M' 0%N); [exact: (em_tc_mat Hm HQ T1 Hk Hm1)|exact: (pd_Q Hpd')].
- by exists Rc => //; exact: (em_fixed_oc zs Hm N N2 HR).
- exact: (pd_P Hpd').
Qed.

Lemma em_psd_kf n m (o : kf R) T (M : lgm R n m) (zs : seq (orow R m)) e N :
  psd_kf o T M -> (1 < T)%N -> size zs = T -> keeps zs -> ~ selects e Oc ->
  exists M' : lgm R n m, psd_kf (kf_em o (O2 m zs) N (Some e)).1 T M'.
Proof.
move=> Ho T1 Hsz Hk N2; have T0 := ltnW T1; have Hps := psd_kf_model Ho.
case: Ho => Hm [Q HQ pQ] [Rc HR pR] pP.
have [M' Hm' [pP' pQ' _]] := em_model_after T0 Hm Hps Hsz Hk e N; exists M'; split=> //; last first.
  by exists Rc => //; exact: (em_fixed_oc zs Hm N N2 HR).
have T0' : (0 < T.-1)%N by case: (T) T1 => // -[].
by exists (mQ M' 0%N); [exact: (em_tc_mat Hm HQ T1 Hk Hm')|exact: pQ'].
Qed.
End Em.
