(** BiermanKalmanFilter with integer arrays. *)
From Coq Require Import String List.
From mathcomp Require Import all_ssreflect all_algebra.
From mathcomp Require Import ring.
From Verif Require Import Prelude Zmod LinAlg Numpy NumpyFacts Sklearn Standard Model KfSpec StandardInit StandardFacts KfModelFacts KfOnline KfGlue
  SqrtSpec Sqrt SqrtFacts Bierman BiUdu BiFacts BiMain BiermanInt BiIntSpec Examples.
Import GRing.Theory Num.Theory Order.Theory.

Set Implicit Arguments.
Unset Strict Implicit.
Unset Printing Implicit Defensive.
Local Open Scope ring_scope.

Section Cast.
Variable R : rcfType.

(** such a conversion exists for every bound *)
Definition cut (B : nat) (x : R) : R := \sum_(0 <= i < B) ((i.+1%:R <= x)%R : nat)%:R.
Definition cast_of B (x : R) : R := if 0 <= x then cut B x else - cut B (- x).
Lemma cutE B k x : (k < B)%N -> k%:R <= x < k.+1%:R -> cut B x = k%:R.
Proof.
move=> kB /andP[k1 k2]; rewrite /cut (big_cat_nat _ _ _ (leq0n k) (ltnW kB)) /=.
have -> : \sum_(k <= i < B) ((i.+1%:R <= x)%R : nat)%:R = 0 :> R.
  rewrite big_nat_cond big1 // => i /andP[/andP[ki _] _]; rewrite lt_geF //; apply: (lt_le_trans k2); by rewrite ler_nat ltnS.
have -> : \sum_(0 <= i < k) ((i.+1%:R <= x)%R : nat)%:R = \sum_(0 <= i < k) 1 :> R.
  apply: eq_big_nat => i /andP[_ ik]; rewrite (_ : i.+1%:R <= x) //; apply: le_trans k1; by rewrite ler_nat.
by rewrite sumr_const_nat subn0 addr0.
Qed.
Lemma cast_of_ok B : int_cast B (cast_of B).
Proof.
split=> k x kB Hx; have x0 : 0 <= x by case/andP: Hx => H _; apply: le_trans H; rewrite ler0n.
  by rewrite /cast_of x0 (cutE kB).
rewrite /cast_of oppr_ge0; case: ifP => [xn|_]; last by rewrite opprK (cutE kB).
have E : x = 0 by apply/eqP; rewrite eq_le xn x0.
move: Hx; rewrite E oppr0; case: k kB => [|k] kB.
  by move=> H; rewrite (cutE kB H) oppr0.
by rewrite (lt_geF (ltr0Sn _ _)).
Qed.

Lemma castK B trunc (k : nat) : @int_cast R B trunc -> (k < B)%N -> trunc k%:R = k%:R.
Proof. by case=> H _ kB; apply: (H k) => //; rewrite lexx ltr_nat ltnSn. Qed.
Lemma castKN B trunc (k : nat) : @int_cast R B trunc -> (k < B)%N -> trunc (- k%:R) = - k%:R.
Proof. by case=> _ H kB; apply: (H k) => //; rewrite lexx ltr_nat ltnSn. Qed.
End Cast.

(** ** two states *)
Section Two.
Variables (R : rcfType) (trunc : R -> R).
Implicit Types P : 'M[R]_2.
Let z := (0 : 'I_2).
Let o := (1 : 'I_2).

Lemma core2 (tr : R -> R) P : P o o > 0 ->
  udu_core_int tr P = (mset 1%:M 0 1 ((P o o)^-1 * P z o),
                       vset (vset 0 1 (P o o)) 0 (tr (P z z - P z o * ((P o o)^-1 * P z o)))).
Proof.
move=> c0; rewrite /udu_core_int [rev _]/= /udu_outer_int /=.
have E11 : mget (triu P) 1 1 = P o o by rewrite (mgetE (triu P) o o) mxE.
have E01 : mget (triu P) 0 1 = P z o by rewrite (mgetE (triu P) z o) mxE.
rewrite E11 c0 E01; congr (_, vset _ _ _).
rewrite (mgetE _ z z) mxE /= -[mget _ (nat_of_ord z) 1]/(mget _ z o) (mgetE _ z o) !mxE /=; by [].
Qed.
Lemma core_id n (M : 'M[R]_n) : udu_core_int id M = udu_core M. Proof. by []. Qed.

Lemma sym2T (a b c : R) : (sym2 a b c)^T = sym2 a b c.
Proof. by apply/matrixP=> i j; rewrite !mxE; case: (i == 0); case: (j == 0). Qed.
Lemma sym2_close (a b c : R) : [forall i, [forall j, isclose (sym2 a b c i j) (sym2 a b c j i)]].
Proof. by apply/forallP=> i; apply/forallP=> j; rewrite (_ : sym2 a b c j i = sym2 a b c i j) ?isclose_refl //; rewrite !mxE andbC orbC. Qed.

Lemma udu_int2 (a b c : R) : 0 < c ->
  udu_int trunc (A2 (sym2 a b c)) =
  udu (A2 (sym2 (trunc (a - b * (c^-1 * b)) + b * (c^-1 * b)) b c)).
Proof.
move=> c0; rewrite /udu_int /udu !eqxx !as_squareE !sym2_close.
by rewrite -core_id !core2 ?mxE //= addrK.
Qed.
End Two.

(** ** the class behaves as if given another matrix *)
Section Misread.
Variables (R : rcfType) (trunc : R -> R).

Definition with_ic (p : kfparams R) a : kfparams R :=
  KFParams (p_tm p) (p_to p) (p_tc p) (p_om p) (p_oo p) (p_oc p) (p_im p) a.
Definition with_om (p : kfparams R) a : kfparams R :=
  KFParams (p_tm p) (p_to p) (p_tc p) a (p_oo p) (p_oc p) (p_im p) (p_ic p).
Lemma bi_loop_ic p a C d u0 n k t prev (zs : seq (orow R k)) :
  bi_loop (with_ic p a) C d u0 n t prev zs = bi_loop p C d u0 n t prev zs.
Proof.
elim: zs t prev => [|z zs IH] t prev //=; rewrite -[bi_step (with_ic _ _) _ _ _ _ _ _ _]/(bi_step p C d u0 n t prev z).
by case: (bi_step _ _ _ _ _ _ _ _) => // r; rewrite !bindOk IH.
Qed.
Lemma bi_loop_om p a C d u0 n k t prev (zs : seq (orow R k)) :
  bi_loop (with_om p a) C d u0 n t prev zs = bi_loop p C d u0 n t prev zs.
Proof.
elim: zs t prev => [|z zs IH] t prev //=; rewrite -[bi_step (with_om _ _) _ _ _ _ _ _ _]/(bi_step p C d u0 n t prev z).
by case: (bi_step _ _ _ _ _ _ _ _) => // r; rewrite !bindOk IH.
Qed.
Lemma loglik_loop_ic ln ln2pi p a k t rows (zs : seq (orow R k)) :
  loglik_loop ln ln2pi (with_ic p a) t rows zs = loglik_loop ln ln2pi p t rows zs.
Proof.
elim: zs t rows => [|z zs IH] t [|r rows] //=; rewrite -[loglik_step _ _ (with_ic _ _) _ _ _]/(loglik_step ln ln2pi p t r z).
by case: (loglik_step _ _ _ _ _ _) => // l; rewrite !bindOk IH.
Qed.

Lemma flt_ic (o : kf R) (P P' : 'M[R]_(k_n o)) k (zs : seq (orow R k)) : k_ic o = Some (A2 P) ->
  udu_int trunc (A2 P) = udu (A2 P') ->
  bi_flt_int trunc true false (init_value o) zs = bi_flt (init_value (set_ic o (A2 P'))) zs.
Proof.
move=> E1 E2; rewrite /bi_flt_int /bi_filter_int; have -> : p_ic (init_value o) = A2 P by rewrite /init_value E1.
rewrite E2 /bi_flt -[init_value (set_ic _ _)]/(with_ic (init_value o) (A2 P')) /bi_filter_.
apply: (f_equal (fun x => bind x _)); apply: bind_ext => n; apply: bind_ext => u0; apply: bind_ext => Ri.
by apply: bind_ext => C; apply: bind_ext => d; apply: bind_ext => l; rewrite bi_loop_ic.
Qed.

Lemma misread_ic (o : kf R) (P P' : 'M[R]_(k_n o)) X : seed_ok (k_rs o) -> k_ic o = Some (A2 P) ->
  udu_int trunc (A2 P) = udu (A2 P') ->
  [/\ bkf_filter_int trunc true false o X = bkf_filter (set_ic o (A2 P')) X,
      bkf_smooth_int trunc true false o X = bkf_smooth (set_ic o (A2 P')) X &
      forall ln ln2pi, bkf_loglikelihood_int trunc true false ln ln2pi o X = bkf_loglikelihood ln ln2pi (set_ic o (A2 P')) X].
Proof.
move=> Hs E1 E2; have Hs' : seed_ok (k_rs (set_ic o (A2 P'))) by [].
split=> [||ln ln2pi];
  [rewrite /bkf_filter_int /bkf_filter /filter_with|rewrite /bkf_smooth_int /bkf_smooth /smooth_with|
   rewrite /bkf_loglikelihood_int /bkf_loglikelihood /loglikelihood_with];
  rewrite (initialize_parametersE Hs) (initialize_parametersE Hs'); case: (parse_observations X) => k zs;
  rewrite !bindOk (flt_ic zs E1 E2); [exact: erefl|exact: erefl|].
apply: bind_ext => rows; by rewrite -[init_value (set_ic _ _)]/(with_ic (init_value o) (A2 P')) loglik_loop_ic.
Qed.
End Misread.

(** ** counterexample: initial covariance [[2, 1], [1, 2]] *)
Section Refute.
Variables (R : rcfType) (B : nat) (trunc : R -> R).
Hypothesis B2 : (2 < B)%N.
Hypothesis Htr : int_cast B trunc.

Lemma two0 : (2%:R : R) != 0. Proof. by rewrite pnatr_eq0. Qed.
Lemma half : 2%:R^-1 + 2%:R^-1 = 1 :> R.
Proof. by rewrite -mulr2n -[_ *+ 2]mulr_natr mulVf ?two0. Qed.
Lemma half_gt0 : 0 < 2%:R^-1 :> R. Proof. by rewrite invr_gt0 ltr0n. Qed.
Lemma half_lt1 : 2%:R^-1 < 1 :> R. Proof. by rewrite invf_lt1 ?ltr0n // ltr1n. Qed.

Definition iP : 'M[R]_2 := sym2 2%:R 1 2%:R.
Definition iP' : 'M[R]_2 := sym2 (1 + 2%:R^-1) 1 2%:R.
Definition iM (P : 'M[R]_2) : lgm R 2 1 :=
  LGM (fun=> 1%:M) (fun=> 0) (fun=> 1%:M) (fun=> const_mx 1) (fun=> 0) (fun=> 1%:M) 0 P.
Definition i_o (P : 'M[R]_2) : kf R :=
  KF None (Some (A2 (const_mx 1 : 'M[R]_(1, 2)))) None None None None None (Some (A2 P)) None None 2 1
     (EmNames default_em_vars).

Lemma ones_sym2 : (const_mx 1 : 'cV[R]_2) *m (const_mx 1 : 'cV[R]_2)^T = sym2 1 1 1.
Proof. by apply/matrixP=> i j; rewrite !mxE big_ord1 !mxE mulr1; case: (i == 0); case: (j == 0). Qed.
Lemma iP_pd : pd iP.
Proof.
have -> : iP = sym2 1 1 1 + 1%:M.
  apply/matrixP=> i j; rewrite !mxE; case: i => [[|[|//]]] hi; case: j => [[|[|//]]] hj; rewrite /= ?addr0 //.
by rewrite -ones_sym2; apply: pdD; [exact: psd_gram|exact: pd1].
Qed.
Lemma iP'_pd : pd iP'.
Proof.
have -> : iP' = (sym2 1 1 1 + 2%:R^-1 *: ((e1 R) *m (e1 R)^T)) + 2%:R^-1 *: 1%:M.
  apply/matrixP=> i j; rewrite !mxE !big_ord1 !mxE.
  case: i => [[|[|//]]] hi; case: j => [[|[|//]]] hj; rewrite /= ?mul0r ?mulr0 ?mulr1 ?addr0 //.
  by rewrite -addrA half.
apply: pdD; last by apply: pdZ; [exact: half_gt0|exact: pd1].
rewrite -ones_sym2; apply: psdD; first exact: psd_gram.
by apply: psdZ; [exact: ltW half_gt0|exact: psd_gram].
Qed.

Lemma iP_read : udu_int trunc (A2 iP) = udu (A2 iP').
Proof.
rewrite /iP udu_int2 ?ltr0n // mulr1 mul1r.
have -> : trunc (2%:R - 2%:R^-1) = 1.
  apply: (Htr.1 1%N); first exact: ltn_trans B2.
  rewrite (_ : 2%:R - 2%:R^-1 = 1 + 2%:R^-1); last first.
    rewrite {1}(_ : 2%:R = 1 + (2%:R^-1 + 2%:R^-1) :> R); last by rewrite half.
    by move: (2%:R^-1 : R) => x; ring.
  by rewrite ler_addl (ltW half_gt0) mulr2n ltr_add2l half_lt1.
exact: erefl.
Qed.

Lemma i_model P T : kf_model (i_o P) T (iM P).
Proof. by split=> //; left; exists (const_mx 1). Qed.
Lemma i_psd P T : psd P -> psd_kf (i_o P) T (iM P).
Proof. by move=> HP; split=> //; [exact: i_model|exists 1%:M => //; exact: psd1|exists 1%:M => //; exact: pd1]. Qed.

Let zs1 : seq (orow R 1) := [:: mk_row true 0].
Lemma i_row P : kf_filter (i_o P) (O2 1 zs1) = Ok [:: (A1 (0 : 'cV[R]_2), A2 P)].
Proof.
have Hsz : size zs1 = 1%N by [].
rewrite (kf_filter_ok (i_model P 1) Hsz (keepsT Hsz (erefl : keeps zs1))) [iota 0 1]/= [map _ _]/=.
have E : filt (iM P) (stream zs1) 0 = (0, P).
  rewrite /filt /correct (_ : stream zs1 0 = None); first exact: erefl.
  by rewrite /stream /= missing_row.
by rewrite E.
Qed.

Lemma iP_int : int_entries B iP.
Proof.
move=> i j; rewrite /iP mxE; case: ifP => _; first by exists 2%N; split=> //; left.
by case: ifP => _; [exists 1%N; split; [exact: ltn_trans B2|left]|exists 2%N; split=> //; left].
Qed.

Lemma int_ic_refuted : exists (o : kf R) (M : lgm R 2 1) (zs : seq (orow R 1)) rows rows',
  [/\ psd_kf o 1 M /\ pd (mP M), k_ic o = Some (A2 (mP M)) /\ int_entries B (mP M), size zs = 1%N,
      kf_filter o (O2 1 zs) = Ok rows &
      bkf_filter_int trunc true false o (O2 1 zs) = Ok rows' /\ rows <> rows'].
Proof.
have [E _ _] := misread_ic (O2 1 zs1) (I : seed_ok (k_rs (i_o iP))) (erefl : k_ic (i_o iP) = Some (A2 iP)) iP_read.
have [E' _ _] := bi_equal (isT : (0 < 2)%N) (isT : (0 < 1)%N) (i_psd 1 (pd_psd iP'_pd)) (erefl : size zs1 = 1%N) (erefl : keeps zs1).
exists (i_o iP), (iM iP), zs1, [:: (A1 (0 : 'cV[R]_2), A2 iP)], [:: (A1 (0 : 'cV[R]_2), A2 iP')]; split.
- by split; [exact: i_psd (pd_psd iP_pd)|exact: iP_pd].
- by split; [exact: erefl|exact: iP_int].
- exact: erefl.
- exact: i_row.
split; first by rewrite E -[set_ic _ _]/(i_o iP') E' i_row.
move=> H; have E2 : A2 iP = A2 iP' := f_equal (fun l => (head (A1 (0 : 'cV[R]_2), A2 iP) l).2) H.
have /matrixP /(_ 0 0) := A2_inj E2.
rewrite !mxE /= mulr2n => /addrI /eqP; by rewrite eq_sym (lt_eqF half_lt1).
Qed.
End Refute.

(** ** diagonal integer covariances are read correctly *)
Section Diag.
Variables (R : rcfType) (B : nat) (trunc : R -> R).
Hypothesis Htr : int_cast B trunc.

Local Notation dg := (@diagonal R _).
Lemma trunc_entries n (M : 'M[R]_n) i j : int_entries B M -> trunc (M i j) = M i j.
Proof. by move=> H; have [k [kB [->|->]]] := H i j; [exact: castK Htr kB|exact: castKN Htr kB]. Qed.

Lemma inner_diag n (j k : nat) alpha (M U : 'M[R]_n) : int_entries B M -> dg M -> (0 < k < j)%N ->
  udu_inner_int trunc j alpha (M, U) k = (M, mset U k.-1 j.-1 0) /\
  udu_inner_int id j alpha (M, U) k = (M, mset U k.-1 j.-1 0).
Proof.
move=> HI HD /andP[k0 kj].
have b0 : mget M k.-1 j.-1 = 0.
  rewrite /mget; case: insubP => // a _ ea; case: insubP => // b _ eb.
  apply: HD; rewrite -val_eqE /= ea eb; case: k j k0 kj {ea eb} => [|k] [|j] //= _.
  by rewrite ltnS => /ltn_eqF ->.
rewrite /udu_inner_int b0 mulr0; split; congr (_, _); apply/matrixP=> a b; rewrite mxE; case: ifP => // _;
  by rewrite mul0r subr0 ?(trunc_entries _ _ HI).
Qed.
Local Arguments udu_inner_int : simpl never.
Lemma fold_diag n (j : nat) alpha (M U : 'M[R]_n) l : int_entries B M -> dg M -> all (fun k => 0 < k < j)%N l ->
  foldl (udu_inner_int trunc j alpha) (M, U) l = foldl (udu_inner_int id j alpha) (M, U) l /\
  (foldl (udu_inner_int id j alpha) (M, U) l).1 = M.
Proof.
move=> HI HD; elim: l U => [|k l IH] U //= /andP[hk hl].
by have [-> ->] := inner_diag alpha U HI HD hk; exact: IH.
Qed.
Lemma outer_diag n (M U : 'M[R]_n) d l : int_entries B M -> dg M ->
  foldl (@udu_outer_int R trunc n) (M, U, d) l = foldl (@udu_outer_int R id n) (M, U, d) l /\
  (foldl (@udu_outer_int R id n) (M, U, d) l).1.1 = M.
Proof.
move=> HI HD; elim: l U d => [|j l IH] U d //=.
set alpha := if _ then _ else _.
have Hall : all (fun k => 0 < k < j)%N (iota 1 j.-1).
  by apply/allP=> k; rewrite mem_iota => /andP[k0]; case: j {alpha} => [|j] //=; rewrite ?add1n k0 //; case: (k) k0.
have [E1 E2] := fold_diag alpha U HI HD Hall; rewrite E1; move: E2; case: (foldl _ _ _) => M' U' /= ->.
exact: IH.
Qed.
Lemma triu_diag n (M : 'M[R]_n) : dg M -> triu M = M.
Proof.
move=> HD; apply/matrixP=> i j; rewrite mxE; case: ifP => // ij; rewrite HD //.
by apply/eqP=> E; move: ij; rewrite E leqnn.
Qed.
Lemma core_diag n (M : 'M[R]_n) : int_entries B M -> dg M -> udu_core_int trunc M = udu_core M.
Proof.
move=> HI HD; rewrite -core_id /udu_core_int triu_diag //.
by have [-> _] := outer_diag 1%:M 0 (rev (iota 2 n.-1)) HI HD.
Qed.
Lemma udu_diag n (M : 'M[R]_n) : int_entries B M -> dg M -> udu_int trunc (A2 M) = udu (A2 M).
Proof. by move=> HI HD; rewrite /udu_int /udu eqxx !as_squareE core_diag. Qed.

(** one state: always diagonal *)
Lemma dg1 (M : 'M[R]_1) : dg M. Proof. by move=> i j; rewrite !ord1. Qed.

Lemma set_ic_id (o : kf R) a : k_ic o = Some a -> set_ic o a = o.
Proof. by case: o => /= *; subst. Qed.
Lemma diag_right (o : kf R) (P : 'M[R]_(k_n o)) X : seed_ok (k_rs o) -> k_ic o = Some (A2 P) -> int_entries B P -> dg P ->
  [/\ bkf_filter_int trunc true false o X = bkf_filter o X,
      bkf_smooth_int trunc true false o X = bkf_smooth o X &
      forall ln ln2pi, bkf_loglikelihood_int trunc true false ln ln2pi o X = bkf_loglikelihood ln ln2pi o X].
Proof. by move=> Hs E HI HD; have := misread_ic X Hs E (udu_diag HI HD); rewrite (set_ic_id E). Qed.
End Diag.

(** ** observation matrices *)
Section ObsMat.
Variables (R : rcfType) (trunc : R -> R).

(** a single integer observation matrix is not filled in place *)
Lemma single_om (o : kf R) m n (C : 'M[R]_(m, n)) ic_int X : seed_ok (k_rs o) -> k_om o = Some (A2 C) ->
  [/\ bkf_filter_int trunc ic_int true o X = bkf_filter_int trunc ic_int false o X,
      bkf_smooth_int trunc ic_int true o X = bkf_smooth_int trunc ic_int false o X &
      forall ln ln2pi, bkf_loglikelihood_int trunc ic_int true ln ln2pi o X = bkf_loglikelihood_int trunc ic_int false ln ln2pi o X].
Proof.
move=> Hs E.
have F k (zs : seq (orow R k)) : bi_flt_int trunc ic_int true (init_value o) zs = bi_flt_int trunc ic_int false (init_value o) zs.
  by rewrite /bi_flt_int /bi_filter_int; have -> : p_om (init_value o) = A2 C by rewrite /init_value E.
split=> [||ln ln2pi];
  [rewrite /bkf_filter_int /filter_with|rewrite /bkf_smooth_int /smooth_with|
   rewrite /bkf_loglikelihood_int /loglikelihood_with];
  rewrite (initialize_parametersE Hs); case: (parse_observations X) => k zs; by rewrite !bindOk F.
Qed.

Lemma misread_om (o : kf R) m n m' n' (Rc : 'M[R]_m) (Ri : arr R) (s : seq 'M[R]_(m, n)) (s' : seq 'M[R]_(m', n')) X : seed_ok (k_rs o) ->
  k_oc o = Some (A2 Rc) -> k_om o = Some (A3 s) ->
  deco_factor (A2 Rc) = Ok Ri -> deco_mat_int trunc Ri (A3 s) = deco_mat Ri (A3 s') ->
  bkf_filter_int trunc false true o X = bkf_filter (set_om o (A3 s')) X /\
  bkf_smooth_int trunc false true o X = bkf_smooth (set_om o (A3 s')) X.
Proof.
move=> Hs Eoc Eom ER EC; have Hs' : seed_ok (k_rs (set_om o (A3 s'))) by [].
have F k (zs : seq (orow R k)) : bi_flt_int trunc false true (init_value o) zs = bi_flt (init_value (set_om o (A3 s'))) zs.
  rewrite /bi_flt_int /bi_filter_int; have -> : p_om (init_value o) = A3 s by rewrite /init_value Eom.
  rewrite /bi_flt -[init_value (set_om _ _)]/(with_om (init_value o) (A3 s')) /bi_filter_.
  apply: (f_equal (fun x => bind x _)); apply: bind_ext => l; apply: bind_ext => u0.
  have -> : p_oc (with_om (init_value o) (A3 s')) = A2 Rc by rewrite /init_value /with_om Eoc.
  have -> : p_oc (init_value o) = A2 Rc by rewrite /init_value Eoc.
  rewrite ER !bindOk EC.
  by apply: bind_ext => C; apply: bind_ext => d; apply: bind_ext => l'; rewrite bi_loop_om.
split; [rewrite /bkf_filter_int /bkf_filter /filter_with|rewrite /bkf_smooth_int /bkf_smooth /smooth_with];
  rewrite (initialize_parametersE Hs) (initialize_parametersE Hs'); case: (parse_observations X) => k zs; by rewrite !bindOk F.
Qed.
End ObsMat.

(** ** counterexample: observation matrices [[[1]], [[1]]], observation covariance [[4]] *)
Section RefuteOm.
Variables (R : rcfType) (B : nat) (trunc : R -> R).
Hypothesis B2 : (2 < B)%N.
Hypothesis Htr : int_cast B trunc.

Lemma trunc_small x : x ^+ 2 * 4%:R = 1 -> trunc x = 0.
Proof.
move=> E; have B0 : (0 < B)%N by case: (B) B2.
have H (y : R) : 0 <= y -> y ^+ 2 * 4%:R = 1 -> 0%:R <= y < 1%:R.
  move=> y0 Ey; apply/andP; split; first exact: y0.
  rewrite real_ltNge ?num_real //; apply/negP=> y1.
  have : 1 * 4%:R <= y ^+ 2 * 4%:R by rewrite ler_pmul2r ?ltr0n // -(expr1n _ 2) ler_expn2r ?nnegrE ?ler01.
  by rewrite Ey mul1r -[1]/(1%:R) ler_nat.
case: (lerP 0 x) => x0; first by rewrite (Htr.1 0%N x B0 (H x x0 E)).
by rewrite -(opprK x) (Htr.2 0%N (- x) B0) ?oppr0 //; apply: H; rewrite ?oppr_ge0 ?ltW // sqrrN.
Qed.

Definition jM (c : R) : lgm R 1 1 :=
  LGM (fun=> 1%:M) (fun=> 0) (fun=> 1%:M) (fun=> c%:M) (fun=> 0) (fun=> 4%:R%:M) 0 1%:M.
Definition j_o (c : R) : kf R :=
  KF None (Some (A3 [:: c%:M : 'M[R]_1; c%:M])) None (Some (A2 (4%:R%:M : 'M[R]_1))) None None None None None None 1 1
     (EmNames default_em_vars).
Lemma four_pd : pd (4%:R%:M : 'M[R]_1).
Proof. by rewrite -scalemx1; apply: pdZ; [rewrite ltr0n|exact: pd1]. Qed.
Lemma j_model c : kf_model (j_o c) 2 (jM c).
Proof.
split=> //; last by left; exists (4%:R%:M).
by right; exists [:: c%:M; c%:M]; split=> //; case=> [|[|]].
Qed.
Lemma j_psd c : psd_kf (j_o c) 2 (jM c).
Proof. by split=> //; [exact: j_model|exists 1%:M => //; exact: psd1|exists 4%:R%:M => //; exact: four_pd|exact: psd1]. Qed.

Let zs2 : seq (orow R 1) := [:: mk_row false 0; mk_row true 0].
Lemma j_row c : exists rows, kf_filter (j_o c) (O2 1 zs2) = Ok ((A1 (filt (jM c) (stream zs2) 0).1, A2 (filt (jM c) (stream zs2) 0).2) :: rows).
Proof. by eexists; exact: (kf_filter_ok (j_model c) (erefl : size zs2 = 2%N) (keepsT (erefl : size zs2 = 2%N) (erefl : keeps zs2))). Qed.
Lemma j_obs : stream zs2 0 = Some 0. Proof. by rewrite /stream /= missing_row. Qed.
Lemma j_filt0 : (filt (jM 0) (stream zs2) 0).2 = 1%:M.
Proof. by rewrite /filt /correct j_obs /= (_ : 0%:M = 0 :> 'M[R]_1) ?raddf0 // mul0mx mulmx0 subr0. Qed.
Lemma j_filt1 : (filt (jM 1) (stream zs2) 0).2 <> 1%:M.
Proof.
rewrite /filt /correct j_obs /= mulmx1 /gain /innov_cov /= tr_scalar_mx !mul1mx => /eqP.
rewrite mulmx1 -subr_eq0 addrAC subrr add0r oppr_eq0 => /eqP E.
have pS : pd (1%:M + 4%:R%:M : 'M[R]_1) by apply: pdD; [exact: psd1|exact: four_pd].
have uS := pd_unit pS; move: E; rewrite pinv_unit // => E.
have := mulmxV uS; rewrite E mulmx0 => /eqP; by rewrite eq_sym oner_eq0.
Qed.

Lemma one_int c : c = 0 \/ c = 1 -> int_entries B (c%:M : 'M[R]_1).
Proof.
move=> H i j; rewrite !ord1 mxE eqxx mulr1n; case: H => ->.
  by exists 0%N; split; [case: (B) B2|left].
by exists 1%N; split; [exact: ltn_trans B2|left].
Qed.

Lemma int_om_refuted : exists (o : kf R) (M : lgm R 1 1) (s : seq 'M[R]_1) (zs : seq (orow R 1)) rows rows',
  [/\ psd_kf o 2 M /\ pd (mP M), k_om o = Some (A3 s) /\ (forall C, C \in s -> int_entries B C), size zs = 2%N,
      kf_filter o (O2 1 zs) = Ok rows &
      bkf_filter_int trunc false true o (O2 1 zs) = Ok rows' /\ rows <> rows'].
Proof.
have [L [EL uL LL]] := deco_factorE four_pd.
have EC : deco_mat_int trunc (A2 (invmx L)) (A3 [:: 1%:M : 'M[R]_1; 1%:M]) = deco_mat (A2 (invmx L)) (A3 [:: 0%:M : 'M[R]_1; 0%:M]).
  have Z : (invmx L) 0 0 ^+ 2 * 4%:R = 1.
    have E4 : L 0 0 ^+ 2 = 4%:R by move/matrixP/(_ 0 0): LL; rewrite !mxE big_ord1 !mxE eqxx mulr1n expr2.
    have E1 : invmx L 0 0 * L 0 0 = 1 by have /matrixP/(_ 0 0) := mulVmx uL; rewrite !mxE big_ord1.
    by rewrite -E4 -exprMn E1 expr1n.
  rewrite /deco_mat_int /deco_mat !(@mapr_map _ _ _ (fun X => A2 (invmx L *m X)));
    try by move=> Y; rewrite dot22 bO assign2E.
  rewrite !bO [map _ _]/= [in RHS]/=.
  have -> : (0%:M : 'M[R]_1) = 0 by rewrite raddf0.
  rewrite mulmx1 mulmx0.
  have -> : (\matrix_(i < 1, j < 1) trunc (aget (A2 (invmx L)) i j) : 'M[R]_1) = \matrix_(i < 1, j < 1) aget (A2 (0 : 'M[R]_1)) i j.
    by apply/matrixP=> i j; rewrite !mxE /aget !mgetE !mxE !ord1 trunc_small.
  exact: erefl.
have [E _] := misread_om (O2 1 zs2) (I : seed_ok (k_rs (j_o 1))) (erefl : k_oc (j_o 1) = Some (A2 (4%:R%:M : 'M[R]_1)))
  (erefl : k_om (j_o 1) = Some (A3 [:: 1%:M : 'M[R]_1; 1%:M])) EL EC.
have [E' _ _] := bi_equal (isT : (0 < 1)%N) (isT : (0 < 2)%N) (j_psd 0) (erefl : size zs2 = 2%N) (erefl : keeps zs2).
have [r1 H1] := j_row 1; have [r0 H0] := j_row 0.
exists (j_o 1), (jM 1), [:: 1%:M; 1%:M], zs2; do 2!eexists; split.
- by split; [exact: j_psd|exact: pd1].
- split; first exact: erefl.
  by move=> C; rewrite !inE orbb => /eqP ->; apply: one_int; right.
- exact: erefl.
- exact: H1.
split; first by rewrite E -[set_om _ _]/(j_o 0) E' H0.
move=> H; have E2 := f_equal (fun l => (head (A1 (0 : 'cV[R]_1), A2 (0 : 'M[R]_1)) l).2) H.
by apply: j_filt1; rewrite (A2_inj E2) j_filt0.
Qed.
End RefuteOm.

(** ** instances *)
Section Witness.
Variable R : rcfType.
Definition w_ic (P : 'M[R]_2) : kf R :=
  KF (Some (A2 (const_mx 1 : 'M[R]_2))) None None None None None None (Some (A2 P)) None None 2 2 (EmNames default_em_vars).
Definition w_P : 'M[R]_2 := sym2 3%:R 0 (- 1).
Lemma w_P_int : int_entries 4 w_P.
Proof.
move=> i j; rewrite /w_P mxE; case: ifP => _; first by exists 3%N; split=> //; left.
by case: ifP => _; [exists 0%N; split=> //; left|exists 1%N; split=> //; right].
Qed.
Lemma w_P_diag : diagonal w_P.
Proof. by move=> i j; rewrite mxE; case: i => [[|[|//]]] hi; case: j => [[|[|//]]] hj. Qed.
End Witness.
