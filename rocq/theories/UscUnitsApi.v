(** Units and order of the state components: API level, and a witness. *)
From Coq Require Import String List.
From mathcomp Require Import all_ssreflect all_algebra.
From mathcomp Require Import ring.
From Verif Require Import Prelude Zmod LinAlg Numpy NumpyFacts Sklearn Standard Model KfSpec StandardInit StandardFacts
  EmSpec KfGlue Rng Unscented UscSpec UscFacts UscRefine UscLoop UscInit UscMain UscPsd UscOnline UscProps CuFacts SuTri UnitsSpec UscUnits
  Examples ExamplesEm ExamplesUsc BiMain KfMoreGlue.
Import GRing.Theory Num.Theory Order.Theory.

Set Implicit Arguments.
Unset Strict Implicit.
Unset Printing Implicit Defensive.
Local Open Scope ring_scope.

Section Add.
Variables (R : rcfType) (n m : nat) (o o' : ukf R) (T : nat).
Variables (f f' : nat -> 'cV[R]_n -> 'cV[R]_n) (g g' : nat -> 'cV[R]_n -> 'cV[R]_m).
Variables (Q : 'M[R]_n) (Rn : 'M[R]_m) (mu0 : 'cV[R]_n) (P0 : 'M[R]_n) (G : 'M[R]_n) (h : 'cV[R]_n).
Hypotheses (HM : aukf_model o T f g Q Rn mu0 P0)
  (HM' : aukf_model o' T f' g' (G *m Q *m G^T) Rn (G *m mu0 + h) (G *m P0 *m G^T)).
Hypotheses (HG : units G) (SQ : Q^T = Q) (SR : Rn^T = Rn) (SP : P0^T = P0).
Hypotheses (Hf : forall t x, (t < T.-1)%N -> f' t (G *m x + h) = G *m f t x + h).
Hypotheses (Hg : forall t x, (t < T)%N -> g' t (G *m x + h) = g t x).
Variables (zs : seq (orow R m)) (Hsz : size zs = T) (Hk : keeps zs).
Let F := add_filt Q Rn mu0 P0 f g (stream zs).

Lemma aukf_filter_units : same_in_units G h T (aukf_filter o (O2 m zs)) (aukf_filter o' (O2 m zs)).
Proof.
rewrite (aukf_filterE HM Hsz Hk) (aukf_filterE HM' Hsz Hk); apply: mapr_units => t tT.
exact: (add_filt_units mu0 HG SQ SR SP Hf Hg).
Qed.
Lemma mapr_some (A : nat -> option ('cV[R]_n * 'M[R]_n)) l : (forall t, t \in l -> isSome (A t)) \/
  mapr (fun t => lift_o (A t)) l = Err LinAlgError.
Proof.
elim: l => [|a l [IH|IH]]; first by left.
  by case E: (A a) => [s|]; [left=> t; rewrite inE => /orP[/eqP ->|/IH //]; rewrite E|right; rewrite mapr_cons E].
by right; rewrite mapr_cons IH; case: (A a).
Qed.
Lemma aukf_smooth_units : (0 < T)%N -> same_in_units G h T (aukf_smooth o (O2 m zs)) (aukf_smooth o' (O2 m zs)).
Proof.
move=> T0; case: (mapr_some F (iota 0 T)) => [HF|EF]; last first.
  left; have E1 := aukf_filterE HM Hsz Hk; rewrite EF in E1.
  have E2 : aukf_filter o' (O2 m zs) = Err LinAlgError.
    by case: aukf_filter_units => [[]//|[a [b []]]]; rewrite E1.
  by split; rewrite /aukf_smooth ?(um_init _ HM) ?(um_init _ HM') bO ?E1 ?E2.
pose x t := odflt (0, 0) (F t).
have Hx t : (t < T)%N -> F t = Some (x t).
  by move=> tT; have := HF t; rewrite mem_iota /x => /(_ tT); case: (F t).
have Hx' t : (t < T)%N -> add_filt (G *m Q *m G^T) Rn (G *m mu0 + h) (G *m P0 *m G^T) f' g' (stream zs) t = Some (recoord G h (x t)).
  by move=> tT; rewrite (add_filt_units mu0 HG SQ SR SP Hf Hg) // -/F Hx.
rewrite (aukf_smoothE HM Hsz Hk T0 Hx) (aukf_smoothE HM' Hsz Hk T0 Hx'); apply: mapr_units => t tT.
apply: (add_backs_units HG SQ SR Hf Hx); rewrite subnKC; last by rewrite -ltnS prednK.
by rewrite prednK.
Qed.
End Add.

Section Aug.
Variables (R : rcfType) (n m : nat) (o o' : ukf R) (T : nat).
Variables (f f' : nat -> 'cV[R]_n -> 'cV[R]_n -> 'cV[R]_n) (g g' : nat -> 'cV[R]_n -> 'cV[R]_m -> 'cV[R]_m).
Variables (Q : 'M[R]_n) (Rn : 'M[R]_m) (mu0 : 'cV[R]_n) (P0 : 'M[R]_n) (G H : 'M[R]_n) (K : 'M[R]_m) (h : 'cV[R]_n).
Hypotheses (HM : ukf_model o T f g Q Rn mu0 P0)
  (HM' : ukf_model o' T f' g' (H *m Q *m H^T) (K *m Rn *m K^T) (G *m mu0 + h) (G *m P0 *m G^T)).
Hypotheses (HG : units G) (HH : units H) (HK : units K) (SQ : Q^T = Q) (SR : Rn^T = Rn) (SP : P0^T = P0).
Hypotheses (Hf : forall t x w, (t < T.-1)%N -> f' t (G *m x + h) (H *m w) = G *m f t x w + h).
Hypotheses (Hg : forall t x v, (t < T)%N -> g' t (G *m x + h) (K *m v) = g t x v).
Variables (zs : seq (orow R m)) (Hsz : size zs = T) (Hk : keeps zs).
Lemma ukf_filter_units : same_in_units G h T (ukf_filter o (O2 m zs)) (ukf_filter o' (O2 m zs)).
Proof.
rewrite (ukf_filterE HM Hsz Hk) (ukf_filterE HM' Hsz Hk); apply: mapr_units => t tT.
exact: (aug_filt_units mu0 HG HH HK SQ SR SP Hf Hg).
Qed.
End Aug.

(** ** linear models: any coordinates *)
Section Lin.
Variables (R : rcfType) (n m : nat) (M : lgm R n m) (o o' : ukf R) (T : nat) (G : 'M[R]_n) (h : 'cV[R]_n).
Variables (Q : 'M[R]_n) (Rn : 'M[R]_m).
Hypotheses (UG : G \in unitmx) (EQ : forall t, (t < T.-1)%N -> mQ M t = Q) (ER : forall t, (t < T)%N -> mR M t = Rn).
Notation M' := (coord_model M G h).
Hypotheses (HM : aukf_model o T (fun t x => mA M t *m x + mb M t) (fun t x => mC M t *m x + md M t) Q Rn (mmu M) (mP M))
  (HM' : aukf_model o' T (fun t x => mA M' t *m x + mb M' t) (fun t x => mC M' t *m x + md M' t) (G *m Q *m G^T) Rn (mmu M') (mP M')).
Hypotheses (HP : pd (mP M)) (HQ : pd Q) (HR : pd Rn).
Variables (zs : seq (orow R m)) (Hsz : size zs = T) (Hk : keeps zs).
Lemma linear_any_coordinates :
  same_in_units G h T (aukf_filter o (O2 m zs)) (aukf_filter o' (O2 m zs)) /\
  ((0 < T)%N -> same_in_units G h T (aukf_smooth o (O2 m zs)) (aukf_smooth o' (O2 m zs))).
Proof.
have Hpd : pd_model (fun t => ~~ isSome (stream zs t)) T M.
  by split=> // t tT; [rewrite EQ|rewrite ER].
have Hpd' : pd_model (fun t => ~~ isSome (stream zs t)) T M'.
  split=> [|t tT|t tT _] /=; [exact: pd_congr_unit|rewrite EQ //; exact: pd_congr_unit|by rewrite ER].
have EQ' t : (t < T.-1)%N -> mQ M' t = G *m Q *m G^T by move=> tT /=; rewrite EQ.
have HK : (T != 1%N) || (m <= 1)%N by move: Hk; rewrite /keeps Hsz.
have Hps : psd_model M T by split=> [|t tT|t tT]; [exact: pd_psd|rewrite EQ //; exact: pd_psd|rewrite ER //; exact: pd_psd].
have K1 : kf_model (obj_of M T false) T M by apply: obj_model.
have K2 : kf_model (obj_of M' T false) T M' by apply: obj_model.
have [mf [Pf [ms [Ps [A1 A2 A3]]]]] := coord_api HK Hps UG K1 K2 Hsz.
have [B1 B2 _] := aukf_is_kf EQ ER K1 Hsz Hk HM Hpd.
have [C1 C2 _] := aukf_is_kf EQ' ER K2 Hsz Hk HM' Hpd'.
split=> [|T0]; right; [exists mf, Pf|exists ms, Ps]; first by rewrite B1 C1.
by rewrite B2 // C2 //; apply: A3.
Qed.
End Lin.

(** ** the order of the components matters *)
Section Order.
Variable R : rcfType.
Definition quart (b : 'I_2) (t : nat) (x : 'cV[R]_2) : 'cV[R]_2 := \col_i ((i == b)%:R * x i 0 ^+ 4).
Definition total (t : nat) (x : 'cV[R]_2) : 'cV[R]_1 := (x 0 0 + x 1 0)%:M.
Definition ordL : 'M[R]_2 := \matrix_(i, j) (if i == 0 then (if j == 0 then 5%:R else 0) else (if j == 0 then 3%:R else 4%:R)).
Definition ordP : 'M[R]_2 := \matrix_(i, j) (if i == j then 25%:R else 15%:R).
Lemma ordPL : ordP = ordL *m ordL^T.
Proof.
apply/matrixP=> i j; rewrite !mxE big_ord_recl big_ord1 !mxE.
by case: i j => [[|[|i]] Hi] [[|[|j]] Hj] //=; rewrite -?natrM -?natrD ?mulr0 ?mul0r ?addr0 -?natrM -?natrD.
Qed.
Lemma ordL_units : pos_units ordL.
Proof.
split=> [i j|i]; rewrite mxE; first by case: i j => [[|[|i]] Hi] [[|[|j]] Hj].
by case: i => [[|[|i]] Hi] //=; rewrite ltr0n.
Qed.
Lemma ordP_sym : ordP^T = ordP. Proof. by apply/matrixP=> i j; rewrite !mxE eq_sym. Qed.
Lemma ordP_chol : chol ordP = Some ordL.
Proof.
have U := units_unit (pos_unitsP ordL_units).
have Hp : pd ordP by rewrite ordPL; have := pd_congr_unit (pd1 R 2) U; rewrite mulmx1.
have [L E] := chol_pd Hp; have [H1 H2 H3] := chol_spec ordP_sym E; rewrite E; congr Some.
apply: (can_inj (@trmxK _ _ _)); exact: upper_uniq (units_chol H1 (conj H2 H3)) (units_chol ordPL ordL_units).
Qed.
Lemma swapE p (X : 'M[R]_(2, p)) i j : (swap2 R *m X) i j = X (if i == 0 then 1 else 0) j.
Proof.
rewrite mxE big_ord_recl big_ord1 !mxE; case: i => [[|[|i]] Hi] //=; rewrite ?mul0r ?mul1r ?add0r ?addr0.
  by congr (X _ _); apply/val_inj.
by congr (X _ _); apply/val_inj.
Qed.
Lemma swapT : (swap2 R)^T = swap2 R. Proof. by apply/matrixP=> i j; rewrite !mxE eq_sym. Qed.
Lemma swapC (X : 'M[R]_2) i j : (swap2 R *m X *m (swap2 R)^T) i j = X (if i == 0 then 1 else 0) (if j == 0 then 1 else 0).
Proof. by rewrite -mulmxA swapE -[X *m _]trmxK [LHS]mxE trmx_mul trmxK swapE mxE. Qed.
Lemma ordP_swap : swap2 R *m ordP *m (swap2 R)^T = ordP.
Proof.
by apply/matrixP=> i j; rewrite swapC !mxE; case: i j => [[|[|i]] Hi] [[|[|j]] Hj].
Qed.
Lemma one_swap : swap2 R *m 1%:M *m (swap2 R)^T = 1%:M.
Proof.
by apply/matrixP=> i j; rewrite swapC !mxE; case: i j => [[|[|i]] Hi] [[|[|j]] Hj].
Qed.
Lemma quart_swap t x : quart 0 t (swap2 R *m x + 0) = swap2 R *m quart 1 t x + 0.
Proof.
rewrite !addr0; apply/matrixP=> i j; rewrite (ord1 j) swapE [LHS]mxE swapE [RHS]mxE.
by case: i => [[|[|i]] Hi].
Qed.
Lemma total_swap t x : total t (swap2 R *m x + 0) = total t x.
Proof. by rewrite addr0 /total !swapE /= addrC. Qed.

Lemma quart_mean b : wmean (fmap (quart b 0) (sigma_rows 0 ordL 3%:R)) (wdef R 2) b 0
  = 3%:R * (ordL b 0 ^+ 4 + ordL b 1 ^+ 4).
Proof.
rewrite mxE (eq_bigr (fun i => wdef R 2 i 0 * sigma_rows 0 ordL 3%:R i b ^+ 4)); last first.
  by move=> i _; rewrite !mxE eqxx mul1r mulrC.
have E4 : Num.sqrt (3%:R : R) ^+ 4 = 9%:R.
  by rewrite -[4%N]/(2 * 2)%N exprM sqr_sqrtr ?ler0n // -natrX.
have Z : (0 : 'cV[R]_2) b 0 = 0 by rewrite mxE.
rewrite sum_pts row_0 Z expr0n mulr0 add0r big_ord_recl big_ord1 !row_pos !row_neg /wdef !wt_pos !wt_neg !Z !add0r.
have S4 (u v : R) : (- (u * v)) ^+ 4 = u ^+ 4 * v ^+ 4 by rewrite -[4%N]/(2 * 2)%N !exprM sqrrN -!exprM exprMn.
rewrite !S4 !exprMn E4; have -> : lift ord0 ord0 = 1 :> 'I_2 by apply/val_inj.
by move: (_ ^+ 4) (_ ^+ 4) => u v; field; rewrite ?pnatr_eq0.
Qed.

Definition ord_zs : seq (orow R 1) := nseq 2 (mk_row true 0).
Lemma ord_stream t : stream ord_zs t = None.
Proof. by case: t => [|[|[|t]]]; rewrite /stream //= missing_row. Qed.
Definition ord_o b : ukf R := @ukf_of R 2 1 _ _ (@pyf1 R 2 2) (@pyf1 R 2 1) 2 (quart b) total 1%:M 1%:M 0 ordP None.
Lemma ord_model b : aukf_model (ord_o b) 2 (quart b) total 1%:M 1%:M 0 ordP.
Proof. exact: aukf_of_model. Qed.
Lemma ord_filt b : exists2 F : nat -> 'cV[R]_2 * 'M[R]_2,
  (forall t, (t < 2)%N -> add_filt 1%:M 1%:M 0 ordP (quart b) total (stream ord_zs) t = Some (F t)) &
  (F 1%N).1 b 0 = 3%:R * (ordL b 0 ^+ 4 + ordL b 1 ^+ 4).
Proof.
have ES : spts 0 ordP = Some (sigma_rows 0 ordL 3%:R) by rewrite /spts ordP_sym ordP_chol.
have HS := spts_sigma ordP_sym ES.
pose Y := fmap (quart b 0) (sigma_rows 0 ordL 3%:R).
pose mp := (wmean Y (wdef R 2), wcov Y (wdef R 2) (wdef R 2) + 1%:M).
have E0 : add_filt 1%:M 1%:M 0 ordP (quart b) total (stream ord_zs) 0 = Some (0, ordP).
  by rewrite /add_filt /= /add_first ES /= ord_stream (sg_mean HS) (sg_self HS).
have Hp : pd mp.2.
  apply: pdD; last exact: pd1.
  by apply: wcov_psd => i; exact: wdef_ge0.
have E1 : add_filt 1%:M 1%:M 0 ordP (quart b) total (stream ord_zs) 1 = Some mp.
  rewrite /add_filt -[ufold _ _ _ 1]/(obind (fun s => add_next 1%:M 1%:M (quart b) total 0 s (stream ord_zs 1)) (add_filt 1%:M 1%:M 0 ordP (quart b) total (stream ord_zs) 0)).
  rewrite E0 /= /add_next /add_pred ES /= /add_corr -/Y -/mp; have [P EP] := spts_pd mp.1 Hp.
  by rewrite EP /= ord_stream.
exists (fun t => if t == 0%N then (0, ordP) else mp); first by case=> [|[|t]].
exact: quart_mean.
Qed.
Lemma ord_differ : ~ same_in_units (swap2 R) 0 2 (aukf_filter (ord_o 1) (O2 1 ord_zs)) (aukf_filter (ord_o 0) (O2 1 ord_zs)).
Proof.
have Hsz : size ord_zs = 2%N by [].
rewrite (aukf_filterE (ord_model 1) Hsz erefl) (aukf_filterE (ord_model 0) Hsz erefl).
have [F HF E] := ord_filt 1; have [F' HF' E'] := ord_filt 0.
rewrite (@mapr_all_ok _ _ _ (fun t => lift_s (F t))); last first.
  by move=> t /In_mem; rewrite mem_iota => /HF ->.
rewrite (@mapr_all_ok _ _ _ (fun t => lift_s (F' t))); last first.
  by move=> t /In_mem; rewrite mem_iota => /HF' ->.
case=> [[]//|[mu [S [H1 H2]]]].
pose at1 (r : res (seq (moments R))) := if r is Ok [:: _; s] then s.1 else A1 (0 : 'cV[R]_2).
move: (congr1 at1 H1) (congr1 at1 H2) => /= /A1_eq {}H1 /A1_eq {}H2.
move: E'; rewrite H2 addr0 swapE /= -H1 E !mxE /= !expr0n /= addr0.
rewrite -!natrX -!natrD -!natrM => /eqP; rewrite eqr_nat; by [].
Qed.
Lemma order_matters :
  exists (o o' : ukf R) (f f' : nat -> 'cV[R]_2 -> 'cV[R]_2) (g g' : nat -> 'cV[R]_2 -> 'cV[R]_1) (Q : 'M[R]_2) (Rn : 'M[R]_1)
    (P0 : 'M[R]_2) (zs : seq (orow R 1)),
  let W : 'M[R]_2 := \matrix_(i, j) (i != j)%:R in
  [/\ aukf_model o 2 f g Q Rn 0 P0 /\ aukf_model o' 2 f' g' (W *m Q *m W^T) Rn (W *m 0 + 0) (W *m P0 *m W^T),
      (forall t x, f' t (W *m x + 0) = W *m f t x + 0) /\ (forall t x, g' t (W *m x + 0) = g t x),
      Q = 1%:M /\ P0^T = P0,
      size zs = 2%N /\ keeps zs &
      ~ same_in_units W 0 2 (aukf_filter o (O2 1 zs)) (aukf_filter o' (O2 1 zs))].
Proof.
exists (ord_o 1), (ord_o 0), (quart 1), (quart 0), total, total, 1%:M, 1%:M, ordP, ord_zs.
rewrite -[(\matrix_(i, j) (i != j)%:R)]/(swap2 R) => W; split.
- by split; [exact: ord_model|rewrite /W one_swap ordP_swap mulmx0 addr0; exact: ord_model].
- by split; [exact: quart_swap|exact: total_swap].
- by split=> //; exact: ordP_sym.
- by [].
- exact: ord_differ.
Qed.
End Order.

(** ** hypotheses met *)
Section Met.
Variable R : rcfType.
(** metres to feet and the second axis reversed, plus a multiple of the first *)
Definition uG : 'M[R]_2 := \matrix_(i, j) (if i == 0 then (if j == 0 then 2%:R else 0) else (if j == 0 then 1 else - 3%:R)).
Lemma uG_units : units uG.
Proof.
split=> [i j|i]; rewrite mxE; first by case: i j => [[|[|i]] Hi] [[|[|j]] Hj].
by case: i => [[|[|i]] Hi] //=; rewrite ?oppr_eq0 pnatr_eq0.
Qed.
Definition re1 (f : nat -> 'cV[R]_2 -> 'cV[R]_2) t x := uG *m f t (invmx uG *m (x - e1 R)) + e1 R.
Definition re2 (f : nat -> 'cV[R]_2 -> 'cV[R]_2 -> 'cV[R]_2) t x w := uG *m f t (invmx uG *m (x - e1 R)) (invmx uG *m w) + e1 R.
Lemma re_in x : invmx uG *m (uG *m x + e1 R - e1 R) = x.
Proof. by rewrite addrK mulKmx // units_unit //; exact: uG_units. Qed.
Lemma re_in0 x : invmx uG *m (uG *m x) = x :> 'cV[R]_2.
Proof. by rewrite mulKmx // units_unit //; exact: uG_units. Qed.
Definition sq_f' := re1 (sq_f (R := R)).
Definition sq_g' t (x : 'cV[R]_2) := sq_g t (invmx uG *m (x - e1 R)).
Definition sq_o' : ukf R := @ukf_of R 2 1 _ _ (@pyf1 R 2 2) (@pyf1 R 2 1) 3 sq_f' sq_g' (uG *m 1%:M *m uG^T) 1%:M
  (uG *m e0 R + e1 R) (uG *m (proj R + 1%:M) *m uG^T) None.
Lemma sq_units_met :
  [/\ aukf_model (sq_o R) 3 (sq_f (R := R)) (sq_g (R := R)) 1%:M 1%:M (e0 R) (proj R + 1%:M),
      aukf_model sq_o' 3 sq_f' sq_g' (uG *m 1%:M *m uG^T) 1%:M (uG *m e0 R + e1 R) (uG *m (proj R + 1%:M) *m uG^T),
      units uG, forall t x, sq_f' t (uG *m x + e1 R) = uG *m sq_f t x + e1 R &
      forall t x, sq_g' t (uG *m x + e1 R) = sq_g t x].
Proof.
split; [exact: sq_model|exact: aukf_of_model|exact: uG_units| |] => t x; first by rewrite /sq_f' /re1 re_in.
by rewrite /sq_g' re_in.
Qed.
Definition sq2_f' := re2 (sq2_f (R := R)).
Definition sq2_g' t (x : 'cV[R]_2) (v : 'cV[R]_1) := sq2_g t (invmx uG *m (x - e1 R)) (- 2%:R^-1 *: v).
Definition uK : 'M[R]_1 := (- 2%:R)%:M.
Definition sq2_o' : ukf R := @ukf_of R 2 1 _ _ (@pyf2 R 2 2 2) (@pyf2 R 2 1 1) 3 sq2_f' sq2_g' (uG *m 1%:M *m uG^T) (uK *m 1%:M *m uK^T)
  (uG *m e0 R + e1 R) (uG *m (proj R + 1%:M) *m uG^T) None.
Lemma sq2_units_met :
  [/\ ukf_model (sq2_o R) 3 (sq2_f (R := R)) (sq2_g (R := R)) 1%:M 1%:M (e0 R) (proj R + 1%:M),
      ukf_model sq2_o' 3 sq2_f' sq2_g' (uG *m 1%:M *m uG^T) (uK *m 1%:M *m uK^T) (uG *m e0 R + e1 R) (uG *m (proj R + 1%:M) *m uG^T),
      units uG /\ units uK, forall t x w, sq2_f' t (uG *m x + e1 R) (uG *m w) = uG *m sq2_f t x w + e1 R &
      forall t x v, sq2_g' t (uG *m x + e1 R) (uK *m v) = sq2_g t x v].
Proof.
split; [exact: sq2_model|exact: ukf_of_model| | |].
- split; first exact: uG_units.
  by split=> [i j|i]; rewrite !ord1 // mxE mulr1n oppr_eq0 pnatr_eq0.
- by move=> t x w; rewrite /sq2_f' /re2 re_in re_in0.
- move=> t x v; rewrite /sq2_g' re_in /uK mul_scalar_mx scalerA mulrNN mulVf ?scale1r //.
  by rewrite pnatr_eq0.
Qed.
Lemma lin_met (h : 'cV[R]_2) : exists o' : ukf R,
  aukf_model o' 3 (fun t x => mA (coord_model (em_M R) (swap2 R) h) t *m x + mb (coord_model (em_M R) (swap2 R) h) t)
    (fun t x => mC (coord_model (em_M R) (swap2 R) h) t *m x + md (coord_model (em_M R) (swap2 R) h) t)
    (swap2 R *m (proj R + 1%:M) *m (swap2 R)^T) 1%:M (mmu (coord_model (em_M R) (swap2 R) h)) (mP (coord_model (em_M R) (swap2 R) h)).
Proof. by eexists; apply: (@aukf_of_model R 2 2 3 _ _ _ _ _ _ None). Qed.
Lemma swap_unit : swap2 R \in unitmx.
Proof.
have : swap2 R *m swap2 R = 1%:M by have := one_swap R; rewrite mulmx1 swapT.
by case/mulmx1_unit.
Qed.
End Met.
