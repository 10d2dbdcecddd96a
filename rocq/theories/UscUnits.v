(** The unscented filters in other units: lower triangular changes of state coordinates. *)
From Coq Require Import String List.
From mathcomp Require Import all_ssreflect all_algebra.
From Verif Require Import Prelude Zmod LinAlg Numpy NumpyFacts Sklearn Standard Model KfSpec StandardInit StandardFacts Rng
  Unscented UscSpec UscFacts UscRefine UscLoop UscInit UscMain UscPsd UscOnline CuFacts SuTri UnitsSpec.
Import GRing.Theory Num.Theory Order.Theory.

Set Implicit Arguments.
Unset Strict Implicit.
Unset Printing Implicit Defensive.
Local Open Scope ring_scope.

Section Tri.
Variable R : rcfType.

(** lower triangular with positive diagonal *)
Definition pos_units n (G : 'M[R]_n) : Prop := lower_tri G /\ forall i, 0 < G i i.
Lemma units_unit n (G : 'M[R]_n) : units G -> G \in unitmx.
Proof.
case=> HL Hd; rewrite unitmxE unitfE det_trig; last by apply/is_trig_mxP => i j; exact: HL.
by apply/prodf_neq0 => i _.
Qed.
Lemma units_mul n (A B : 'M[R]_n) : units A -> units B ->
  units (A *m B) /\ forall i, (A *m B) i i = A i i * B i i.
Proof.
move=> [HA A0] [HB B0]; have E i : (A *m B) i i = A i i * B i i.
  rewrite mxE (bigD1 i) //= big1 ?addr0 // => l li.
  by case: (ltngtP i l) => [il|il|/val_inj e]; [rewrite HA ?mul0r|rewrite HB ?mulr0|rewrite e eqxx in li].
split=> //; split=> [i j ij|i]; last by rewrite E mulf_neq0.
rewrite mxE; apply: big1 => l _; case: (ltnP i l) => il; first by rewrite HA ?mul0r.
by rewrite HB ?mulr0 // (leq_ltn_trans il).
Qed.
Lemma units_block n p (A : 'M[R]_n) (B : 'M[R]_p) : units A -> units B -> units (block_mx A 0 0 B).
Proof.
move=> [HA A0] [HB B0]; split=> [i j|i].
  rewrite -(splitK i) -(splitK j); case: (split i) => a; case: (split j) => b /=.
  - by rewrite block_mxEul => H; apply: HA.
  - by rewrite block_mxEur mxE.
  - by rewrite block_mxEdl mxE.
  - by rewrite ltn_add2l block_mxEdr => H; apply: HB.
by rewrite -(splitK i); case: (split i) => a /=; rewrite ?block_mxEul ?block_mxEdr.
Qed.

(** signs of the diagonal *)
Definition sgn n (G : 'M[R]_n) : 'M[R]_n := diag_mx (\row_i Num.sg (G i i)).
Lemma sgnE n (G : 'M[R]_n) i j : sgn G i j = Num.sg (G i i) *+ (i == j). Proof. by rewrite !mxE. Qed.
Lemma sgn_sq n (G : 'M[R]_n) : units G -> sgn G *m (sgn G)^T = 1%:M.
Proof.
case=> _ G0; rewrite /sgn tr_diag_mx mulmx_diag; apply/matrixP=> i j; rewrite !mxE.
by rewrite -expr2 sqr_sg G0.
Qed.
Lemma sgn_units n (G : 'M[R]_n) : units G -> units (sgn G).
Proof.
case=> _ G0; split=> [i j ij|i]; rewrite sgnE ?eqxx ?mulr1n ?sgr_eq0 //.
by rewrite -val_eqE /= ltn_eqF.
Qed.

Lemma units_chol n (A L : 'M[R]_n) : A = L *m L^T -> pos_units L -> is_chol A L^T.
Proof. by move=> -> [H1 H2]; split=> [i j ij|i|]; rewrite ?mxE ?trmxK // H1. Qed.
Lemma pos_unitsP n (L : 'M[R]_n) : pos_units L -> units L.
Proof. by case=> H1 H2; split=> // i; rewrite gt_eqF. Qed.
Lemma chol_units n (A G : 'M[R]_n) : A^T = A -> units G ->
  chol (G *m A *m G^T) = omap (fun L => G *m (L *m sgn G)) (chol A).
Proof.
move=> SA HG; have UG := units_unit HG.
have SB : (G *m A *m G^T)^T = G *m A *m G^T by rewrite !trmx_mul trmxK SA mulmxA.
case E: (chol A) => [L|] /=.
  have [H1 H2 H3] := chol_spec SA E.
  have [L' E'] := chol_pd (pd_congr_unit (chol_some_pd SA E) UG).
  have [H1' H2' H3'] := chol_spec SB E'; rewrite E'; congr Some.
  apply: (can_inj (@trmxK _ _ _)); apply: upper_uniq (units_chol H1' (conj H2' H3')) (units_chol _ _).
    by rewrite {1}H1 !trmx_mul !mulmxA -[_ *m sgn G *m _]mulmxA sgn_sq // mulmx1.
  have [HLD ELD] := units_mul (pos_unitsP (conj H2 H3)) (sgn_units HG).
  have [[HGL _] EGL] := units_mul HG HLD; split=> // i.
  rewrite EGL ELD sgnE eqxx mulr1n mulrCA mulr_gt0 // mulrC -normrEsg normr_gt0.
  by case: HG => _; apply.
case E': (chol _) => [L'|] //; case: (chol_none SA E).
have UG' : invmx G \in unitmx by rewrite unitmx_inv.
have := pd_congr_unit (chol_some_pd SB E') UG'.
by rewrite trmx_inv !mulmxA mulVmx // mul1mx -mulmxA mulmxV ?unitmx_tr // mulmx1.
Qed.

Lemma aff_rowsE k n p (P : 'M[R]_(k, n)) (F : 'M[R]_(p, n)) d i j : aff_rows P F d i j = \sum_l F j l * P i l + d j 0.
Proof. by rewrite !mxE big_ord1 !mxE mul1r; congr (_ + _); apply: eq_bigr => l _; rewrite !mxE mulrC. Qed.
Lemma row_aff k n p (P : 'M[R]_(k, n)) (F : 'M[R]_(p, n)) d i : (row i (aff_rows P F d))^T = F *m (row i P)^T + d.
Proof.
apply/matrixP=> j q; rewrite (ord1 q) [in LHS]mxE [in LHS]mxE aff_rowsE [in RHS]mxE; congr (_ + _).
by rewrite mxE; apply: eq_bigr => l _; rewrite !mxE.
Qed.

Lemma pt_cases n (i : 'I_((n + n).+1)) : [\/ i = ord0, exists j : 'I_n, i = pos j | exists j : 'I_n, i = neg j].
Proof.
case: (unliftP ord0 i) => [i'|] ->; last exact: Or31.
by rewrite -(splitK i'); case: (split i') => j; [apply: Or32|apply: Or33]; exists j.
Qed.
Lemma sigma_rows_aff n (mu : 'cV[R]_n) (L G : 'M[R]_n) (h : 'cV[R]_n) c :
  sigma_rows (G *m mu + h) (G *m L) c = aff_rows (sigma_rows mu L c) G h.
Proof.
apply/matrixP=> i j; rewrite aff_rowsE; case: (pt_cases i) => [->|[a ->]|[a ->]].
- by rewrite row_0 !mxE; congr (_ + _); apply: eq_bigr => l _; rewrite row_0.
- rewrite row_pos [in LHS]mxE addrAC; congr (_ + _); rewrite !mxE mulr_suml -big_split /=.
  by apply: eq_bigr => l _; rewrite row_pos mulrDr mulrA.
- rewrite row_neg [in LHS]mxE addrAC; congr (_ + _); rewrite !mxE mulr_suml -sumrB /=.
  by apply: eq_bigr => l _; rewrite row_neg mulrBr mulrA.
Qed.


(** ** the same weighted rows in another order *)
Section Reorder.
Variables (k : nat) (e : 'I_k -> 'I_k) (w : 'cV[R]_k).
Definition rx p (P : 'M[R]_(k, p)) : 'M[R]_(k, p) := \matrix_(i, j) P (e i) j.
Lemma rx_row p (P : 'M[R]_(k, p)) i : row i (rx P) = row (e i) P.
Proof. by apply/matrixP=> a b; rewrite !mxE. Qed.
Lemma rx_fmap n p (f : 'cV[R]_n -> 'cV[R]_p) P : fmap f (rx P) = rx (fmap f P).
Proof. by apply/matrixP=> i j; rewrite !mxE rx_row. Qed.
Lemma rx_fmap2 n q p (f : 'cV[R]_n -> 'cV[R]_q -> 'cV[R]_p) P W : fmap2 f (rx P) (rx W) = rx (fmap2 f P W).
Proof. by apply/matrixP=> i j; rewrite !mxE !rx_row. Qed.
Lemma rx_cen p (P : 'M[R]_(k, p)) mu : cen (rx P) mu = rx (cen P mu).
Proof. by apply/matrixP=> i j; rewrite !mxE !big_ord1 !mxE. Qed.
Lemma rx_aff n p (P : 'M[R]_(k, n)) (F : 'M[R]_(p, n)) d : aff_rows (rx P) F d = rx (aff_rows P F d).
Proof. by apply/matrixP=> i j; rewrite [in RHS]mxE !aff_rowsE; congr (_ + _); apply: eq_bigr => l _; rewrite !mxE. Qed.
Lemma rx_l n p (P : 'M[R]_(k, n + p)) : lsubmx (rx P) = rx (lsubmx P).
Proof. by apply/matrixP=> i j; rewrite !mxE. Qed.
Lemma rx_r n p (P : 'M[R]_(k, n + p)) : rsubmx (rx P) = rx (rsubmx P).
Proof. by apply/matrixP=> i j; rewrite !mxE. Qed.

Hypotheses (He : injective e) (Hw : forall i, w (e i) 0 = w i 0).
Lemma rx_wmean p (P : 'M[R]_(k, p)) : wmean (rx P) w = wmean P w.
Proof.
apply/matrixP=> i j; rewrite (ord1 j) !mxE [in RHS](reindex_inj He) /=.
by apply: eq_bigr => l _; rewrite !mxE Hw.
Qed.
Lemma rx_wcross p q (X : 'M[R]_(k, p)) (Y : 'M[R]_(k, q)) : wcross w (rx X) (rx Y) = wcross w X Y.
Proof.
apply/matrixP=> i j; rewrite !wcrossE [in RHS](reindex_inj He) /=.
by apply: eq_bigr => l _; rewrite !mxE Hw.
Qed.
Lemma rx_wcov p (P : 'M[R]_(k, p)) : wcov (rx P) w w = wcov P w w.
Proof. by rewrite /wcov rx_wmean rx_cen rx_wcross. Qed.
Lemma rx_ucorr n m (P : 'M[R]_(k, n)) (Z : 'M[R]_(k, m)) Rn mp z : ucorr w (rx P) (rx Z) Rn mp z = ucorr w P Z Rn mp z.
Proof. by case: z => [z|] //; rewrite /ucorr rx_wmean rx_wcov !rx_cen rx_wcross. Qed.
Lemma rx_uback1 n (P Y : 'M[R]_(k, n)) Q x s : uback1 w (rx P) (rx Y) Q x s = uback1 w P Y Q x s.
Proof. by rewrite /uback1 rx_wmean rx_wcov !rx_cen rx_wcross. Qed.
End Reorder.

(** points swapped where the diagonal is negative *)
Definition flip n (G : 'M[R]_n) (i : 'I_((n + n).+1)) : 'I_((n + n).+1) :=
  if unlift ord0 i is Some i'
  then match split i' with
       | inl a => if G a a < 0 then neg a else pos a
       | inr a => if G a a < 0 then pos a else neg a
       end
  else ord0.
Section Flip.
Variables (n : nat) (G : 'M[R]_n).
Lemma flip0 : flip G ord0 = ord0. Proof. by rewrite /flip unlift_none. Qed.
Lemma split_l (a : 'I_n) : split (lshift n a) = inl a. Proof. exact: (unsplitK (inl a)). Qed.
Lemma split_r (a : 'I_n) : split (rshift n a) = inr a. Proof. exact: (unsplitK (inr a)). Qed.
Lemma flip_pos a : flip G (pos a) = if G a a < 0 then neg a else pos a.
Proof. by rewrite /flip /pos liftK split_l. Qed.
Lemma flip_neg a : flip G (neg a) = if G a a < 0 then pos a else neg a.
Proof. by rewrite /flip /neg liftK split_r. Qed.
Lemma flipK : involutive (flip G).
Proof.
move=> i; case: (pt_cases i) => [->|[a ->]|[a ->]]; first by rewrite !flip0.
  by rewrite flip_pos; case E: (_ < _); rewrite ?flip_pos ?flip_neg E.
by rewrite flip_neg; case E: (_ < _); rewrite ?flip_pos ?flip_neg E.
Qed.
Lemma flip_inj : injective (flip G). Proof. exact: inv_inj flipK. Qed.
Lemma flip_wdef i : wdef R n (flip G i) 0 = wdef R n i 0.
Proof.
case: (pt_cases i) => [->|[a ->]|[a ->]]; first by rewrite flip0.
  by rewrite flip_pos; case: ifP; rewrite /wdef ?wt_pos ?wt_neg.
by rewrite flip_neg; case: ifP; rewrite /wdef ?wt_pos ?wt_neg.
Qed.
Hypothesis HG : units G.
Lemma sigma_flip (mu : 'cV[R]_n) (L : 'M[R]_n) c : sigma_rows mu (L *m sgn G) c = rx (flip G) (sigma_rows mu L c).
Proof.
have E j a : (L *m sgn G) j a = L j a * Num.sg (G a a).
  by rewrite mxE (bigD1 a) //= big1 ?addr0 ?sgnE ?eqxx // => l la; rewrite sgnE (negbTE la) mulr0.
case: HG => _ G0; apply/matrixP=> i j; rewrite [RHS]mxE.
case: (pt_cases i) => [->|[a ->]|[a ->]]; first by rewrite flip0 !row_0.
  rewrite flip_pos row_pos E; case: (ltrgt0P (G a a)) (G0 a) => [g0|g0|->]; rewrite ?eqxx // => _.
    by rewrite row_pos gtr0_sg // mulr1.
  by rewrite row_neg ltr0_sg // mulrN1 mulNr.
rewrite flip_neg row_neg E; case: (ltrgt0P (G a a)) (G0 a) => [g0|g0|->]; rewrite ?eqxx // => _.
  by rewrite row_neg gtr0_sg // mulr1.
by rewrite row_pos ltr0_sg // mulrN1 mulNr opprK.
Qed.
End Flip.

Section FlipSums.
Variables (n : nat) (G : 'M[R]_n).
Let H1 := @flip_inj n G.
Let H2 := @flip_wdef n G.
Notation fl := (rx (flip G)).
Notation w := (wdef R n).
Lemma fl_wmean p (P : 'M[R]_(_, p)) : wmean (fl P) w = wmean P w. Proof. exact: rx_wmean. Qed.
Lemma fl_wcov p (P : 'M[R]_(_, p)) : wcov (fl P) w w = wcov P w w. Proof. exact: rx_wcov. Qed.
Lemma fl_ucorr p m (P : 'M[R]_(_, p)) (Z : 'M[R]_(_, m)) Rn mp z : ucorr w (fl P) (fl Z) Rn mp z = ucorr w P Z Rn mp z.
Proof. exact: rx_ucorr. Qed.
Lemma fl_uback1 p (P Y : 'M[R]_(_, p)) Q x s : uback1 w (fl P) (fl Y) Q x s = uback1 w P Y Q x s.
Proof. exact: rx_uback1. Qed.
End FlipSums.

Lemma spts_units n (mu : 'cV[R]_n) (A G : 'M[R]_n) h : A^T = A -> units G ->
  spts (G *m mu + h) (G *m A *m G^T) = omap (fun P => rx (flip G) (aff_rows P G h)) (spts mu A).
Proof.
move=> SA HG; rewrite /spts !trmx_mul trmxK SA mulmxA chol_units //; case: (chol A) => //= L.
by rewrite sigma_rows_aff sigma_flip // rx_aff.
Qed.
Lemma wdef_sum n : \sum_i wdef R n i 0 = 1.
Proof.
have -> : wdef R n = sigma_weights n (1 - n%:R / 3%:R) 3%:R by rewrite /wdef mulrBl divff ?pnatr_eq0.
by rewrite wt_sum // ltr0n.
Qed.
Lemma wcov_aff k n p (P : 'M[R]_(k, n)) (F : 'M[R]_(p, n)) d (w w' : 'cV_k) : \sum_i w i 0 = 1 ->
  wcov (aff_rows P F d) w w' = F *m wcov P w w' *m F^T.
Proof. by move=> H; rewrite /wcov aff_mean // aff_cen wcross_mul trmxK. Qed.
Lemma wcov_sym k p (P : 'M[R]_(k, p)) (w w' : 'cV_k) : (wcov P w w')^T = wcov P w w'.
Proof. exact: wcross_tr. Qed.

Lemma fmap_units k n p q (f' : 'cV[R]_n -> 'cV[R]_p) (f : 'cV[R]_n -> 'cV[R]_q) (P : 'M[R]_(k, n)) G h F d :
  (forall x, f' (G *m x + h) = F *m f x + d) -> fmap f' (aff_rows P G h) = aff_rows (fmap f P) F d.
Proof.
move=> H; apply/matrixP=> i j; rewrite mxE row_aff H aff_rowsE !mxE; congr (_ + _).
by apply: eq_bigr => l _; rewrite !mxE.
Qed.
Lemma aff_id k n (P : 'M[R]_(k, n)) : aff_rows P 1%:M 0 = P.
Proof. by rewrite /aff_rows trmx1 mulmx1 trmx0 mulmx0 addr0. Qed.

(** moments in the new coordinates *)
Definition recoord n (G : 'M[R]_n) (h : 'cV[R]_n) (s : 'cV[R]_n * 'M[R]_n) := (G *m s.1 + h, G *m s.2 *m G^T).

Section Corr.
Variables (n m k : nat) (G : 'M[R]_n) (h : 'cV[R]_n) (w : 'cV[R]_k).
Lemma ucorr_units (P : 'M[R]_(k, n)) (Z : 'M[R]_(k, m)) Rn mp z :
  ucorr w (aff_rows P G h) Z Rn (recoord G h mp) z = recoord G h (ucorr w P Z Rn mp z).
Proof.
case: z => [z|] //; rewrite /ucorr /recoord /= aff_cen wcrossMl trmxK; congr pair.
  by rewrite [G *m (_ + _)]mulmxDr !mulmxA addrAC.
by move: (wcross _ _ _) => C; rewrite [G *m (_ - _)]mulmxBr [in RHS]mulmxBl !trmx_mul !mulmxA.
Qed.
Lemma ucorr_sym (P : 'M[R]_(k, n)) (Z : 'M[R]_(k, m)) Rn mp z : Rn^T = Rn -> mp.2^T = mp.2 ->
  (ucorr w P Z Rn mp z).2^T = (ucorr w P Z Rn mp z).2.
Proof.
move=> SR SP; case: z => [z|] //=.
have E : (pinv (wcov Z w w + Rn))^T = pinv (wcov Z w w + Rn) by apply: pinv_sym; rewrite linearD /= wcov_sym SR.
move: (wcross _ _ _) (pinv _) E => C V E; rewrite linearB /= SP; congr (_ - _).
by rewrite !trmx_mul trmxK E mulmxA.
Qed.
End Corr.


Section Add.
Variables (n m : nat) (Q : 'M[R]_n) (Rn : 'M[R]_m) (mu0 : 'cV[R]_n) (P0 : 'M[R]_n).
Variables (f : nat -> 'cV[R]_n -> 'cV[R]_n) (g : nat -> 'cV[R]_n -> 'cV[R]_m).
Variables (f' : nat -> 'cV[R]_n -> 'cV[R]_n) (g' : nat -> 'cV[R]_n -> 'cV[R]_m).
Variables (G : 'M[R]_n) (h : 'cV[R]_n).
Hypotheses (HG : units G) (SQ : Q^T = Q) (SR : Rn^T = Rn) (SP : P0^T = P0).
Variable T : nat.
Hypotheses (Hf : forall t x, (t < T.-1)%N -> f' t (G *m x + h) = G *m f t x + h).
Hypotheses (Hg : forall t x, (t < T)%N -> g' t (G *m x + h) = g t x).
Notation Q' := (G *m Q *m G^T).
Notation rc := (recoord G h).

Lemma fmap_g t k (P : 'M[R]_(k, n)) : (t < T)%N -> fmap (g' t) (aff_rows P G h) = fmap (g t) P.
Proof. by move=> tT; rewrite -[RHS]aff_id; apply: fmap_units => x; rewrite Hg // mul1mx addr0. Qed.

Lemma add_first_units z : (0 < T)%N ->
  add_first Rn (G *m mu0 + h) (G *m P0 *m G^T) g' z = omap rc (add_first Rn mu0 P0 g z).
Proof.
move=> T0; rewrite /add_first spts_units //; case: (spts mu0 P0) => //= P; congr Some.
by rewrite rx_fmap fl_wmean fl_wcov fl_ucorr fmap_g // aff_mean ?wdef_sum // wcov_aff ?wdef_sum // -[(_, _)]/(rc (_, _)) ucorr_units.
Qed.
Lemma add_first_sym z s : add_first Rn mu0 P0 g z = Some s -> s.2^T = s.2.
Proof. by rewrite /add_first; case: (spts mu0 P0) => //= P [<-]; apply: ucorr_sym => //; exact: wcov_sym. Qed.

Lemma add_pred_units t s : (t < T.-1)%N -> s.2^T = s.2 -> add_pred Q' f' t (rc s) = omap rc (add_pred Q f t s).
Proof.
move=> tT Ss; rewrite /add_pred spts_units //; case: (spts s.1 s.2) => //= P; congr Some.
rewrite rx_fmap fl_wmean fl_wcov (@fmap_units _ _ _ _ (f' t) (f t) P G h G h) => [|x]; last exact: Hf.
by rewrite aff_mean ?wdef_sum // wcov_aff ?wdef_sum // -mulmxDl -mulmxDr.
Qed.
Lemma add_pred_sym t s mp : add_pred Q f t s = Some mp -> mp.2^T = mp.2.
Proof. by rewrite /add_pred; case: (spts s.1 s.2) => //= P [<-] /=; rewrite linearD /= wcov_sym SQ. Qed.
Lemma add_corr_units t mp z : (t < T)%N -> mp.2^T = mp.2 -> add_corr Rn g' t (rc mp) z = omap rc (add_corr Rn g t mp z).
Proof.
move=> tT Ss; rewrite /add_corr spts_units //; case: (spts mp.1 mp.2) => //= P; congr Some.
by rewrite rx_fmap fl_ucorr fmap_g // ucorr_units.
Qed.
Lemma add_corr_sym t mp z s : mp.2^T = mp.2 -> add_corr Rn g t mp z = Some s -> s.2^T = s.2.
Proof. by move=> H; rewrite /add_corr; case: (spts mp.1 mp.2) => //= P [<-]; apply: ucorr_sym. Qed.
Lemma add_next_units t s z : (t.+1 < T)%N -> s.2^T = s.2 ->
  add_next Q' Rn f' g' t (rc s) z = omap rc (add_next Q Rn f g t s z).
Proof.
move=> tT Ss; rewrite /add_next add_pred_units ?predn_lt //; case E: (add_pred _ _ _ _) => [mp|] //=.
by rewrite add_corr_units // (add_pred_sym E).
Qed.
Lemma add_next_sym t s z s' : add_next Q Rn f g t s z = Some s' -> s'.2^T = s'.2.
Proof. by rewrite /add_next; case E: (add_pred _ _ _ _) => [mp|] //=; apply: add_corr_sym (add_pred_sym E). Qed.

Variable y : nat -> option 'cV[R]_m.
Let F := add_filt Q Rn mu0 P0 f g y.
Lemma add_filt_sym t s : F t = Some s -> s.2^T = s.2.
Proof.
case: t => [|t]; first exact: add_first_sym.
by rewrite /F /add_filt /=; case: (ufold _ _ _ t) => //= s'; apply: add_next_sym.
Qed.
Lemma add_filt_units t : (t < T)%N ->
  add_filt Q' Rn (G *m mu0 + h) (G *m P0 *m G^T) f' g' y t = omap rc (F t).
Proof.
elim: t => [|t IH] tT; first by rewrite /F /add_filt /= add_first_units.
rewrite /F /add_filt -[ufold _ _ _ t.+1]/(obind (fun s => add_next Q' Rn f' g' t s (y t.+1)) (add_filt Q' Rn (G *m mu0 + h) (G *m P0 *m G^T) f' g' y t)).
rewrite IH ?(ltnW tT) // -[ufold _ _ _ t.+1]/(obind (fun s => add_next Q Rn f g t s (y t.+1)) (F t)).
by case E: (F t) => [s|] //=; rewrite add_next_units // (add_filt_sym E).
Qed.

(** ** smoothing *)
Lemma uback1_units k (w : 'cV[R]_k) (P Y : 'M[R]_(k, n)) x s : \sum_i w i 0 = 1 ->
  wcov Y w w + Q \in unitmx ->
  uback1 w (aff_rows P G h) (aff_rows Y G h) Q' (rc x) (rc s) = rc (uback1 w P Y Q x s).
Proof.
move=> H1 U; have UG := units_unit HG; have UGT : G^T \in unitmx by rewrite unitmx_tr.
rewrite /uback1 /recoord /= aff_mean // !aff_cen wcov_aff // wcross_mul trmxK.
have -> : G *m wcov Y w w *m G^T + Q' = G *m (wcov Y w w + Q) *m G^T by rewrite mulmxDr mulmxDl.
move: (wcov Y w w + Q) U => S U; move: (wcross _ _ _) => C.
have US : G *m S *m G^T \in unitmx by rewrite !unitmx_mul U UG UGT.
rewrite !pinv_unit //; have -> : (G *m C *m G^T)^T = G *m (C^T *m G^T) by rewrite !trmx_mul trmxK.
have EL : G *m (C^T *m G^T) *m invmx (G *m S *m G^T) = G *m (C^T *m invmx S) *m invmx G.
  apply: (can_inj (mulmxK US)); rewrite mulmxKV // !mulmxA mulmxKV // -!mulmxA; congr (_ *m (_ *m _)).
  by rewrite mulKmx.
rewrite EL; move: (C^T *m invmx S) => L; congr pair.
  have -> : G *m s.1 + h - (G *m wmean Y w + h) = G *m (s.1 - wmean Y w) by rewrite mulmxBr opprD addrACA subrr addr0.
  by rewrite [G *m (x.1 + _)]mulmxDr addrAC mulmxA mulmxKV // -mulmxA.
have -> : G *m s.2 *m G^T - G *m S *m G^T = G *m (s.2 - S) *m G^T by rewrite mulmxBr mulmxBl.
rewrite [G *m (x.2 + _)]mulmxDr mulmxDl; congr (_ + _); rewrite !trmx_mul trmx_inv !mulmxA mulmxKV //.
by rewrite -!mulmxA; do 3 congr (_ *m _); rewrite mulKVmx.
Qed.

Lemma spts_some_pd (mu : 'cV[R]_n) (A : 'M[R]_n) P : A^T = A -> spts mu A = Some P -> pd A.
Proof. by move=> SA; rewrite /spts SA; case E: (chol A) => [L|] //= _; exact: chol_some_pd SA E. Qed.
(** a step that did not raise factored the predicted covariance *)
Lemma next_pred_unit t s s' : F t = Some s -> F t.+1 = Some s' ->
  exists2 P, spts s.1 s.2 = Some P & wcov (fmap (f t) P) (wdef R n) (wdef R n) + Q \in unitmx.
Proof.
move=> E1; rewrite /F /add_filt -[ufold _ _ _ t.+1]/(obind (fun s => add_next Q Rn f g t s (y t.+1)) (F t)) E1.
rewrite /= /add_next; case E2: (add_pred Q f t s) => [mp|] //=; have Sm := add_pred_sym E2.
rewrite /add_corr; case E3: (spts mp.1 mp.2) => [P'|] //= _; have := spts_some_pd Sm E3.
move: E2; rewrite /add_pred; case: (spts s.1 s.2) => // P [<-] /= /pd_unit U; by exists P.
Qed.

Variable x : nat -> 'cV[R]_n * 'M[R]_n.
Hypothesis Hx : forall t, (t < T)%N -> F t = Some (x t).
Lemma add_back1_units t s : (t.+1 < T)%N -> add_back1 Q' f' t (rc (x t)) (rc s) = omap rc (add_back1 Q f t (x t) s).
Proof.
move=> tT; have [P EP U] := next_pred_unit (Hx (ltnW tT)) (Hx tT).
rewrite /add_back1 spts_units //; last exact: add_filt_sym (Hx (ltnW tT)).
rewrite EP /=; congr Some; rewrite rx_fmap fl_uback1 (@fmap_units _ _ _ _ (f' t) (f t) P G h G h) => [|v]; last exact/Hf/predn_lt.
by rewrite uback1_units ?wdef_sum.
Qed.
Lemma add_backs_units j t : (t + j < T)%N ->
  ubacks (add_back1 Q' f') (fun t => rc (x t)) j t = omap rc (ubacks (add_back1 Q f) x j t).
Proof.
elim: j t => [|j IH] t tT //=; rewrite IH ?addSnnS //.
case: (ubacks _ _ _ _) => //= s; rewrite add_back1_units //.
by apply: leq_ltn_trans tT; rewrite addnS ltnS leq_addr.
Qed.
End Add.

(** ** general noise *)
Section Aug.
Variables (n m : nat) (Q : 'M[R]_n) (Rn : 'M[R]_m) (mu0 : 'cV[R]_n) (P0 : 'M[R]_n).
Variables (f : nat -> 'cV[R]_n -> 'cV[R]_n -> 'cV[R]_n) (g : nat -> 'cV[R]_n -> 'cV[R]_m -> 'cV[R]_m).
Variables (f' : nat -> 'cV[R]_n -> 'cV[R]_n -> 'cV[R]_n) (g' : nat -> 'cV[R]_n -> 'cV[R]_m -> 'cV[R]_m).
Variables (G H : 'M[R]_n) (K : 'M[R]_m) (h : 'cV[R]_n).
Hypotheses (HG : units G) (HH : units H) (HK : units K) (SQ : Q^T = Q) (SR : Rn^T = Rn) (SP : P0^T = P0).
Variable T : nat.
Hypotheses (Hf : forall t x w, (t < T.-1)%N -> f' t (G *m x + h) (H *m w) = G *m f t x w + h).
Hypotheses (Hg : forall t x v, (t < T)%N -> g' t (G *m x + h) (K *m v) = g t x v).
Notation Q' := (H *m Q *m H^T).
Notation Rn' := (K *m Rn *m K^T).
Notation rc := (recoord G h).
Let Ga : 'M[R]_(n + (n + m)) := block_mx G 0 0 (block_mx H 0 0 K).
Let ha : 'cV[R]_(n + (n + m)) := col_mx h (col_mx 0 0).

Lemma aug_sym (A : 'M[R]_n) : A^T = A -> (block_mx A 0 0 (block_mx Q 0 0 Rn))^T = block_mx A 0 0 (block_mx Q 0 0 Rn).
Proof. by move=> SA; rewrite !tr_block_mx !trmx0 SA SQ SR. Qed.
Lemma aug_pts_units s : s.2^T = s.2 ->
  aug_pts Q' Rn' (rc s) = omap (fun P => rx (flip Ga) (aff_rows P Ga ha)) (aug_pts Q Rn s).
Proof.
move=> Ss; rewrite /aug_pts -spts_units; [|exact: aug_sym|by apply: units_block => //; exact: units_block].
congr spts; rewrite /Ga /ha /recoord /=.
  by rewrite !col_mx0 mul_block_col !mulmx0 !mul0mx !addr0 add_col_mx addr0.
by rewrite !tr_block_mx !trmx0 !mulmx_block !(mul0mx, mulmx0, addr0, add0r) mulmx_block !(mul0mx, mulmx0, addr0, add0r).
Qed.
Lemma px_aff k (P : 'M[R]_(k, n + (n + m))) : px (aff_rows P Ga ha) = aff_rows (px P) G h.
Proof.
rewrite /aff_rows -[P in P *m _]hsubmxK /Ga /ha tr_block_mx !trmx0 mul_row_block !mulmx0 addr0.
by rewrite tr_col_mx mul_mx_row add_row_mx /px row_mxKl.
Qed.
Lemma aff_lin k p q (P : 'M[R]_(k, p)) (A : 'M[R]_(q, p)) : aff_rows P A 0 = P *m A^T.
Proof. by rewrite /aff_rows trmx0 mulmx0 addr0. Qed.
Lemma rsub_aff k (P : 'M[R]_(k, n + (n + m))) : rsubmx (aff_rows P Ga ha) = rsubmx P *m (block_mx H 0 0 K)^T.
Proof.
rewrite /aff_rows -[P in P *m _]hsubmxK /Ga /ha col_mx0 tr_block_mx !trmx0 mul_row_block !mulmx0 add0r.
by rewrite tr_col_mx mul_mx_row add_row_mx row_mxKr trmx0 mulmx0 addr0.
Qed.
Lemma pw_aff k (P : 'M[R]_(k, n + (n + m))) : pw (aff_rows P Ga ha) = aff_rows (pw P) H 0.
Proof.
rewrite /pw rsub_aff -[X in X *m _]hsubmxK tr_block_mx !trmx0 mul_row_block row_mxKl !mulmx0 addr0.
by rewrite aff_lin.
Qed.
Lemma pv_aff k (P : 'M[R]_(k, n + (n + m))) : pv (aff_rows P Ga ha) = aff_rows (pv P) K 0.
Proof.
rewrite /pv rsub_aff -[X in X *m _]hsubmxK tr_block_mx !trmx0 mul_row_block row_mxKr !mulmx0 add0r.
by rewrite aff_lin.
Qed.
Lemma fmap2_f t k (X : 'M[R]_(k, n)) (W : 'M[R]_(k, n)) : (t < T.-1)%N ->
  fmap2 (f' t) (aff_rows X G h) (aff_rows W H 0) = aff_rows (fmap2 (f t) X W) G h.
Proof.
move=> tT; apply/matrixP=> i j; rewrite mxE !row_aff addr0 Hf // aff_rowsE !mxE; congr (_ + _).
by apply: eq_bigr => l _; rewrite !mxE.
Qed.
Lemma fmap2_g t k (X : 'M[R]_(k, n)) (V : 'M[R]_(k, m)) : (t < T)%N ->
  fmap2 (g' t) (aff_rows X G h) (aff_rows V K 0) = fmap2 (g t) X V.
Proof. by move=> tT; apply/matrixP=> i j; rewrite !mxE !row_aff addr0 Hg. Qed.
Lemma aug_corr_fl t (X : 'M[R]_(_, n)) (V : 'M[R]_(_, m)) z :
  aug_corr g' t (wdef R _) (rx (flip Ga) X) (rx (flip Ga) V) z = aug_corr g' t (wdef R _) X V z.
Proof. by rewrite /aug_corr rx_fmap2 fl_ucorr fl_wmean fl_wcov. Qed.
Lemma aug_corr_units t k (w : 'cV[R]_k) X V z : (t < T)%N -> \sum_i w i 0 = 1 ->
  aug_corr g' t w (aff_rows X G h) (aff_rows V K 0) z = rc (aug_corr g t w X V z).
Proof.
move=> tT H1; rewrite /aug_corr fmap2_g // aff_mean // wcov_aff // -[(_, _)]/(rc (_, _)).
exact: ucorr_units.
Qed.
Lemma aug_corr_sym t k (w : 'cV[R]_k) X V z : (aug_corr g t w X V z).2^T = (aug_corr g t w X V z).2.
Proof. by apply: ucorr_sym; rewrite ?trmx0 ?wcov_sym. Qed.

Variable y : nat -> option 'cV[R]_m.
Let F := aug_filt Q Rn mu0 P0 f g y.
Lemma aug_filt_sym t s : F t = Some s -> s.2^T = s.2.
Proof.
case: t => [|t] /=; rewrite /F /aug_filt /=.
  by rewrite /aug_first; case: (aug_pts Q Rn (mu0, P0)) => //= P [<-]; exact: aug_corr_sym.
case: (ufold _ _ _ t) => //= s'; rewrite /aug_next; case: (aug_pts Q Rn s') => //= P [<-]; exact: aug_corr_sym.
Qed.
Lemma aug_filt_units t : (t < T)%N ->
  aug_filt Q' Rn' (G *m mu0 + h) (G *m P0 *m G^T) f' g' y t = omap rc (F t).
Proof.
elim: t => [|t IH] tT.
  rewrite /F /aug_filt /= /aug_first -[(_ + h, _)]/(rc (mu0, P0)) aug_pts_units //.
  case: (aug_pts Q Rn (mu0, P0)) => //= P; congr Some.
  by rewrite /px /pv !rx_r !rx_l -/(px _) -/(pv _) aug_corr_fl px_aff pv_aff aug_corr_units // wdef_sum.
rewrite /F /aug_filt -[ufold _ _ _ t.+1]/(obind (fun s => aug_next Q' Rn' f' g' t s (y t.+1)) (aug_filt Q' Rn' (G *m mu0 + h) (G *m P0 *m G^T) f' g' y t)).
rewrite IH ?(ltnW tT) // -[ufold _ _ _ t.+1]/(obind (fun s => aug_next Q Rn f g t s (y t.+1)) (F t)).
case E: (F t) => [s|] //=; rewrite /aug_next aug_pts_units; last exact: aug_filt_sym E.
case: (aug_pts Q Rn s) => //= P; congr Some.
by rewrite /px /pw /pv !(rx_r, rx_l) rx_fmap2 -/(px _) -/(pw _) -/(pv _) aug_corr_fl px_aff pw_aff pv_aff fmap2_f ?predn_lt // aug_corr_units // wdef_sum.
Qed.
End Aug.

(** ** API *)
Lemma mapr_units n (G : 'M[R]_n) h (F F' : nat -> option ('cV[R]_n * 'M[R]_n)) T :
  (forall t, (t < T)%N -> F' t = omap (recoord G h) (F t)) ->
  same_in_units G h T (mapr (fun t => lift_o (F t)) (iota 0 T)) (mapr (fun t => lift_o (F' t)) (iota 0 T)).
Proof.
move=> H; have -> : mapr (fun t => lift_o (F' t)) (iota 0 T) = mapr (fun t => lift_o (omap (recoord G h) (F t))) (iota 0 T).
  have : forall t, t \in iota 0 T -> F' t = omap (recoord G h) (F t).
    by move=> t; rewrite mem_iota add0n => /= tT; apply: H.
  elim: (iota 0 T) => // a l IH Hl; rewrite !mapr_cons Hl ?mem_head // IH // => t tl.
  by apply: Hl; rewrite inE tl orbT.
case E: (mapr _ _) => [rows|e].
  right; have [H1 H2] := mapr_lift_ok E.
  exists (fun t => (odflt (0, 0) (F t)).1), (fun t => (odflt (0, 0) (F t)).2); split.
    by rewrite H2; congr Ok; apply: eq_map => t; rewrite /lift_s.
  apply: mapr_all_ok => t /In_mem /H1 [s ->]; exact: erefl.
left; have e1 : e = LinAlgError.
  by elim: (iota 0 T) E => //= a l IH; case: (F a) => [s|] /=; [case: (mapr _ l) IH => //= e' IH [<-]; exact: IH|case].
subst e; split=> //; elim: (iota 0 T) E => //= a l IH; case: (F a) => [s|] //=.
by case: (mapr _ l) IH => //= e IH [E]; rewrite IH ?E.
Qed.
End Tri.
