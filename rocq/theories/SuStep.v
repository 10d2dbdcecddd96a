(** One step of the square-root unscented filter against the plain one. *)
From Coq Require Import String List.
From mathcomp Require Import all_ssreflect all_algebra.
From mathcomp Require Import ring.
From Verif Require Import Prelude Zmod LinAlg Numpy NumpyFacts Sklearn Standard Model KfSpec Rng Sqrt SqrtFacts Unscented UscSpec UscFacts UscRefine UscLoop UscPsd
  SqrtUnscented CuFacts SuTri SuFacts.
Import GRing.Theory Num.Theory Order.Theory.

Set Implicit Arguments.
Unset Strict Implicit.
Unset Printing Implicit Defensive.
Local Open Scope ring_scope.

(** affine, or on at most three dimensions, where no weight is negative *)
Definition tame (R : rcfType) n p (f : 'cV[R]_n -> 'cV[R]_p) : Prop :=
  (n <= 3)%N \/ exists (A : 'M[R]_(p, n)) (b : 'cV[R]_p), forall x, f x = A *m x + b.

Section Step.
Variable R : rcfType.

(** ** absolute weights *)
Lemma wcross_abs k p q (w : 'cV[R]_k) (X : 'M[R]_(k, p)) (Y : 'M[R]_(k, q)) :
  (forall i j, X i j = 0 \/ 0 <= w i 0) -> wcross w X Y = wcross (wabs w) X Y.
Proof.
move=> H; apply/matrixP=> a b; rewrite !wcrossE; apply: eq_bigr => i _; rewrite mxE.
by case: (H i a) => [->|w0]; rewrite ?(mul0r, mulr0) // ger0_norm.
Qed.
Lemma wabs_ge0 k (w : 'cV[R]_k) i : 0 <= wabs w i 0. Proof. by rewrite mxE normr_ge0. Qed.
Lemma wdef_pos n (i : 'I_((n + n).+1)) : i != ord0 -> 0 <= wdef R n i 0.
Proof.
move=> i0; rewrite mxE; have -> : (i == 0%N :> nat) = false by apply/negbTE.
by rewrite divr_ge0 ?ler0n // invr_ge0 ler0n.
Qed.
Lemma wdef_sym n : sym_w (wdef R n). Proof. by move=> i; rewrite /wdef wt_pos wt_neg. Qed.
Lemma wdef_sum n : \sum_i wdef R n i 0 = 1.
Proof.
rewrite /wdef; have -> : (3%:R - n%:R) / 3%:R = 1 - n%:R / 3%:R :> R by rewrite mulrBl divff ?pnatr_eq0.
by apply: wt_sum; rewrite ltr0n.
Qed.
Lemma wdef_mean n (mu : 'cV[R]_n) (L : 'M[R]_n) : wmean (sigma_rows mu L 3%:R) (wdef R n) = mu.
Proof.
rewrite /wdef; have -> : (3%:R - n%:R) / 3%:R = 1 - n%:R / 3%:R :> R by rewrite mulrBl divff ?pnatr_eq0.
by apply: pts_mean; rewrite ltr0n.
Qed.
Lemma wdef_cov n (mu : 'cV[R]_n) (L : 'M[R]_n) :
  wcross (wdef R n) (cen (sigma_rows mu L 3%:R) mu) (cen (sigma_rows mu L 3%:R) mu) = L *m L^T.
Proof. by rewrite /wdef; apply: pts_cov; rewrite ltr0n. Qed.
Lemma cen0 n (mu : 'cV[R]_n) (L : 'M[R]_n) j : cen (sigma_rows mu L 3%:R) mu ord0 j = 0.
Proof. by rewrite cenE row_0 subrr. Qed.
Lemma cross_abs n q (mu : 'cV[R]_n) (L : 'M[R]_n) (Y : 'M[R]_(_, q)) :
  wcross (wdef R n) (cen (sigma_rows mu L 3%:R) mu) Y = wcross (wabs (wdef R n)) (cen (sigma_rows mu L 3%:R) mu) Y.
Proof.
apply: wcross_abs => i j; have [->|i0] := eqVneq i ord0; first by left; exact: cen0.
by right; exact: wdef_pos.
Qed.
Lemma tame_abs n p (f : 'cV[R]_n -> 'cV[R]_p) (mu : 'cV[R]_n) (L : 'M[R]_n) : tame f ->
  let Y := fmap f (sigma_rows mu L 3%:R) in
  wcov Y (wdef R n) (wdef R n) =
  wcross (wabs (wdef R n)) (cen Y (wmean Y (wdef R n))) (cen Y (wmean Y (wdef R n))).
Proof.
move=> Hf Y; apply: wcross_abs => i j; have [->|i0] := eqVneq i ord0; last by right; exact: wdef_pos.
case: Hf => [n3|[A [b Hf]]]; first by right; exact: wdef_ge0.
left; have EY : Y = aff_rows (sigma_rows mu L 3%:R) A b.
  by rewrite -fmap_affine /Y; apply/matrixP=> u v; rewrite [LHS]mxE [RHS]mxE Hf.
have EM : wmean Y (wdef R n) = A *m mu + b by rewrite EY aff_mean ?wdef_mean ?wdef_sum.
rewrite EM cenE /Y mxE Hf.
have -> : (row ord0 (sigma_rows mu L 3%:R))^T = mu by apply/matrixP=> u v; rewrite mxE mxE row_0 (ord1 v).
by rewrite subrr.
Qed.

Lemma sgn_all n p (mu : 'cV[R]_n) (U F : 'M[R]_n) : regular U -> regular F -> U^T *m U = F^T *m F ->
  forall g : 'cV[R]_n -> 'cV[R]_p,
  let P := sigma_rows mu U^T 3%:R in let P' := sigma_rows mu F^T 3%:R in let w := wdef R n in
  [/\ wmean (fmap g P) w = wmean (fmap g P') w,
      wcross w (cen P mu) (cen (fmap g P) (wmean (fmap g P) w)) = wcross w (cen P' mu) (cen (fmap g P') (wmean (fmap g P') w)) &
      wcov (fmap g P) w w = wcov (fmap g P') w w].
Proof.
move=> HU HF E g P P' w.
have EZ : wmean (fmap g P) w = wmean (fmap g P') w by exact: (@sgn_mean _ _ _ _ mu HU HF E w (@wdef_sym n) p g).
have H1 := @sgn_cross _ _ _ _ mu HU HF E w (@wdef_sym n) _ _ id g mu (wmean (fmap g P') w).
have H2 := @sgn_cross _ _ _ _ mu HU HF E w (@wdef_sym n) _ _ g g (wmean (fmap g P') w) (wmean (fmap g P') w).
rewrite !fmap_id in H1.
by split; [exact: EZ|rewrite EZ; exact: H1|rewrite /wcov EZ; exact: H2].
Qed.

(** ** one-dimensional observations *)
Lemma comm1 m (A B : 'M[R]_m) : (m <= 1)%N -> A *m B = B *m A.
Proof.
move=> m1; apply/matrixP=> i j; rewrite !mxE; apply: eq_bigr => k _.
have E (a b : 'I_m) : a = b by apply/val_inj=> /=; case: a b => [[|a] Ha] [[|b] Hb] //=; have := leq_trans Ha m1; have := leq_trans Hb m1.
by rewrite (E k i) (E j i) mulrC.
Qed.

Lemma chol1 m (Rn R2 : 'M[R]_m) : (m <= 1)%N -> is_chol Rn R2 -> R2 *m R2^T = Rn.
Proof. by move=> m1 [_ _ <-]; apply: comm1. Qed.

(** ** corrections *)
Lemma corr_abs n m (mu : 'cV[R]_n) (zh z : 'cV[R]_m) (S Sp : 'M[R]_n) (V W : 'M[R]_m) (C : 'M[R]_(n, m)) :
  regular Sp -> Sp^T *m Sp = S -> V^T *m V = W -> V *m V^T = W -> pd W -> pd (S - C *m pinv W *m C^T) ->
  exists2 F : 'M[R]_n,
    su_correct (A2 C) (A1 mu, A2 Sp) (A1 zh, A2 V) (A1 z, false) = Ok (A1 (mu + C *m pinv W *m (z - zh)), A2 F) &
    regular F /\ F^T *m F = S - C *m pinv W *m C^T.
Proof.
move=> [Sp1 Sp2] ESp EV1 EV2 HW HD.
have uW := pd_unit HW.
have uV : V \in unitmx by move: uW; rewrite -EV1 unitmx_mul => /andP[].
rewrite su_correctE // EV2; move: HD; rewrite pinv_unit //; set K := C *m invmx W => HD.
have KV : K *m V *m (K *m V)^T = K *m C^T.
  have -> : K *m V *m (K *m V)^T = K *m (V *m V^T) *m K^T by rewrite trmx_mul !mulmxA.
  rewrite EV2 {1}/K mulmxKV //.
  have -> : C *m K^T = (K *m C^T)^T by rewrite [RHS]trmx_mul trmxK.
  by rewrite /K !trmx_mul trmxK trmx_inv (pd_sym HW) mulmxA.
have HD' : pd (Sp^T *m Sp + (-1) *: ((K *m V)^T^T *m (K *m V)^T)) by rewrite ESp trmxK KV scaleN1r.
have [F' -> HF'] := cholupdate_ok Sp1 Sp2 HD'.
rewrite bO; exists F' => //.
move: HD' HF'; rewrite ESp trmxK KV scaleN1r => _.
have E0 : m = 0%N -> K *m C^T = 0.
  move=> m0; apply/matrixP=> i j; rewrite mxE [RHS]mxE big1 // => k _.
  by have := leq_ltn_trans (leq0n k) (ltn_ord k); rewrite {1}m0.
move: (K *m C^T) E0 {HD KV} => D; case: (m) => [|m'] E0 H.
  by rewrite H E0 // subr0.
by split; [exact: is_chol_regular H|case: H].
Qed.
Lemma tame_pd n m (mu : 'cV[R]_n) (S F : 'M[R]_n) (g : 'cV[R]_n -> 'cV[R]_m) (Rn : 'M[R]_m) : is_chol S F -> tame g -> pd Rn ->
  let P := sigma_rows mu F^T 3%:R in let Z := fmap g P in let w := wdef R n in
  let C := wcross w (cen P mu) (cen Z (wmean Z w)) in
  pd (wcov Z w w + Rn) /\ pd (S - C *m pinv (wcov Z w w + Rn) *m C^T).
Proof.
move=> HF Hg HR P Z w C.
have EA : wcov Z w w = wcross (wabs w) (cen Z (wmean Z w)) (cen Z (wmean Z w)) by exact: (tame_abs mu F^T Hg).
have EC : C = wcross (wabs w) (cen P mu) (cen Z (wmean Z w)) by exact: cross_abs.
have ES : wcross (wabs w) (cen P mu) (cen P mu) = S.
  by rewrite -cross_abs wdef_cov trmxK; case: HF.
rewrite EA EC UscFacts.wcross_tr -ES; split.
  by apply: pdD => //; apply: wcross_psd; exact: wabs_ge0.
apply: schur_pd => //; first exact: wabs_ge0.
by rewrite ES; exact: is_chol_pd HF.
Qed.
Section Corr.
Variable qr : qr_fun R.
Hypothesis Hqr : qr_valid qr.
Variables (n m : nat) (Rn : 'M[R]_m) (R2 : 'M[R]_m).
Hypotheses (HR : pd Rn) (ER2 : is_chol Rn R2).
(** the state of the square-root filter stands for the moments [s] *)
Definition stands (x : moments R) (s : 'cV[R]_n * 'M[R]_n) : Prop :=
  exists2 F : 'M[R]_n, x = (A1 s.1, A2 F) & regular F /\ F^T *m F = s.2.

Lemma su_corrE (mu : 'cV[R]_n) (S U Sp : 'M[R]_n) (G : pyfun R) (g : 'cV[R]_n -> 'cV[R]_m) (z : orow R m) :
  regular U -> U^T *m U = S -> regular Sp -> Sp^T *m Sp = S -> fun1 G g -> (missing z \/ (m <= 1)%N /\ tame g) ->
  let P := sigma_rows mu U^T 3%:R in
  exists s x,
    [/\ omap (fun P' => ucorr (wdef R n) P' (fmap g P') Rn (mu, S) (cut z)) (spts mu S) = Some s,
        su_filter_correct qr G (A1 mu, A2 Sp) (SigmaPoints (A2 P) (A1 (wdef R n)) (A1 (wdef R n)))
          (A1 z.1, missing z) (Some (A2 R2)) = Ok x & stands x s].
Proof.
move=> HU EU HSp ESp HG Hz P.
have HS : pd S by rewrite -ESp; exact: regular_pd.
have [F _ HF] := cholupperE HS; have EF : F^T *m F = S by case: HF.
rewrite (sptsE mu HF) [omap _ _]/=; set P' := sigma_rows mu F^T 3%:R.
have [V -> [HV EV]] := su_filter_correctE Hqr P (wdef R n) mu Sp R2 z.1 (missing z) HG.
set w := wdef R n in EV *; set Z := fmap g P in EV *.
have EUF : U^T *m U = F^T *m F by rewrite EU.
have [EZ EC EW] := sgn_all mu HU (is_chol_regular HF) EUF g.
set Z' := fmap g P' in EZ EC EW *.
rewrite EC EZ /cut; case Em: (missing z) Hz => Hz.
  exists (mu, S), (A1 mu, A2 Sp); split; [exact: erefl|exact: erefl|].
  by exists Sp; [exact: erefl|split].
case: Hz => [H|[m1 Hg]]; first discriminate H.
have ER : R2 *m R2^T = Rn by exact: (chol1 m1 ER2).
have EV' : V^T *m V = wcov Z' w w + Rn.
  by rewrite EV ER -EW; congr (_ + _); rewrite -(tame_abs mu U^T Hg).
have [HW HD] := tame_pd mu HF Hg HR.
have EV2 : V *m V^T = wcov Z' w w + Rn by rewrite (comm1 V V^T m1).
have [F' E' HF'] := corr_abs mu (wmean Z' w) z.1 HSp ESp EV' EV2 HW HD.
by rewrite E'; do 2 eexists; split; [exact: erefl|exact: erefl|exists F'; [exact: erefl|exact: HF']].
Qed.
End Corr.
End Step.
