(** The log density computed by log_multivariate_normal_density, and
    loglikelihood as a sum over the innovations. *)
From Coq Require Import String List.
From mathcomp Require Import all_ssreflect all_algebra.
From mathcomp Require Import ring.
From Verif Require Import Prelude Zmod LinAlg Numpy NumpyFacts Sklearn SklearnFacts Standard Model KfSpec StandardInit StandardFacts
  KfStruct SpecL2 L2Facts Lmmse Exists KfOptimal KfModelFacts KfOnline KfEquiv GaussSpec.
Import GRing.Theory Num.Theory Order.Theory.

Set Implicit Arguments.
Unset Strict Implicit.
Unset Printing Implicit Defensive.
Local Open Scope ring_scope.

Section Density.
Variables (R : rcfType) (ln : R -> R) (ln2pi : R).
Hypothesis Hln : multiplicative_log ln.

Lemma ln1 : ln 1 = 0.
Proof. by have := Hln ltr01 ltr01; rewrite mulr1 => /eqP; rewrite -subr_eq0 opprD addNKr oppr_eq0 => /eqP. Qed.
Lemma ln_prod (I : Type) (r : seq I) (P : ssrbool.pred I) (f : I -> R) : (forall i, 0 < f i) ->
  ln (\prod_(i <- r | P i) f i) = \sum_(i <- r | P i) ln (f i).
Proof.
move=> Hf; pose K x y := 0 < x /\ ln x = y.
suff : K (\prod_(i <- r | P i) f i) (\sum_(i <- r | P i) ln (f i)) by case.
apply: (big_ind2 K) => [|x1 x2 y1 y2 [H1 E1] [H2 E2]|i _].
- by split; [exact: ltr01|exact: ln1].
- by split; [exact: mulr_gt0|rewrite Hln // E1 E2].
- by split.
Qed.

Lemma det_chol n (S L : 'M[R]_n) : S = L *m L^T -> lower_tri L -> \det S = \prod_i (L i i * L i i).
Proof.
move=> -> HL; rewrite det_mulmx det_tr det_trig; first by rewrite -big_split.
apply/is_trig_mxP => i j ij; exact: HL.
Qed.

Lemma sub21 n (x mu : 'cV[R]_n) : sub (A2 x^T) (A1 mu) = Ok (A2 (x - mu)^T).
Proof.
have -> : sub (A2 x^T) (A1 mu) = sub (A2 x^T) (A2 mu^T) by [].
by rewrite sub22 linearB.
Qed.

Lemma lmnd_chol n (x mu : 'cV[R]_n) (S L : 'M[R]_n) : S^T = S -> chol S = Some L ->
  (sld <-- sum_log_diag ln (A2 L) ;;
   dif <-- sub (atleast_2d (A1 x)) (A1 mu) ;;
   dift <-- tr dif ;;
   cv_sol <-- np_solve (A2 L) dift ;;
   sq <-- sum_sq cv_sol ;;
   Ok (- 2%:R^-1 * (sq + n%:R * ln2pi + 2%:R * sld))) = Ok (gauss_logpdf ln ln2pi x mu S).
Proof.
move=> HS HL; have [ES LT Ld] := chol_spec HS HL.
have UL := lower_tri_gt0_unit LT Ld.
have Lgt i : 0 < L i i * L i i by rewrite mulr_gt0.
rewrite [atleast_2d _]/= sub21 /= trmxK solveE UL /= /gauss_logpdf; congr (Ok (_ * (_ + _ + _))).
  rewrite /qf /bf ES.
  have -> : invmx (L *m L^T) = (invmx L)^T *m invmx L by rewrite invmxM ?unitmx_tr // trmx_inv.
  move: (invmx L) (x - mu) => K u.
  rewrite mulmxA -trmx_mul -mulmxA.
  rewrite /sc mxE; apply: eq_bigr => i _; rewrite big_ord_recl big_ord0 addr0 !mxE.
  by rewrite expr2.
rewrite (det_chol ES LT) ln_prod // mulr_sumr minnn.
by apply: eq_bigr => i _; rewrite mgetE Hln // mulr2n mulrDl mul1r.
Qed.

Lemma lmnd_pd n (x mu : 'cV[R]_n) (S : 'M[R]_n) : pd S ->
  lmnd ln ln2pi (A1 x) (A1 mu) (A2 S) = Ok (gauss_logpdf ln ln2pi x mu S).
Proof.
move=> HS; have [L HL] := chol_pd HS; have [SS _] := HS.
by rewrite /lmnd /= cholE HL bindOk (lmnd_chol x mu SS HL).
Qed.
Lemma lmnd_jitter n (x mu : 'cV[R]_n) (S : 'M[R]_n) : S^T = S -> ~ pd S ->
  pd (S + (min_covar R)%:M) ->
  lmnd ln ln2pi (A1 x) (A1 mu) (A2 S) = Ok (gauss_logpdf ln ln2pi x mu (S + (min_covar R)%:M)).
Proof.
move=> SS HN HS; rewrite /lmnd [np_len _]/= bindOk cholE.
case E: (chol S) => [L|]; first by case: HN; exact: chol_some_pd E.
rewrite eye2E [scal _ _]/= scalemx1 add22 bindOk cholE.
have [L HL] := chol_pd HS; have [SS' _] := HS.
by rewrite HL bindOk; exact: (lmnd_chol x mu SS' HL).
Qed.
Lemma lmnd_fail n (x mu : 'cV[R]_n) (S : 'M[R]_n) : S^T = S -> ~ pd S ->
  ~ pd (S + (min_covar R)%:M) ->
  lmnd ln ln2pi (A1 x) (A1 mu) (A2 S) = Err LinAlgError.
Proof.
move=> SS HN HN'; rewrite /lmnd [np_len _]/= bindOk cholE.
case E: (chol S) => [L|]; first by case: HN; exact: chol_some_pd E.
rewrite eye2E [scal _ _]/= scalemx1 add22 bindOk cholE.
case E': (chol _) => [L|] //; case: HN'; apply: chol_some_pd E'.
by rewrite linearD /= SS tr_scalar_mx.
Qed.
End Density.
