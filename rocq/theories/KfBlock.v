(** Two models side by side: filter, smoother and likelihood decouple. *)
From Coq Require Import String List.
From mathcomp Require Import all_ssreflect all_algebra.
From mathcomp Require Import ring.
From Verif Require Import Prelude Zmod LinAlg Numpy NumpyFacts Sklearn SklearnFacts Standard Model KfSpec KfMoreSpec StandardInit StandardFacts
  KfStruct KfStruct2 SpecL2 L2Facts Lmmse Exists KfOptimal KfModelFacts KfEquiv GaussSpec KfLoglik Joint KfJoint KfGlue KfNoise KfMore.
Import GRing.Theory Num.Theory Order.Theory.

Set Implicit Arguments.
Unset Strict Implicit.
Unset Printing Implicit Defensive.
Local Open Scope ring_scope.

Section Block.
Variable R : rcfType.

Lemma bmul m1 m2 n1 n2 p1 p2 (A : 'M[R]_(m1, n1)) (B : 'M[R]_(m2, n2)) (C : 'M[R]_(n1, p1)) (D : 'M[R]_(n2, p2)) :
  block_mx A 0 0 B *m block_mx C 0 0 D = block_mx (A *m C) 0 0 (B *m D).
Proof. by rewrite mulmx_block !mul0mx !mulmx0 !addr0 !add0r. Qed.
Lemma badd m1 m2 n1 n2 (A C : 'M[R]_(m1, n1)) (B D : 'M[R]_(m2, n2)) :
  block_mx A 0 0 B + block_mx C 0 0 D = block_mx (A + C) 0 0 (B + D).
Proof. by rewrite add_block_mx !addr0. Qed.
Lemma bopp m1 m2 n1 n2 (A : 'M[R]_(m1, n1)) (B : 'M[R]_(m2, n2)) :
  - block_mx A 0 0 B = block_mx (- A) 0 0 (- B).
Proof. by rewrite opp_block_mx !oppr0. Qed.
Lemma btr m1 m2 n1 n2 (A : 'M[R]_(m1, n1)) (B : 'M[R]_(m2, n2)) :
  (block_mx A 0 0 B)^T = block_mx A^T 0 0 B^T.
Proof. by rewrite tr_block_mx !trmx0. Qed.
Lemma bmulc m1 m2 n1 n2 (A : 'M[R]_(m1, n1)) (B : 'M[R]_(m2, n2)) (u : 'cV[R]_n1) (v : 'cV[R]_n2) :
  block_mx A 0 0 B *m col_mx u v = col_mx (A *m u) (B *m v).
Proof. by rewrite mul_block_col !mul0mx addr0 add0r. Qed.
Lemma cadd n1 n2 (u u' : 'cV[R]_n1) (v v' : 'cV[R]_n2) : col_mx u v + col_mx u' v' = col_mx (u + u') (v + v').
Proof. by rewrite add_col_mx. Qed.
Lemma copp n1 n2 (u : 'cV[R]_n1) (v : 'cV[R]_n2) : - col_mx u v = col_mx (- u) (- v).
Proof. by rewrite opp_col_mx. Qed.

Lemma pinv_block m1 m2 n1 n2 (A : 'M[R]_(m1, n1)) (B : 'M[R]_(m2, n2)) :
  pinv (block_mx A 0 0 B) = block_mx (pinv A) 0 0 (pinv B).
Proof.
apply: esym; apply: pinv_uniq; rewrite !bmul ?btr.
- by rewrite !LinAlg.pinv1.
- by rewrite !LinAlg.pinv2.
- by rewrite !LinAlg.pinv3.
- by rewrite !LinAlg.pinv4.
Qed.

Lemma psd_block n1 n2 (A : 'M[R]_n1) (B : 'M[R]_n2) : psd A -> psd B -> psd (block_mx A 0 0 B).
Proof.
move=> [SA HA] [SB HB]; split; first by rewrite btr SA SB.
by move=> v; rewrite -[v]vsubmxK /qf /bf tr_col_mx -mulmxA bmulc mul_row_col !mulmxA scD; apply: addr_ge0; [exact: HA|exact: HB].
Qed.
Lemma pd_block n1 n2 (A : 'M[R]_n1) (B : 'M[R]_n2) : pd A -> pd B -> pd (block_mx A 0 0 B).
Proof.
move=> HA HB; apply: psd_unit_pd; first by apply: psd_block; exact: pd_psd.
by rewrite unitmxE det_ublock unitrM -!unitmxE !pd_unit.
Qed.
Lemma inv_block n1 n2 (A : 'M[R]_n1) (B : 'M[R]_n2) : A \in unitmx -> B \in unitmx ->
  invmx (block_mx A 0 0 B) = block_mx (invmx A) 0 0 (invmx B).
Proof.
move=> UA UB; rewrite -!pinv_unit // ?pinv_block //.
by rewrite unitmxE det_ublock unitrM -!unitmxE UA.
Qed.
Lemma qf_bd n1 n2 (A : 'M[R]_n1) (B : 'M[R]_n2) (u : 'cV[R]_n1) (v : 'cV[R]_n2) :
  qf (block_mx A 0 0 B) (col_mx u v) = qf A u + qf B v.
Proof. by rewrite /qf /bf tr_col_mx -mulmxA bmulc mul_row_col !mulmxA scD. Qed.

Variables (n1 n2 m1 m2 : nat) (M1 : lgm R n1 m1) (M2 : lgm R n2 m2).
Let M := block_model M1 M2.
Definition joined (s1 : 'cV[R]_n1 * 'M[R]_n1) (s2 : 'cV[R]_n2 * 'M[R]_n2) : 'cV[R]_(n1 + n2) * 'M[R]_(n1 + n2) :=
  (col_mx s1.1 s2.1, block_mx s1.2 0 0 s2.2).
Variables (mis : nat -> bool) (d1 : nat -> 'cV[R]_m1) (d2 : nat -> 'cV[R]_m2).
Let d t := col_mx (d1 t) (d2 t).

Lemma block_innov t P1 P2 : innov_cov M t (block_mx P1 0 0 P2) = block_mx (innov_cov M1 t P1) 0 0 (innov_cov M2 t P2).
Proof. by rewrite /innov_cov /= btr !bmul badd. Qed.
Lemma block_gain t P1 P2 : gain M t (block_mx P1 0 0 P2) = block_mx (gain M1 t P1) 0 0 (gain M2 t P2).
Proof. by rewrite /gain block_innov pinv_block /= btr !bmul. Qed.
Lemma block_correct t s1 s2 : correct M (ym mis d) t (joined s1 s2) =
  joined (correct M1 (ym mis d1) t s1) (correct M2 (ym mis d2) t s2).
Proof.
rewrite /correct /ym; case: (mis t) => //; rewrite /joined [(_, _).1]/= [(_, _).2]/= block_gain.
rewrite [mC M t]/= [md M t]/= /d.
by congr pair; rewrite ?(bmulc, cadd, copp) // ?(bmul, bopp, badd).
Qed.
Lemma block_predict t s1 s2 : predict M t (joined s1 s2) = joined (predict M1 t s1) (predict M2 t s2).
Proof. by rewrite /predict /joined /= bmulc cadd btr !bmul badd. Qed.
Lemma block_pred t : pred M (ym mis d) t = joined (pred M1 (ym mis d1) t) (pred M2 (ym mis d2) t).
Proof. by elim: t => [|t IH] //=; rewrite IH block_correct block_predict. Qed.
Lemma block_filt t : filt M (ym mis d) t = joined (filt M1 (ym mis d1) t) (filt M2 (ym mis d2) t).
Proof. by rewrite /filt block_pred block_correct. Qed.
Lemma block_sgain t : sgain M (ym mis d) t = block_mx (sgain M1 (ym mis d1) t) 0 0 (sgain M2 (ym mis d2) t).
Proof.
rewrite /sgain block_filt block_pred /joined.
by rewrite [(_, _).2]/= [X in pinv X]/= pinv_block [mA M t]/= btr !bmul.
Qed.
Lemma block_smo j t : smo M (ym mis d) j t = joined (smo M1 (ym mis d1) j t) (smo M2 (ym mis d2) j t).
Proof.
elim: j t => [|j IH] t; first exact: block_filt.
rewrite !smoS IH block_filt block_sgain block_pred /joined.
rewrite [(col_mx _ _, _).1]/= [(col_mx (smo M1 _ _ _).1 _, _).1]/= [(col_mx (pred M1 _ _).1 _, _).1]/=.
rewrite [(col_mx _ _, _).2]/= [(col_mx (smo M1 _ _ _).1 _, _).2]/= [(col_mx (pred M1 _ _).1 _, _).2]/=.
by congr pair; rewrite ?(bmulc, cadd, copp) // btr !(bmul, bopp, badd).
Qed.

Lemma block_Pp t : Pp M mis t = block_mx (Pp M1 mis t) 0 0 (Pp M2 mis t).
Proof.
have H k l (N : lgm R k l) e : Pp N mis t = (pred N (ym mis e) t).2.
  exact: (cov_indep N mis t (fun _ => 0) e).1.
by rewrite (H _ _ M d) block_pred (H _ _ M1 d1) (H _ _ M2 d2).
Qed.
Lemma block_step_term ln ln2pi t : multiplicative_log ln ->
  pd (innov_cov M1 t (Pp M1 mis t)) -> pd (innov_cov M2 t (Pp M2 mis t)) ->
  step_term M mis ln ln2pi d t = step_term M1 mis ln ln2pi d1 t + step_term M2 mis ln ln2pi d2 t.
Proof.
move=> Hln H1 H2; rewrite /step_term block_Pp block_innov block_pred; case: (mis t); first by rewrite addr0.
rewrite /gauss_logpdf [mC M t]/= [md M t]/= [(_, _).1]/= bmulc cadd copp cadd.
rewrite inv_block ?pd_unit // qf_bd det_ublock Hln ?natrD; try exact: det_pd.
move: (qf _ _) (qf _ _) (ln (\det _)) (ln (\det _)) (m1%:R) (m2%:R) (2%:R^-1) => a b e f g h i.
by ring.
Qed.
End Block.
