(** Statements about the square-root unscented filter in the form of the property theorems. *)
From Coq Require Import String List.
From mathcomp Require Import all_ssreflect all_algebra.
From mathcomp Require Import ring.
From Verif Require Import Prelude Zmod LinAlg Numpy NumpyFacts Sklearn Standard Model KfSpec StandardInit StandardFacts Rng Sqrt SqrtFacts Unscented UscSpec UscFacts UscRefine UscLoop
  UscInit UscMain UscPsd UscNeg SqrtUnscented CuFacts SuTri SuFacts SuStep SuMain SuNeg SuNeg2 Examples ExamplesEm UscProps ExamplesUsc.
Import GRing.Theory Num.Theory Order.Theory.

Set Implicit Arguments.
Unset Strict Implicit.
Unset Printing Implicit Defensive.
Local Open Scope ring_scope.

Section P.
Variable R : rcfType.

Lemma cholupdate_vec n (A : 'M[R]_n) (x : 'cV[R]_n) (w : R) :
  upper A -> (forall i, 0 < A i i) -> pd (A^T *m A + w *: (x *m x^T)) ->
  exists2 F, cholupdate (A2 A) (A1 x) w = Ok (A2 F) & is_chol (A^T *m A + w *: (x *m x^T)) F.
Proof. by move=> HA Hd; have := @cholupdate_chol R n 1 x^T A w HA Hd; rewrite trmxK. Qed.

Lemma sukf_same (qr : qr_fun R) (Hqr : qr_valid qr) n m (o : ukf R) T
    (f : nat -> 'cV[R]_n -> 'cV[R]_n) (g : nat -> 'cV[R]_n -> 'cV[R]_m) (Q : 'M[R]_n) (Rn : 'M[R]_m) mu0 P0
    (HM : aukf_model o T f g Q Rn mu0 P0) (HR : pd Rn) (HP : pd P0) (HQ : pd Q) (dQ : is_diag_mx Q)
    (Hf : forall t, (t < T.-1)%N -> tame (f t)) (zs : seq (orow R m)) (Hsz : size zs = T) (Hk : keeps zs)
    (Hg : forall t, (t < T)%N -> stream zs t = None \/ (m <= 1)%N /\ tame (g t)) :
  sukf_filter qr o (O2 m zs) = aukf_filter o (O2 m zs) /\ is_ok (aukf_filter o (O2 m zs)).
Proof. by have [ss [-> ->]] := sukf_is_aukf Hqr HM HR HP HQ dQ Hf Hsz Hk Hg. Qed.

Lemma two_refuted (qr : qr_fun R) (Hqr : qr_valid qr) :
  exists (o : ukf R) f g (Q : 'M[R]_1) (Rn : 'M[R]_2) mu0 P0 zs,
    [/\ aukf_model o 2 f g Q Rn mu0 P0, [/\ pd Rn, pd P0, pd Q & is_diag_mx Q], size zs = 2%N &
        exists (mu mu' : 'cV[R]_1) c c' rows rows',
          [/\ sukf_filter qr o (O2 2 zs) = Ok ((A1 mu, c) :: rows),
              aukf_filter o (O2 2 zs) = Ok ((A1 mu', c') :: rows') & mu <> mu']].
Proof.
exists (two_o R), (@two_f R), (@two_g R), 1%:M, (two_R R), 0, 1%:M, (two_zs R); split; last exact: two_wrong.
- exact: two_model.
- by split; [exact: two_R_pd|exact: pd1|exact: pd1|exact: scalar_mx_is_diag].
- by [].
Qed.

Lemma nondiag_refuted (qr : qr_fun R) (Hqr : qr_valid qr) n m (o : ukf R)
    (f : nat -> 'cV[R]_n -> 'cV[R]_n) (g : nat -> 'cV[R]_n -> 'cV[R]_m) (Q : 'M[R]_n) (Rn : 'M[R]_m) mu0 P0
    (HM : aukf_model o 2 f g Q Rn mu0 P0) (HR : pd Rn) (HP : pd P0) (HQ : pd Q) (dQ : ~~ is_diag_mx Q)
    (Hf : tame (f 0%N)) (z0 z1 : orow R m) (M0 : missing z0) (M1 : missing z1) :
  exists r0 (mu : 'cV[R]_n) (S S' : 'M[R]_n),
    [/\ sukf_filter qr o (O2 m [:: z0; z1]) = Ok [:: r0; (A1 mu, A2 S)],
        aukf_filter o (O2 m [:: z0; z1]) = Ok [:: r0; (A1 mu, A2 S')] & S <> S'].
Proof.
have [Q2 _ HQ2] := cholupperE HQ; have [F _ HF] := cholupperE HP.
exact: (nondiag_wrong Hqr HM HR HP HQ M0 M1 HQ2 HF Hf dQ).
Qed.

Lemma neg_weight_refuted (qr : qr_fun R) (Hqr : qr_valid qr) n m (n3 : (3 < n)%N)
    (z0 z1 : orow R m) (M0 : missing z0) (M1 : missing z1) :
  exists (o : ukf R) f g (Q : 'M[R]_n) (Rn : 'M[R]_m) mu0 P0,
    [/\ aukf_model o 2 f g Q Rn mu0 P0, [/\ pd Rn, pd P0, pd Q & is_diag_mx Q] &
        exists r0 (mu : 'cV[R]_n) (S S' : 'M[R]_n),
          [/\ sukf_filter qr o (O2 m [:: z0; z1]) = Ok [:: r0; (A1 mu, A2 S)],
              aukf_filter o (O2 m [:: z0; z1]) = Ok [:: r0; (A1 mu, A2 S')] & S <> S']].
Proof.
do 7 eexists; split; last exact: (negative_weight_wrong n3 Hqr M0 M1).
- exact: bump_model.
- split; [exact: pd1|exact: pd1|exact: is_chol_pd (is_chol_scalar n (q_gt0 R n3))|exact: scalar_mx_is_diag].
Qed.

(** a correlated transition covariance *)
Definition corr_Q : 'M[R]_2 := 1%:M + const_mx 1.
Definition corr_o : ukf R := @ukf_of R 2 1 _ _ (@pyf1 R 2 2) (@pyf1 R 2 1) 2 (fun _ => id) (fun _ _ => 0) corr_Q 1%:M 0 1%:M None.
Lemma corr_model : aukf_model corr_o 2 (fun _ => id) (fun _ _ => 0) corr_Q (1%:M : 'M[R]_1) 0 1%:M.
Proof. exact: aukf_of_model. Qed.
Lemma corr_Q_pd : pd corr_Q.
Proof.
apply: pdDr; first exact: pd1.
have -> : const_mx 1 = (const_mx 1 : 'M[R]_(1, 2))^T *m const_mx 1 :> 'M[R]_2; last exact: psd_gramT.
by apply/matrixP=> i j; rewrite !mxE big_ord1 !mxE mulr1.
Qed.
Lemma corr_Q_nondiag : ~~ is_diag_mx corr_Q.
Proof. by apply/negP=> /is_diag_mxP/(_ 0 1 isT)/eqP; rewrite !mxE /= add0r oner_eq0. Qed.

(** a downdate with two vectors *)
Lemma down_pd (a : R) : 1 < a * a -> pd ((a%:M : 'M[R]_2)^T *m a%:M + (-1) *: ((1%:M : 'M[R]_2)^T *m 1%:M)).
Proof.
move=> Ha; have -> : (a%:M : 'M[R]_2)^T *m a%:M + (-1) *: ((1%:M : 'M[R]_2)^T *m 1%:M) = (a * a - 1) *: 1%:M.
  by rewrite tr_scalar_mx -scalar_mxM trmx1 mulmx1 -[(a * a)%:M]scalemx1 -scalerDl.
by apply: pdZ; [rewrite subr_gt0|exact: pd1].
Qed.
Lemma down_upper (a : R) : upper (a%:M : 'M[R]_2).
Proof. by move=> i j ij; rewrite mxE -(inj_eq val_inj) (gtn_eqF ij) mulr0n. Qed.
Lemma down_diag (a : R) i : (a%:M : 'M[R]_2) i i = a.
Proof. by rewrite mxE eqxx mulr1n. Qed.
Lemma two_sq : 1 < 2%:R * 2%:R :> R.
Proof. by rewrite -natrM ltr1n. Qed.
End P.
