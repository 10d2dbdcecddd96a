(** Statements about the square-root unscented smoother in the form of the property theorems. *)
From Coq Require Import String List.
From mathcomp Require Import all_ssreflect all_algebra.
From Verif Require Import Prelude LinAlg Numpy NumpyFacts Sklearn Standard Model KfSpec StandardInit StandardFacts Rng Sqrt SqrtFacts Unscented UscSpec UscFacts UscRefine UscLoop
  UscInit UscMain UscPsd UscNeg SqrtUnscented CuFacts CuRank SuTri SuFacts SuStep SuMain SuSmooth SuSmooth2 SuSmoothMain SuProps Examples ExamplesEm UscProps ExamplesUsc.
Import GRing.Theory Num.Theory Order.Theory.

Set Implicit Arguments.
Unset Strict Implicit.
Unset Printing Implicit Defensive.
Local Open Scope ring_scope.

Section P.
Variable R : rcfType.
Section Model.
Variables (qr : qr_fun R) (Hqr : qr_valid qr) (n m : nat) (o : ukf R) (T : nat).
Variables (f : nat -> 'cV[R]_n -> 'cV[R]_n) (g : nat -> 'cV[R]_n -> 'cV[R]_m) (Q : 'M[R]_n) (Rn : 'M[R]_m) (mu0 : 'cV[R]_n) (P0 : 'M[R]_n).
Hypotheses (HM : aukf_model o T f g Q Rn mu0 P0).
Variable zs : seq (orow R m).
Hypotheses (Hsz : size zs = T) (Hk : keeps zs).

Lemma last_missing_fails rows : (1 < n)%N -> (1 < T)%N -> stream zs T.-1 = None ->
  sukf_filter qr o (O2 m zs) = Ok rows -> sukf_smooth qr o (O2 m zs) = Err NotANumber.
Proof. by move=> n1 T1 Hs H; apply: (smooth_fails Hqr HM Hsz T1 Hk H); right. Qed.
Lemma few_obs_fails rows : (m.+1 < n)%N -> (1 < T)%N ->
  sukf_filter qr o (O2 m zs) = Ok rows -> sukf_smooth qr o (O2 m zs) = Err NotANumber.
Proof. by move=> mn T1 H; apply: (smooth_fails Hqr HM Hsz T1 Hk H); left. Qed.

Hypotheses (HR : pd Rn) (HP : pd P0) (HQ : pd Q) (dQ : is_diag_mx Q) (Hf : forall t, (t < T.-1)%N -> tame (f t)).
Hypothesis Hg : forall t, (t < T)%N -> stream zs t = None \/ (m <= 1)%N /\ tame (g t).
Hypothesis T0 : (0 < T)%N.
Lemma finite_right : is_ok (aukf_smooth o (O2 m zs)) /\
  (sukf_smooth qr o (O2 m zs) = Err NotANumber \/ sukf_smooth qr o (O2 m zs) = aukf_smooth o (O2 m zs)).
Proof.
have [H1 [[_ H2]|H2]] := sukf_smooth_is Hqr HM HR HP HQ dQ Hf Hsz Hk Hg T0; (split; first exact: H1); [left|right]; exact: H2.
Qed.
Lemma scalar_right : (n <= 1)%N -> is_ok (aukf_smooth o (O2 m zs)) /\ sukf_smooth qr o (O2 m zs) = aukf_smooth o (O2 m zs).
Proof.
move=> n1; have [H1 [[H2 _]|H2]] := sukf_smooth_is Hqr HM HR HP HQ dQ Hf Hsz Hk Hg T0; last by split; [exact: H1|exact: H2].
by rewrite ltnNge n1 in H2.
Qed.
End Model.

(** a random walk with a scalar observation *)
Section Walk.
Variable n : nat.
Definition walk_f (_ : nat) (x : 'cV[R]_n.+1) := x.
Definition walk_g (_ : nat) (x : 'cV[R]_n.+1) : 'cV[R]_1 := (delta_mx 0 0 : 'M[R]_(1, n.+1)) *m x + 0.
Definition walk_o : ukf R := @ukf_of R n.+1 1 _ _ (@pyf1 R n.+1 n.+1) (@pyf1 R n.+1 1) 2 walk_f walk_g 1%:M 1%:M 0 1%:M None.
Lemma walk_model : aukf_model walk_o 2 walk_f walk_g 1%:M 1%:M 0 1%:M.
Proof. exact: aukf_of_model. Qed.
Definition walk_zs b : seq (orow R 1) := [:: mk_row false (const_mx 2%:R); mk_row b (const_mx 3%:R)].
Lemma walk_f_tame t : tame (walk_f t).
Proof. by right; exists 1%:M, 0 => x; rewrite mul1mx addr0. Qed.
Lemma walk_g_tame t : tame (walk_g t).
Proof. by right; exists (delta_mx 0 0), 0. Qed.
Lemma walk_ok (qr : qr_fun R) (Hqr : qr_valid qr) b : is_ok (sukf_filter qr walk_o (O2 1 (walk_zs b))).
Proof.
have Hg : forall t, (t < 2)%N -> stream (walk_zs b) t = None \/ (1 <= 1)%N /\ tame (@walk_g t).
  by move=> t _; right; split; [|exact: walk_g_tame].
have [E1 E2] := @sukf_same R qr Hqr n.+1 1 walk_o 2 walk_f walk_g 1%:M 1%:M 0 1%:M walk_model (pd1 R 1) (pd1 R _) (pd1 R _) (scalar_mx_is_diag _ _)
  (fun t _ => @walk_f_tame t) (walk_zs b) erefl erefl Hg.
by rewrite E1; exact: E2.
Qed.
Lemma walk_missing : stream (walk_zs true) 1 = None.
Proof. by rewrite /stream /= missing_row. Qed.
Definition walk_args (r : orow R 1) : uuargs R :=
  UUArgs (Some (A1 r.1, missing r)) (Some (pyf1 (walk_f 0))) None (Some (pyf1 (walk_g 1))) (Some (A2 (1%:M : 'M[R]_1))).
Lemma walk_args_ok r : aukf_args walk_o walk_f walk_g 1%:M 1%:M 0 r (walk_args r).
Proof. by split=> /=; try exact: pyf1E; [left|right|left]. Qed.
End Walk.
Lemma masked_pair :
  let zs := [:: mk_row true (const_mx 2%:R : 'cV[R]_2); mk_row false (const_mx 3%:R)] in
  let zs' := [:: mk_row true (const_mx 5%:R : 'cV[R]_2); mk_row false (const_mx 3%:R)] in
  [/\ keeps zs, same_visible_rows zs zs' & zs <> zs'].
Proof.
split=> [//||[/matrixP/(_ 0 0)]].
  by constructor; [split=> // H; have := missing_row true (const_mx 2%:R : 'cV[R]_2); rewrite H|constructor].
by rewrite !mxE => /eqP; rewrite (eqr_nat R 2 5).
Qed.
End P.
