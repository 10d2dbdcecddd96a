(** Errors of linear estimates as linear functions of the initial state and the
    noises; their covariance is monotone in the noise covariances. *)
From Coq Require Import String List.
From mathcomp Require Import all_ssreflect all_algebra.
From mathcomp Require Import ring.
From Verif Require Import Prelude Zmod LinAlg Numpy NumpyFacts Sklearn Standard Model KfSpec KfMoreSpec
  StandardInit StandardFacts SpecL2 L2Facts Lmmse Exists KfOptimal KfModelFacts.
Import GRing.Theory Num.Theory Order.Theory.

Set Implicit Arguments.
Unset Strict Implicit.
Unset Printing Implicit Defensive.
Local Open Scope ring_scope.

(** coefficients *)
Section Coef.
Variables (R : rcfType) (n m : nat) (A : nat -> 'M[R]_n) (C : nat -> 'M[R]_(m, n)).
Fixpoint xF t : 'M[R]_n := if t is t'.+1 then A t' *m xF t' else 1%:M.
Fixpoint xG t s : 'M[R]_n := if t is t'.+1 then A t' *m xG t' s + (if s == t' then 1%:M else 0) else 0.
Definition zF t := C t *m xF t.
Definition zG t s := C t *m xG t s.
Definition zH (t s : nat) : 'M[R]_m := if s == t then 1%:M else 0.
Variables (mis : nat -> bool) (L : nat -> 'M[R]_(n, m)).
Definition eF t k := xF t - \sum_(s < k | ~~ mis s) L s *m zF s.
Definition eG t k r := xG t r - \sum_(s < k | ~~ mis s) L s *m zG s r.
Definition eH k r : 'M[R]_(n, m) := 0 - \sum_(s < k | ~~ mis s) L s *m zH s r.
End Coef.

Section Dec.
Variables (R : rcfType) (Sp : l2space R) (n m : nat) (M : lgm R n m) (T : nat).
Variables (x : nat -> Om Sp -> 'cV[R]_n) (z : nat -> Om Sp -> 'cV[R]_m).
Variables (w : nat -> Om Sp -> 'cV[R]_n) (v : nat -> Om Sp -> 'cV[R]_m).
Hypothesis Hob : obeys M T x z w v.
Notation X := (X Hob).
Notation Z := (Z Hob).
Notation W := (W Hob).
Notation V := (V Hob).
Notation X0 := (X0 Hob).
Notation A := (mA M).
Notation C := (mC M).

Definition dec p (Y : RV Sp p) (F : 'M[R]_(p, n)) (G : nat -> 'M[R]_(p, n)) (H : nat -> 'M[R]_(p, m)) : Prop :=
  forall q (U : RV Sp q), cov Y U = F *m cov X0 U + \sum_(s < T) G s *m cov (W s) U + \sum_(s < T) H s *m cov (V s) U.

Lemma dec_ext p (Y Y' : RV Sp p) F G H : Y =1 Y' -> dec Y F G H -> dec Y' F G H.
Proof. by move=> E D q U; rewrite -D; apply: cov_ext => // om; rewrite E. Qed.
Lemma dec_add p (Y Y' : RV Sp p) F F' G G' H H' : dec Y F G H -> dec Y' F' G' H' ->
  dec (rva Y Y') (F + F') (fun s => G s + G' s) (fun s => H s + H' s).
Proof.
move=> D D' q U; rewrite covDl D D'.
have E k (g g' : nat -> 'M[R]_(p, k)) (u : nat -> 'M[R]_(k, q)) :
  \sum_(s < T) (g s + g' s) *m u s = \sum_(s < T) g s *m u s + \sum_(s < T) g' s *m u s.
  by rewrite -big_split /=; apply: eq_bigr => s _; rewrite mulmxDl.
rewrite (E _ G G' (fun s => cov (W s) U)) (E _ H H' (fun s => cov (V s) U)) mulmxDl.
by zmod.
Qed.
Lemma dec_mul p q (B : 'M[R]_(q, p)) (Y : RV Sp p) F G H : dec Y F G H ->
  dec (rvm B Y) (B *m F) (fun s => B *m G s) (fun s => B *m H s).
Proof.
move=> D r U; rewrite covMl D !mulmxDr !mulmx_sumr mulmxA.
by congr (_ + _ + _); apply: eq_bigr => s _; rewrite mulmxA.
Qed.
Lemma dec_opp p (Y : RV Sp p) F G H : dec Y F G H -> dec (rvo Y) (- F) (fun s => - G s) (fun s => - H s).
Proof.
move=> D q U; rewrite covNl D !opprD -!sumrN mulNmx.
by congr (_ + _ + _); apply: eq_bigr => s _; rewrite mulNmx.
Qed.
Lemma dec_const p (c : 'cV[R]_p) : dec (rvc Sp c) 0 (fun _ => 0) (fun _ => 0).
Proof. by move=> q U; rewrite covcl mul0mx !big1 ?addr0 // => s _; rewrite mul0mx. Qed.
Lemma dec_W t : (t < T)%N -> dec (W t) 0 (fun s => if s == t then 1%:M else 0) (fun _ => 0).
Proof.
move=> tT q U; rewrite mul0mx add0r [X in _ + X]big1 ?addr0; last by move=> s _; rewrite mul0mx.
rewrite (bigD1 (Ordinal tT)) //= eqxx mul1mx big1 ?addr0 // => s st.
have /negbTE -> : nat_of_ord s != t by apply: contraNneq st => e; apply/eqP/val_inj.
by rewrite mul0mx.
Qed.
Lemma dec_V t : (t < T)%N -> dec (V t) 0 (fun _ => 0) (zH R m t).
Proof.
move=> tT q U; rewrite mul0mx add0r [X in X + _]big1 ?add0r; last by move=> s _; rewrite mul0mx.
rewrite (bigD1 (Ordinal tT)) //= /zH eqxx mul1mx big1 ?addr0 // => s st.
have /negbTE -> : nat_of_ord s != t by apply: contraNneq st => e; apply/eqP/val_inj.
by rewrite mul0mx.
Qed.
Lemma dec_eq p (Y : RV Sp p) F F' G G' H H' : dec Y F G H -> F = F' -> G =1 G' -> H =1 H' -> dec Y F' G' H'.
Proof.
move=> D <- EG EH q U; rewrite D; congr (_ + _ + _); apply: eq_bigr => s _; first by rewrite EG.
by rewrite EH.
Qed.

Lemma dec_X t : (t < T)%N -> dec (X t) (xF A t) (xG A t) (fun _ => 0).
Proof.
elim: t => [|t IH] tT.
  by move=> q U; rewrite /= mul1mx !big1 ?addr0 // => s _; rewrite mul0mx.
have tT' := ltnW tT.
apply: dec_eq (dec_add (dec_add (dec_mul (A t) (IH tT')) (dec_const (mb M t))) (dec_W tT')) _ _ _.
- by rewrite !addr0.
- by move=> s; rewrite addr0.
- by move=> s; rewrite mulmx0 !addr0.
Qed.
Lemma dec_Z t : (t < T)%N -> dec (Z t) (zF A C t) (zG A C t) (zH R m t).
Proof.
move=> tT; apply: dec_eq (dec_add (dec_add (dec_mul (C t) (dec_X tT)) (dec_const (md M t))) (dec_V tT)) _ _ _.
- by rewrite !addr0.
- by move=> s; rewrite !addr0.
- by move=> s; rewrite mulmx0 !add0r.
Qed.

Variables (mis : nat -> bool) (L : nat -> 'M[R]_(n, m)).
(** affine estimate as a random vector *)
Fixpoint Est (c : 'cV[R]_n) k : RV Sp n :=
  if k is k'.+1 then (if mis k' then Est c k' else rva (Est c k') (rvm (L k') (Z k'))) else rvc Sp c.
Lemma EstE c k om : Est c k om = affine_est Z mis k c L om.
Proof.
elim: k => [|k IH]; first by rewrite /affine_est big_ord0 addr0.
rewrite /affine_est big_mkcond big_ord_recr /= -big_mkcond /=.
by case: (mis k) => /=; rewrite ?addr0 IH // /affine_est addrA.
Qed.
Lemma dec_Est c k : (k <= T)%N -> dec (Est c k) (\sum_(s < k | ~~ mis s) L s *m zF A C s)
  (fun r => \sum_(s < k | ~~ mis s) L s *m zG A C s r) (fun r => \sum_(s < k | ~~ mis s) L s *m zH R m s r).
Proof.
have S (U : zmodType) (f : nat -> U) j : \sum_(s < j.+1 | ~~ mis s) f s =
    \sum_(s < j | ~~ mis s) f s + (if ~~ mis j then f j else 0).
  by rewrite big_mkcond big_ord_recr /= -big_mkcond.
elim: k => [|k IH] kT.
  by apply: dec_eq (dec_const c) _ _ _ => [|r|r]; rewrite big_ord0.
rewrite [Est _ _]/=; case Hm: (mis k).
  apply: dec_eq (IH (ltnW kT)) _ _ _ => [|r|r].
  - by rewrite (S _ (fun s => L s *m zF A C s) k) Hm addr0.
  - by rewrite (S _ (fun s => L s *m zG A C s r) k) Hm addr0.
  - by rewrite (S _ (fun s => L s *m zH R m s r) k) Hm addr0.
apply: dec_eq (dec_add (IH (ltnW kT)) (dec_mul (L k) (dec_Z kT))) _ _ _ => [|r|r].
- by rewrite (S _ (fun s => L s *m zF A C s) k) Hm.
- by rewrite (S _ (fun s => L s *m zG A C s r) k) Hm.
- by rewrite (S _ (fun s => L s *m zH R m s r) k) Hm.
Qed.
Definition Err t c k : RV Sp n := rvs (X t) (Est c k).
Lemma dec_Err t c k : (t < T)%N -> (k <= T)%N -> dec (Err t c k) (eF A C mis L t k) (eG A C mis L t k) (eH mis L k).
Proof. by move=> tT kT; exact: dec_add (dec_X tT) (dec_opp (dec_Est c kT)). Qed.

Lemma dec_var p (Y : RV Sp p) F G H : dec Y F G H ->
  cov Y Y = F *m mP M *m F^T + \sum_(s < T) G s *m cov (W s) (W s) *m (G s)^T + \sum_(s < T) H s *m mR M s *m (H s)^T.
Proof.
move=> D; rewrite {1}D.
have E0 : cov Y X0 = F *m mP M.
  rewrite D (ob_cx0 Hob) !big1 ?addr0 // => s _; first by rewrite -cov_tr cX0V trmx0 mulmx0.
  by rewrite -cov_tr cX0W trmx0 mulmx0.
have SP : (mP M)^T = mP M by rewrite -(ob_cx0 Hob) cov_tr.
rewrite -(cov_tr Y X0) E0 trmx_mul SP mulmxA; congr (_ + _ + _); apply: eq_bigr => t _.
  have E1 : cov Y (W t) = G t *m cov (W t) (W t).
    rewrite D cX0W mulmx0 add0r [X in _ + X]big1 ?addr0; last by move=> s _; rewrite -cov_tr cWV trmx0 mulmx0.
    rewrite (bigD1 t) //= big1 ?addr0 // => s st; rewrite (cWW Hob) ?mulmx0 // => e; case/eqP: st; exact: val_inj.
  by rewrite -(cov_tr Y) E1 trmx_mul cov_tr mulmxA.
have SR : (mR M t)^T = mR M t by rewrite -(cR Hob) // cov_tr.
have E1 : cov Y (V t) = H t *m mR M t.
  rewrite D cX0V mulmx0 add0r [X in X + _]big1 ?add0r; last by move=> s _; rewrite cWV mulmx0.
  rewrite (bigD1 t) //= (cR Hob) // big1 ?addr0 // => s st; rewrite (cVV Hob) ?mulmx0 // => e; case/eqP: st; exact: val_inj.
by rewrite -(cov_tr Y) E1 trmx_mul SR mulmxA.
Qed.

Lemma mean_X t : mean (X t) = mean_path M t.
Proof.
elim: t => [|t IH]; first exact: (ob_mx0 Hob).
by rewrite [X _]/= !meanD meanM IH mean_c mW addr0.
Qed.
Lemma mean_Z t : mean (Z t) = mC M t *m mean_path M t + md M t.
Proof. by rewrite !meanD meanM mean_X mean_c mV addr0. Qed.
Lemma mean_Est c k : mean (Est c k) = c + \sum_(s < k | ~~ mis s) L s *m (mC M s *m mean_path M s + md M s).
Proof.
elim: k => [|k IH]; first by rewrite big_ord0 addr0 mean_c.
have -> : Est c k.+1 = if mis k then Est c k else rva (Est c k) (rvm (L k) (Z k)) by [].
have -> : \sum_(s < k.+1 | ~~ mis s) L s *m (mC M s *m mean_path M s + md M s) =
  \sum_(s < k | ~~ mis s) L s *m (mC M s *m mean_path M s + md M s) +
  (if ~~ mis k then L k *m (mC M k *m mean_path M k + md M k) else 0).
  by rewrite big_mkcond big_ord_recr /= -big_mkcond.
case: (mis k); first by rewrite addr0 IH.
by rewrite meanD IH meanM mean_Z addrA.
Qed.
End Dec.

Section Two.
Variables (R : rcfType) (n m : nat) (M M' : lgm R n m) (T : nat).
Hypothesis HL : less_noise T M M'.

Lemma xF_eq t : (t < T)%N -> xF (mA M') t = xF (mA M) t.
Proof.
elim: t => [|t IH] tT //=.
have tT1 : (t < T.-1)%N by rewrite -ltnS prednK //; apply: leq_ltn_trans tT.
by rewrite IH ?(ltnW tT) // (ln_A HL).
Qed.
Lemma xG_eq t s : (t < T)%N -> xG (mA M') t s = xG (mA M) t s.
Proof.
elim: t => [|t IH] tT //=.
have tT1 : (t < T.-1)%N by rewrite -ltnS prednK //; apply: leq_ltn_trans tT.
by rewrite IH ?(ltnW tT) // (ln_A HL).
Qed.
Lemma eF_eq mis L t k : (t < T)%N -> (k <= T)%N -> eF (mA M') (mC M') mis L t k = eF (mA M) (mC M) mis L t k.
Proof.
move=> tT kT; rewrite /eF xF_eq //; congr (_ - _); apply: eq_bigr => s _.
have sT := leq_trans (ltn_ord s) kT.
by rewrite /zF (ln_C HL) ?xF_eq.
Qed.
Lemma eG_eq mis L t k r : (t < T)%N -> (k <= T)%N -> eG (mA M') (mC M') mis L t k r = eG (mA M) (mC M) mis L t k r.
Proof.
move=> tT kT; rewrite /eG xG_eq //; congr (_ - _); apply: eq_bigr => s _.
have sT := leq_trans (ltn_ord s) kT.
by rewrite /zG (ln_C HL) ?xG_eq.
Qed.

Lemma lep_sum (f g : 'I_T -> 'M[R]_n) : (forall i, lep (f i) (g i)) -> lep (\sum_i f i) (\sum_i g i).
Proof.
move=> H; elim/big_rec2: _ => [|i a b _ Hab]; first exact: lep_refl.
exact: lepD.
Qed.

Section Cmp.
Variables (Sp Sp' : l2space R).
Variables (x : nat -> Om Sp -> 'cV[R]_n) (z : nat -> Om Sp -> 'cV[R]_m).
Variables (w : nat -> Om Sp -> 'cV[R]_n) (v : nat -> Om Sp -> 'cV[R]_m).
Variables (x' : nat -> Om Sp' -> 'cV[R]_n) (z' : nat -> Om Sp' -> 'cV[R]_m).
Variables (w' : nat -> Om Sp' -> 'cV[R]_n) (v' : nat -> Om Sp' -> 'cV[R]_m).
Hypothesis Hob : obeys M T x z w v.
Hypothesis Hob' : obeys M' T x' z' w' v'.

Lemma cWW_le s : lep (cov (W Hob s) (W Hob s)) (cov (W Hob' s) (W Hob' s)).
Proof.
case sT: (s < T.-1)%N; first by rewrite !cQ //; exact: (ln_Q HL).
rewrite (cov_ext (cut_F _ (negbT sT)) (frefl _)) covcl.
by rewrite (cov_ext (cut_F _ (negbT sT)) (frefl _)) covcl; exact: lep_refl.
Qed.

Lemma Err_le mis L t c c' k : (t < T)%N -> (k <= T)%N ->
  lep (cov (Err Hob mis L t c k) (Err Hob mis L t c k)) (cov (Err Hob' mis L t c' k) (Err Hob' mis L t c' k)).
Proof.
move=> tT kT; rewrite (dec_var (dec_Err Hob mis L c tT kT)) (dec_var (dec_Err Hob' mis L c' tT kT)).
apply: lepD; first apply: lepD.
- by rewrite eF_eq //; apply: lep_congr; exact: (ln_P HL).
- by apply: lep_sum => s; rewrite eG_eq //; apply: lep_congr; exact: cWW_le.
- by apply: lep_sum => s; apply: lep_congr; exact: (ln_R HL).
Qed.

Lemma affine_estE Sp0 (x0 : nat -> Om Sp0 -> 'cV[R]_n) (z0 : nat -> Om Sp0 -> 'cV[R]_m) w0 v0 (N : lgm R n m) (H : obeys N T x0 z0 w0 v0) mis k c L om : (k <= T)%N ->
  affine_est z0 mis k c L om = Est H mis L c k om.
Proof.
move=> kT; rewrite EstE /affine_est; congr (_ + _); apply: eq_bigr => s _; rewrite Z_z //.
exact: leq_trans (ltn_ord s) kT.
Qed.
Lemma ErrE Sp0 (x0 : nat -> Om Sp0 -> 'cV[R]_n) (z0 : nat -> Om Sp0 -> 'cV[R]_m) w0 v0 (N : lgm R n m) (H : obeys N T x0 z0 w0 v0) mis k c L t om : (t < T)%N -> (k <= T)%N ->
  x0 t om - affine_est z0 mis k c L om = Err H mis L t c k om.
Proof. by move=> tT kT; rewrite (affine_estE H) // /Err rvsE X_x. Qed.

(** the best estimate under the smaller noise is at least as good *)
Lemma blue_mono mis t k xh xh' P P' : (t < T)%N -> (k <= T)%N ->
  blue (x t) z mis k xh P -> blue (x' t) z' mis k xh' P' -> lep P P'.
Proof.
move=> tT kT HB [[c [L HL']] _ _ Hc _].
have E' om : x' t om - xh' om = Err Hob' mis L t c k om by rewrite HL' (ErrE Hob').
pose c0 := mean_path M t - \sum_(s < k | ~~ mis s) L s *m (mC M s *m mean_path M s + md M s).
have E om : x t om - affine_est z mis k c0 L om = Err Hob mis L t c0 k om by rewrite (ErrE Hob).
have := bl_best HB c0 L; rewrite (mom_ext E E) mom_cov.
have -> : mean (Err Hob mis L t c0 k) = 0 by rewrite meanB mean_X mean_Est /c0 subrK subrr.
rewrite mul0mx addr0 => H; apply: lep_trans H _.
rewrite -Hc (cov_ext E' E'); exact: Err_le.
Qed.

(** the estimate tuned for the larger noise is unbiased under the smaller one,
    and its reported covariance is an upper bound *)
Hypothesis HS : same_offsets T M M'.
Lemma traj_eq t : (t < T)%N -> mean_path M' t = mean_path M t.
Proof.
elim: t => [|t IH] tT; first exact: (so_mu HS).
have tT1 : (t < T.-1)%N by rewrite -ltnS prednK //; apply: leq_ltn_trans tT.
by rewrite /= IH ?(ltnW tT) // (ln_A HL) // (so_b HS).
Qed.
Lemma blue_conservative mis t k c L P' : (t < T)%N -> (k <= T)%N ->
  blue (x' t) z' mis k (affine_est z' mis k c L) P' ->
  mean (fun om => x t om - affine_est z mis k c L om) = 0 /\
  lep (cov (fun om => x t om - affine_est z mis k c L om) (fun om => x t om - affine_est z mis k c L om)) P'.
Proof.
move=> tT kT [_ Hu _ Hc _].
have E' om : x' t om - affine_est z' mis k c L om = Err Hob' mis L t c k om by rewrite (ErrE Hob').
have E om : x t om - affine_est z mis k c L om = Err Hob mis L t c k om by rewrite (ErrE Hob).
split; last by rewrite (cov_ext E E) -Hc (cov_ext E' E'); exact: Err_le.
have HE : \sum_(s < k | ~~ mis s) L s *m (mC M' s *m mean_path M' s + md M' s) =
    \sum_(s < k | ~~ mis s) L s *m (mC M s *m mean_path M s + md M s).
  apply: eq_bigr => s _; have sT := leq_trans (ltn_ord s) kT.
  by rewrite traj_eq // (ln_C HL) // (so_d HS).
by move: Hu; rewrite (mean_ext E') (mean_ext E) !meanB !mean_X !mean_Est traj_eq // HE.
Qed.
End Cmp.
End Two.
