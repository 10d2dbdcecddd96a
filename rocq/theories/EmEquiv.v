(** em in other state coordinates and other units of the observations. *)
From Coq Require Import String List.
From mathcomp Require Import all_ssreflect all_algebra.
From Verif Require Import Prelude Zmod LinAlg Numpy NumpyFacts Sklearn Standard Model KfSpec SpecL2 L2Facts GaussSpec Exists Lmmse StandardInit
  StandardFacts KfOptimal KfModelFacts KfEquiv KfGlue KfEm EmSpec EmForm EmStep EmGlue EmChain EmMono KfMoreGlue2.
Import Order.Theory GRing.Theory Num.Theory.

Set Implicit Arguments.
Unset Strict Implicit.
Unset Printing Implicit Defensive.
Local Open Scope ring_scope.

Section Upto.
Variables (R : rcfType) (n m : nat).
(** the same parameters at the times that matter *)
Record upto T (K K' : lgm R n m) : Prop := Upto {
  up_A : forall t, (t < T.-1)%N -> mA K t = mA K' t; up_b : forall t, (t < T.-1)%N -> mb K t = mb K' t;
  up_Q : forall t, (t < T.-1)%N -> mQ K t = mQ K' t; up_C : forall t, (t < T)%N -> mC K t = mC K' t;
  up_d : forall t, (t < T)%N -> md K t = md K' t; up_R : forall t, (t < T)%N -> mR K t = mR K' t;
  up_mu : mmu K = mmu K'; up_P : mP K = mP K' }.

Lemma rep2_ext a b (X : arr R) T (F F' : nat -> 'M[R]_(a, b)) : (forall t, (t < T)%N -> F t = F' t) -> rep2 X T F -> rep2 X T F'.
Proof.
move=> E [[M0 H1 H2]|[s [H1 H2 H3]]]; [left; exists M0|right; exists s; split] => // t tT; rewrite -E //; [exact: H2|exact: H3].
Qed.
Lemma rep1_ext a (X : arr R) T (F F' : nat -> 'cV[R]_a) : (forall t, (t < T)%N -> F t = F' t) -> rep1 X T F -> rep1 X T F'.
Proof.
move=> E [[M0 H1 H2]|[k [M0 [H1 H2 H3]]]]; [left; exists M0|right; exists k, M0; split] => // t tT; rewrite -E //; [exact: H2|exact: H3].
Qed.
Lemma kf_model_upto o T (K K' : lgm R n m) : upto T K K' -> kf_model o T K -> kf_model o T K'.
Proof.
move=> [uA ub uQ uC ud uR um uP] [h1 h2 h3 h4 h5 h6 h7 h8 h9 h10 h11]; split=> //.
- move: h4; rewrite /attr; case: (k_tm o) => [X|]; first exact: rep2_ext.
  by move=> H t tT; rewrite -uA // H.
- move: h5; rewrite /attr; case: (k_to o) => [X|]; first exact: rep1_ext.
  by move=> H t tT; rewrite -ub // H.
- move: h6; rewrite /attr; case: (k_tc o) => [X|]; first exact: rep2_ext.
  by move=> H t tT; rewrite -uQ // H.
- move: h7; rewrite /attr; case: (k_om o) => [X|]; first exact: rep2_ext.
  by move=> H t tT; rewrite -uC // H.
- move: h8; rewrite /attr; case: (k_oo o) => [X|]; first exact: rep1_ext.
  by move=> H t tT; rewrite -ud // H.
- move: h9; rewrite /attr; case: (k_oc o) => [X|]; first exact: rep2_ext.
  by move=> H t tT; rewrite -uR // H.
- by move: h10; rewrite /attr; case: (k_im o) => [X|]; rewrite um.
- by move: h11; rewrite /attr; case: (k_ic o) => [X|]; rewrite uP.
Qed.
End Upto.

Section Coord0.
Variables (R : rcfType) (n m : nat) (M : lgm R n m) (T : nat) (mis : nat -> bool) (y : nat -> 'cV[R]_m).
Variables (G : 'M[R]_n) (h : 'cV[R]_n).
Hypothesis UG : G \in unitmx.
Hypothesis T0 : (0 < T)%N.
Let M' := coord_model M G h.
Variables (x x' : nat -> 'cV[R]_n) (P P' L L' : nat -> 'M[R]_n).
Hypothesis xPG : forall t, (t < T)%N -> x' t = G *m x t + h /\ P' t = G *m P t *m G^T.
Hypothesis LagG : forall t, (t.+1 < T)%N -> L' t.+1 = G *m L t.+1 *m G^T.
Hypothesis P_pd : forall t, (t < T)%N -> pd (P t).

Lemma E2_pd t : (t < T)%N -> pd (P t + x t *m (x t)^T).
Proof. by move=> tT; apply: pdDr; [exact: P_pd|exact: psd_gram]. Qed.
Lemma sum_pd k (Q : ssrbool.pred nat) (F : nat -> 'M[R]_n) : (forall t, (t < k)%N -> pd (F t)) ->
  pd (\sum_(t < k | Q t) F t) \/ forall t : 'I_k, Q t = false.
Proof.
move=> H; have [/existsP[t Qt]|/existsPn Hn] := boolP [exists t : 'I_k, Q t]; last by right=> t; apply/negbTE; exact: Hn.
left; rewrite (bigD1 t) //=; apply: pdDr; first exact: H.
by apply: psd_sum => s _; apply: pd_psd; exact: H.
Qed.
Lemma pinvG k (F : 'M[R]_(k, n)) S : pd S \/ F = 0 -> F *m G^T *m pinv (G *m S *m G^T) = F *m pinv S *m invmx G.
Proof.
case=> [HS|->]; last by rewrite !mul0mx.
have HS' : pd (G *m S *m G^T) by apply: pd_congr_unit.
rewrite !pinv_pd //; apply: (can_inj (mulmxK (pd_unit HS'))).
by rewrite (mulmxKV (pd_unit HS')) !mulmxA (mulmxKV UG) (mulmxKV (pd_unit HS)).
Qed.
Lemma sandwich k (Q : ssrbool.pred nat) (F : nat -> 'M[R]_n) :
  \sum_(t < k | Q t) (G *m F t *m G^T) = G *m (\sum_(t < k | Q t) F t) *m G^T.
Proof. by rewrite mulmx_sumr mulmx_suml. Qed.
Lemma E2G t : h = 0 -> (t < T)%N -> P' t + x' t *m (x' t)^T = G *m (P t + x t *m (x t)^T) *m G^T.
Proof. by move=> h0 tT; have [-> ->] := xPG tT; rewrite h0 addr0 mulmxDr mulmxDl trmx_mul !mulmxA. Qed.

Lemma omG (d d' : nat -> 'cV[R]_m) : h = 0 -> (forall t, (t < T)%N -> d' t = d t) ->
  f_om T x' P' mis y d' = f_om T x P mis y d *m invmx G.
Proof.
move=> h0 Ed; rewrite /f_om.
rewrite (eq_bigr (fun t : 'I_T => G *m (P t + x t *m (x t)^T) *m G^T)) => [|t _]; last exact: (E2G h0).
rewrite (sandwich T (fun t => ~~ mis t) (fun t => P t + x t *m (x t)^T)).
rewrite (eq_bigr (fun t : 'I_T => (y t - d t) *m (x t)^T *m G^T)) => [|t _]; last first.
  by rewrite Ed // (xPG (ltn_ord t)).1 h0 addr0 trmx_mul mulmxA.
rewrite -mulmx_suml; apply: pinvG.
have [H|H] := sum_pd (fun t => ~~ mis t) (fun t tT => E2_pd tT); [by left|right].
by apply: big1 => t; rewrite H.
Qed.
Lemma ltp (t : 'I_T.-1) : (t < T)%N /\ (t.+1 < T)%N.
Proof. by case: T T0 t => // T' _ [t tT] /=; split=> //; exact: ltnW. Qed.
Lemma tmG (b b' : nat -> 'cV[R]_n) : h = 0 -> (forall t, (t < T.-1)%N -> b' t = G *m b t) ->
  f_tm T x' P' L' b' = G *m f_tm T x P L b *m invmx G.
Proof.
move=> h0 Eb; rewrite /f_tm.
rewrite [X in _ *m pinv X](eq_bigr (fun t : 'I_T.-1 => G *m (P t + x t *m (x t)^T) *m G^T)) => [|t _]; last exact: (E2G h0 (ltp t).1).
rewrite (sandwich T.-1 predT (fun t => P t + x t *m (x t)^T)).
rewrite (eq_bigr (fun t : 'I_T.-1 => G *m (L t.+1 + x t.+1 *m (x t)^T - b t *m (x t)^T) *m G^T)) => [|t _]; last first.
  have [t1 t2] := ltp t; rewrite (LagG t2) (xPG t1).1 (xPG t2).1 h0 !addr0 Eb // mulmxBr mulmxDr mulmxBl mulmxDl !trmx_mul.
  by rewrite !mulmxA.
rewrite -mulmx_suml -mulmx_sumr mulmxA; apply: pinvG.
have [H|H] := sum_pd predT (fun t (tT : (t < T.-1)%N) => E2_pd (leq_trans tT (leq_pred _))); [by left|right].
by rewrite big1 ?mulmx0 // => t _; have := H t.
Qed.
Lemma mulV k (A : 'M[R]_(k, n)) (B : 'M[R]_n) : A *m invmx G *m (G *m B) = A *m B.
Proof. by rewrite mulmxA mulmxKV. Qed.
Lemma mulVv k p (A : 'M[R]_(k, n)) (B : 'M[R]_(n, p)) : A *m invmx G *m (G *m B) = A *m B.
Proof. by rewrite mulmxA mulmxKV. Qed.
Lemma mulT k (A : 'M[R]_(k, n)) (B : 'M[R]_n) : B *m G^T *m (A *m invmx G)^T = B *m A^T.
Proof. by rewrite trmx_mul -!mulmxA (mulmxA G^T) -trmx_mul mulVmx // trmx1 mul1mx. Qed.
Lemma f_icE (u : nat -> 'cV[R]_n) V mu : f_ic u V mu = V 0%N + (u 0%N - mu) *m (u 0%N - mu)^T.
Proof.
rewrite /f_ic linearB /= mulmxBr !mulmxBl; move: (u 0%N *m _) (mu *m _) (u 0%N *m _) (mu *m _) (V 0%N) => a b c d e; zmod.
Qed.
Lemma icG (mu mu' : 'cV[R]_n) : mu' = G *m mu + h -> f_ic x' P' mu' = G *m f_ic x P mu *m G^T.
Proof.
move=> ->; rewrite !f_icE; have [-> ->] := xPG T0; 
have -> : G *m x 0%N + h - (G *m mu + h) = G *m (x 0%N - mu) by rewrite mulmxBr opprD addrACA subrr addr0.
move: (x 0%N - mu) => u; rewrite trmx_mul mulmxDr mulmxDl !mulmxA; exact: erefl.
Qed.
Lemma toG (A A' : nat -> 'M[R]_n) : h = 0 -> (forall t, (t < T.-1)%N -> A' t = G *m A t *m invmx G) ->
  f_to T x' A' = G *m f_to T x A.
Proof.
move=> h0 EA; rewrite /f_to -scalemxAr mulmx_sumr; congr (_ *: _); apply: eq_bigr => t _.
have [t1 t2] := ltp t; rewrite EA // (xPG t1).1 (xPG t2).1 h0 !addr0 mulVv mulmxBr mulmxA; exact: erefl.
Qed.
Lemma devT (A A' : 'M[R]_n) (b b' u v : 'cV[R]_n) : A' = G *m A *m invmx G -> b' = G *m b + h - A' *m h ->
  G *m u + h - A' *m (G *m v + h) - b' = G *m (u - A *m v - b).
Proof.
move=> EA ->; rewrite mulmxDr; have -> : A' *m (G *m v) = G *m (A *m v) by rewrite EA mulVv mulmxA.
by rewrite !mulmxBr; move: (G *m u) (A' *m h) (G *m (A *m v)) (G *m b) => a c d e; zmod.
Qed.
Lemma tcG (A A' : nat -> 'M[R]_n) (b b' : nat -> 'cV[R]_n) : (forall t, (t < T.-1)%N -> A' t = G *m A t *m invmx G) ->
  (forall t, (t < T.-1)%N -> b' t = G *m b t + h - A' t *m h) ->
  f_tc T x' P' L' A' b' = G *m f_tc T x P L A b *m G^T.
Proof.
move=> EA Eb; rewrite /f_tc -scalemxAr -scalemxAl mulmx_sumr mulmx_suml; congr (_ *: _); apply: eq_bigr => t _.
have [t1 t2] := ltp t; rewrite (xPG t1).1 (xPG t2).1 (xPG t1).2 (xPG t2).2 (LagG t2).
rewrite (devT _ _ (EA _ (ltn_ord t)) (Eb _ (ltn_ord t))) EA //.
have -> : G *m A t *m invmx G *m (G *m P t *m G^T *m (G *m A t *m invmx G)^T) = G *m (A t *m (P t *m (A t)^T)) *m G^T.
  by rewrite mulT trmx_mul -(mulmxA G (P t)) mulV -!mulmxA.
have -> : G *m L t.+1 *m G^T *m (G *m A t *m invmx G)^T = G *m (L t.+1 *m (A t)^T) *m G^T by rewrite mulT trmx_mul !mulmxA.
have -> : (G *m (L t.+1 *m (A t)^T) *m G^T)^T = G *m (L t.+1 *m (A t)^T)^T *m G^T by rewrite !trmx_mul !trmxK !mulmxA.
move: (x t.+1 - A t *m x t - b t) => u; rewrite trmx_mul.
by rewrite !(mulmxDr, mulmxBr, mulmxN) !(mulmxDl, mulmxBl, mulNmx) !mulmxA.
Qed.
Lemma ooG (C C' : nat -> 'M[R]_(m, n)) : h = 0 -> (forall t, (t < T)%N -> C' t = C t *m invmx G) ->
  f_oo T x' mis y C' = f_oo T x mis y C.
Proof.
move=> h0 EC; rewrite /f_oo; congr (_ *: _); apply: eq_bigr => t _.
rewrite EC // (xPG (ltn_ord t)).1 h0 addr0 mulVv; exact: erefl.
Qed.
Lemma devO (C C' : 'M[R]_(m, n)) (d d' z : 'cV[R]_m) v : C' = C *m invmx G -> d' = d - C' *m h ->
  z - C' *m (G *m v + h) - d' = z - C *m v - d.
Proof.
move=> EC ->; rewrite mulmxDr; have -> : C' *m (G *m v) = C *m v by rewrite EC mulVv.
by move: (C' *m h) (C *m v) => a c; zmod.
Qed.
Lemma ocG (C C' : nat -> 'M[R]_(m, n)) (d d' : nat -> 'cV[R]_m) : (forall t, (t < T)%N -> C' t = C t *m invmx G) ->
  (forall t, (t < T)%N -> d' t = d t - C' t *m h) ->
  f_oc T x' P' mis y d' C' = f_oc T x P mis y d C.
Proof.
move=> EC Ed; rewrite /f_oc; congr (_ *: _); apply: eq_bigr => t _.
rewrite (xPG (ltn_ord t)).1 (devO _ _ (EC _ (ltn_ord t)) (Ed _ (ltn_ord t))) EC // (xPG (ltn_ord t)).2 mulT -(mulmxA G) mulVv.
exact: erefl.
Qed.

Lemma em_coord0 e : h = 0 \/ [/\ sel e Tm = false, sel e To = false, sel e Om' = false & sel e Oo = false] ->
  upto T (em_model T x' P' L' mis y M' e)
  (coord_model (em_model T x P L mis y M e) G h).
Proof.
move=> Hh.
have EA t : (if sel e Tm then fun=> f_tm T x' P' L' (mb M') else mA M') t =
    G *m (if sel e Tm then fun=> f_tm T x P L (mb M) else mA M) t *m invmx G.
  case: Hh => [h0|[-> _ _ _]]; last exact: erefl.
  by case: (sel e Tm); [apply: (tmG h0) => s _; rewrite /= h0 addr0 mulmx0 subr0|exact: erefl].
have EC t : (if sel e Om' then fun=> f_om T x' P' mis y (md M') else mC M') t =
    (if sel e Om' then fun=> f_om T x P mis y (md M) else mC M) t *m invmx G.
  case: Hh => [h0|[_ _ -> _]]; last exact: erefl.
  by case: (sel e Om'); [apply: (omG h0) => s _; rewrite /= h0 mulmx0 subr0|exact: erefl].
have Emu : (if sel e Ism then x' 0%N else mmu M') = G *m (if sel e Ism then x 0%N else mmu M) + h.
  by case: (sel e Ism); [rewrite (xPG T0).1|exact: erefl].
pose A' := if sel e Tm then fun=> f_tm T x' P' L' (mb M') else mA M'.
pose C' := if sel e Om' then fun=> f_om T x' P' mis y (md M') else mC M'.
have Eb t : (if sel e To then fun=> f_to T x' A' else mb M') t =
    G *m (if sel e To then fun=> f_to T x (if sel e Tm then fun=> f_tm T x P L (mb M) else mA M) else mb M) t + h - A' t *m h.
  case: Hh => [h0|[E1 -> _ _]]; last by rewrite /A' E1.
  rewrite h0 mulmx0 subr0 addr0; case: (sel e To); last by rewrite /= h0 addr0 mulmx0 subr0.
  by apply: (toG h0) => s _; exact: EA.
have Ed t : (if sel e Oo then fun=> f_oo T x' mis y C' else md M') t =
    (if sel e Oo then fun=> f_oo T x mis y (if sel e Om' then fun=> f_om T x P mis y (md M) else mC M) else md M) t - C' t *m h.
  case: Hh => [h0|[_ _ E1 ->]]; last by rewrite /C' E1.
  rewrite h0 mulmx0 subr0; case: (sel e Oo); last by rewrite /= h0 mulmx0 subr0.
  by apply: (ooG h0) => s _; exact: EC.
split=> [t tT|t tT|t tT|t tT|t tT|t tT||]; rewrite /em_model /=.
- exact: EA.
- by rewrite -EA; exact: Eb.
- case: (sel e Tc); last exact: erefl.
  apply: tcG => s _; first exact: EA.
  by case: Hh => [h0|[E1 _ _ _]]; [rewrite /= h0 !mulmx0|rewrite E1].
- exact: EC.
- by rewrite -EC; exact: Ed.
- case: (sel e Oc); last exact: erefl.
  apply: ocG => s _; first exact: EC.
  by case: Hh => [h0|[_ _ E1 _]]; [rewrite /= h0 !mulmx0|rewrite E1].
- exact: Emu.
- by case: (sel e Isc); [exact: icG|exact: erefl].
Qed.
End Coord0.

Section Coord.
Variables (R : rcfType) (n m : nat) (M : lgm R n m) (T : nat) (mis : nat -> bool) (y : nat -> 'cV[R]_m) (zs : seq (orow R m)).
Variables (G : 'M[R]_n) (h : 'cV[R]_n).
Hypothesis UG : G \in unitmx.
Hypothesis T0 : (0 < T)%N.
Hypothesis Hrows : rows_of T mis y zs.
Hypothesis HM : psd_model M T.
Hypothesis Hpd : pd_model mis T M.
Let M' := coord_model M G h.
Let x := xs_ T M mis y.
Let P := Ps_ T M mis.
Let L := Lag_ T M mis.

Lemma xPG t : (t < T)%N -> xs_ T M' mis y t = G *m x t + h /\ Ps_ T M' mis t = G *m P t *m G^T.
Proof.
move=> tT; have E := smo_rows M Hrows tT; have := smo_rows M' Hrows tT.
rewrite (coord_smo h UG erefl HM (idx_lt tT)) E /moved => H.
by split; [exact: (esym (congr1 fst H))|exact: (esym (congr1 snd H))].
Qed.
Lemma LLE (K : lgm R n m) t : (t.+1 < T)%N -> LL K mis t = sgain K (stream zs) t.
Proof.
move=> tT; rewrite (@sgain_ext _ _ _ K _ (ym mis y)); last first.
  by move=> s st; apply: (stream_rows Hrows); apply: leq_ltn_trans st _; exact: ltnW.
by rewrite (sgain_indep K mis t y (fun _ => 0)).
Qed.
Lemma ltP t : (t.+1 < T)%N -> (t < T.-1)%N. Proof. by case: T. Qed.
Lemma LLG t : (t.+1 < T)%N -> LL M' mis t *m G = G *m LL M mis t.
Proof.
move=> tT; rewrite !LLE //; have E := coord_gain_range h UG (erefl (stream zs)) HM (ltP tT).
have Hp : pd (pred M (stream zs) t.+1).2.
  rewrite /= /predict /= -/(filt M (stream zs) t); apply: pdD; last exact: (pd_Q Hpd (ltP tT)).
  by rewrite mulmxA; apply: psd_congr; rewrite filt_cov; apply: (Pf_psd HM); exact: ltnW.
move: E; rewrite !mulmxA => /(congr1 (mulmx^~ (invmx (pred M (stream zs) t.+1).2))).
by rewrite !(mulmxK (pd_unit Hp)).
Qed.
Lemma LagG t : (t.+1 < T)%N -> Lag_ T M' mis t.+1 = G *m L t.+1 *m G^T.
Proof.
move=> tT; rewrite /L /Lag_ -![Ps _ _ _ t.+1]/(Ps_ T _ mis t.+1) (xPG tT).2 -/P.
by rewrite -!mulmxA -!trmx_mul LLG.
Qed.
Lemma P_pd t : (t < T)%N -> pd (P t).
Proof.
move=> tT; have [Sp [x1 [z [w [v Hob]]]]] := model_exists HM.
by have := pd_post y Hob T0 Hpd tT; rewrite (Xpost_cov mis y Hob tT).
Qed.
Lemma em_coord e : h = 0 \/ [/\ sel e Tm = false, sel e To = false, sel e Om' = false & sel e Oo = false] ->
  upto T (em_model T (xs_ T M' mis y) (Ps_ T M' mis) (Lag_ T M' mis) mis y M' e)
  (coord_model (em_model T x P L mis y M e) G h).
Proof.
exact: (@em_coord0 R n m M T mis y G h UG T0 x (xs_ T M' mis y) P (Ps_ T M' mis) L (Lag_ T M' mis) xPG LagG P_pd e).
Qed.
End Coord.

Section Recode0.
Variables (R : rcfType) (n m : nat) (M : lgm R n m) (T : nat) (mis : nat -> bool) (y : nat -> 'cV[R]_m).
Variable (N : 'M[R]_m) (g : 'cV[R]_m).
Hypothesis T0 : (0 < T)%N.
Let M' := recode_model M N g.
Let y' t := N *m y t + g.
Variables (x x' : nat -> 'cV[R]_n) (P P' L L' : nat -> 'M[R]_n).
Hypothesis Ex : forall t, (t < T)%N -> x' t = x t.
Hypothesis EP : forall t, (t < T)%N -> P' t = P t.
Hypothesis EL : forall t, (t.+1 < T)%N -> L' t.+1 = L t.+1.

Lemma ltr (t : 'I_T.-1) : (t < T)%N /\ (t.+1 < T)%N.
Proof. by case: T T0 t => // T' _ [t tT] /=; split=> //; exact: ltnW. Qed.
Lemma sum_vis : \sum_(t < T | ~~ mis t) g = (\sum_(t < T) ~~ mis t)%:R *: g.
Proof. by rewrite natr_sum scaler_suml big_mkcond; apply: eq_bigr => t _; case: (mis t) => /=; rewrite ?scale1r ?scale0r. Qed.

Lemma em_recode0 e : (sel e Oo -> exists2 t, (t < T)%N & ~~ mis t) ->
  upto T (em_model T x' P' L' mis y' M' e)
  (recode_model (em_model T x P L mis y M e) N g).
Proof.
move=> Hv.
have EA t : (if sel e Tm then fun=> f_tm T x' P' L' (mb M') else mA M') t =
    (if sel e Tm then fun=> f_tm T x P L (mb M) else mA M) t.
  case: (sel e Tm); last exact: erefl. rewrite /f_tm; congr (_ *m pinv _); apply: eq_bigr => s _; have [s1 s2] := ltr s.
    by rewrite (EL s2) (Ex s1) (Ex s2).
  by rewrite (Ex s1) (EP s1).
have EC t : (if sel e Om' then fun=> f_om T x' P' mis y' (md M') else mC M') t =
    N *m (if sel e Om' then fun=> f_om T x P mis y (md M) else mC M) t.
  case: (sel e Om'); last exact: erefl. rewrite /f_om mulmxA mulmx_sumr; congr (_ *m pinv _); apply: eq_bigr => s _.
    rewrite (Ex (ltn_ord s)) mulmxA /y' /=; congr (_ *m _); rewrite mulmxBr; mx.
  by rewrite (Ex (ltn_ord s)) (EP (ltn_ord s)).
have Emu : (if sel e Ism then x' 0%N else mmu M') = (if sel e Ism then x 0%N else mmu M).
  case: (sel e Ism); last exact: erefl. by rewrite (Ex T0).
split=> [t tT|t tT|t tT|t tT|t tT|t tT||]; rewrite /em_model /=.
- exact: EA.
- case: (sel e To); last exact: erefl. rewrite /f_to; congr (_ *: _); apply: eq_bigr => s _; have [s1 s2] := ltr s.
  by rewrite (Ex s1) (Ex s2) EA.
- case: (sel e Tc); last exact: erefl. rewrite /f_tc; apply: (f_equal (fun q => _ *: q)); apply: eq_bigr => s _; have [s1 s2] := ltr s.
  by rewrite (Ex s1) (Ex s2) (EP s1) (EP s2) (EL s2) EA.
- exact: EC.
- case: (sel e Oo) Hv => // /(_ isT) [s sT vs]; rewrite /f_oo /nobs.
  set k := (\sum_(t0 < T) _)%N; have k0 : k%:R != 0 :> R.
    rewrite pnatr_eq0 /k -lt0n; apply: leq_trans (_ : (~~ mis s)%N <= _)%N; first by rewrite vs.
    by rewrite (bigD1 (Ordinal sT)) //= leq_addr.
  rewrite (eq_bigr (fun t : 'I_T => N *m (y t - (if sel e Om' then fun=> f_om T x P mis y (md M) else mC M) t *m x t) + g)).
    by rewrite big_split /= -mulmx_sumr sum_vis scalerDr scalemxAr scalerA mulVf // scale1r.
  by move=> k1 _; rewrite EC (Ex (ltn_ord k1)) -mulmxA mulmxBr /y'; mx.
- case: (sel e Oc); last exact: erefl. rewrite /f_oc -scalemxAr -scalemxAl mulmx_sumr mulmx_suml; congr (_ *: _); apply: eq_bigr => s _.
  rewrite EC (Ex (ltn_ord s)) (EP (ltn_ord s)) trmx_mul.
  move: ((if sel e Om' then fun=> f_om T x P mis y (md M) else mC M) s) => C.
  have -> : y' s - N *m C *m x s - (N *m md M s + g) = N *m (y s - C *m x s - md M s).
    rewrite !mulmxBr -mulmxA /y'; mx.
  move: (y s - C *m x s - md M s) => u; by rewrite trmx_mul mulmxDr mulmxDl !mulmxA.
- exact: Emu.
- case: (sel e Isc); last exact: erefl. by rewrite /f_ic Emu (Ex T0) (EP T0).
Qed.
End Recode0.

Section Recode.
Variables (R : rcfType) (n m : nat) (M : lgm R n m) (T : nat) (mis : nat -> bool) (y : nat -> 'cV[R]_m) (zs zs' : seq (orow R m)).
Variable (N : 'M[R]_m) (g : 'cV[R]_m).
Hypothesis UN : N \in unitmx.
Hypothesis T0 : (0 < T)%N.
Hypothesis Hrows : rows_of T mis y zs.
Hypothesis Hz : recoded N g zs zs'.
Hypothesis HM : psd_model M T.
Hypothesis Hpd : pd_model mis T M.
Let M' := recode_model M N g.
Let y' t := N *m y t + g.
Let x := xs_ T M mis y.
Let P := Ps_ T M mis.
Let L := Lag_ T M mis.
Let Hrows' : rows_of T mis y' zs' := recode_rows Hz Hrows.

Lemma HRz t : (t < T)%N -> stream zs t -> pd (mR M t).
Proof. by move=> tT; rewrite (stream_rows Hrows tT) /ym; case Em: (mis t) => // _; apply: (pd_R Hpd) => //; rewrite Em. Qed.
Lemma xPR t : (t < T)%N -> xs_ T M' mis y' t = x t /\ Ps_ T M' mis t = P t.
Proof.
move=> tT; have E := smo_rows M Hrows tT; have := smo_rows M' Hrows' tT.
rewrite (recode_smo UN Hz HM HRz (idx_lt tT)) E => H.
by split; [exact: (esym (congr1 fst H))|exact: (esym (congr1 snd H))].
Qed.
Lemma LagR t : (t.+1 < T)%N -> Lag_ T M' mis t.+1 = L t.+1.
Proof.
move=> tT; have tT' : (t < T)%N by exact: ltnW.
have E (K : lgm R n m) : Lag_ T K mis t.+1 = Ps_ T K mis t.+1 *m (LL K mis t)^T by exact: erefl.
have EL : LL M' mis t = LL M mis t.
  rewrite (LLE Hrows M tT) (LLE Hrows' M' tT).
  have ES (K : lgm R n m) w : sgain K w t = (filt K w t).2 *m (mA K t)^T *m pinv (pred K w t.+1).2 by rewrite /sgain mulmxA.
  by rewrite !ES (recode_filt UN Hz HM HRz tT') (recode_pred UN Hz HM HRz tT).
by rewrite /L !E EL (xPR tT).2.
Qed.
Lemma em_recode e : (sel e Oo -> exists2 t, (t < T)%N & ~~ mis t) ->
  upto T (em_model T (xs_ T M' mis y') (Ps_ T M' mis) (Lag_ T M' mis) mis y' M' e)
  (recode_model (em_model T x P L mis y M e) N g).
Proof.
exact: (@em_recode0 R n m M T mis y N g T0 x (xs_ T M' mis y') P (Ps_ T M' mis) L (Lag_ T M' mis)
  (fun t h => (xPR h).1) (fun t h => (xPR h).2) LagR e).
Qed.
End Recode.

(** two objects whose models are related by [tr] before em are so afterwards *)
Section Sim.
Variables (R : rcfType) (n m T : nat) (mis : nat -> bool) (y y' : nat -> 'cV[R]_m) (zs zs' : seq (orow R m)).
Variable (tr : lgm R n m -> lgm R n m).
Hypothesis T0 : (0 < T)%N.
Hypothesis Hrows : rows_of T mis y zs.
Hypothesis Hrows' : rows_of T mis y' zs'.
Hypothesis Hk : (T != 1%N) || (m <= 1)%N.
Variables (o o' : kf R) (M : lgm R n m) (ev : option emspec).
Let e := requested o ev.
Hypothesis step : forall K, psd_model K T -> pd_model mis T K ->
  upto T (em_model T (xs_ T (tr K) mis y') (Ps_ T (tr K) mis) (Lag_ T (tr K) mis) mis y' (tr K) e)
    (tr (em_model T (xs_ T K mis y) (Ps_ T K mis) (Lag_ T K mis) mis y K e)).
Hypothesis Ho : kf_model o T M.
Hypothesis Ho' : kf_model o' T (tr M).
Hypothesis Hq : requested o' ev = e.
Hypothesis HM : psd_model M T.
Hypothesis Hpd : pd_model mis T M.

Lemma em_sim N : (selects e Oc -> forall k o1 (M1 : lgm R n m), (0 < k <= N)%N ->
     kf_em o (O2 m zs) k ev = (o1, Ok tt) -> kf_model o1 T M1 ->
     forall t, (t < T)%N -> ~~ mis t -> pd (mR M1 t)) ->
  exists o1 o1' (M1 : lgm R n m), [/\ kf_em o (O2 m zs) N ev = (o1, Ok tt), kf_em o' (O2 m zs') N ev = (o1', Ok tt),
    kf_model o1 T M1 & kf_model o1' T (tr M1)].
Proof.
move=> HR.
suff [o1 [o1' [M1 [[E1 E2 H1 H2] _]]]] : exists o1 o1' M1,
    [/\ kf_em o (O2 m zs) N ev = (o1, Ok tt), kf_em o' (O2 m zs') N ev = (o1', Ok tt),
     kf_model o1 T M1 & kf_model o1' T (tr M1)] /\
    [/\ psd_model M1 T, pd_model mis T M1, requested o1 ev = e & requested o1' ev = e] by exists o1, o1', M1.
elim: N HR => [|k IH] HR.
  exists (set_params o (init_value o)), (set_params o' (init_value o')), M; split; split=> //.
  - by rewrite kf_emE /em_with parse_keep ?(initialize_parametersE (km_rs Ho)) // /keeps (size_rows Hrows).
  - by rewrite kf_emE /em_with parse_keep ?(initialize_parametersE (km_rs Ho')) // /keeps (size_rows Hrows').
  - apply: set_model; [exact: km_n Ho|exact: km_m Ho|exact: km_rs Ho|exact: kf_model_params].
  - apply: set_model; [exact: km_n Ho'|exact: km_m Ho'|exact: km_rs Ho'|exact: kf_model_params].
have HR' : selects e Oc -> forall k' o1 (M1 : lgm R n m), (0 < k' <= k)%N ->
     kf_em o (O2 m zs) k' ev = (o1, Ok tt) -> kf_model o1 T M1 ->
     forall t, (t < T)%N -> ~~ mis t -> pd (mR M1 t).
  by move=> s k' o1 M1 /andP[h1 h2]; apply: HR => //; rewrite h1 (leq_trans h2).
have [o1 [o1' [M1 [[E E' H1 H1'] [HM1 Hpd1 Hr Hr']]]]] := IH HR'.
have [p [F1 F2 _]] := step_full T0 Hrows Hk ev H1.
have [p' [F1' F2' _]] := step_full T0 Hrows' Hk ev H1'.
have E4 : kf_em o (O2 m zs) k.+1 ev = (set_params o1 p, Ok tt).
  by rewrite -addn1 -(kf_em_compose _ (km_rs Ho) E).
have E4' : kf_em o' (O2 m zs') k.+1 ev = (set_params o1' p', Ok tt).
  by rewrite -addn1 -(kf_em_compose _ (km_rs Ho') E').
move: F2 F2'; rewrite /M_new Hr Hr' => F2 F2'.
have [Sp [x [z [w [v Hob]]]]] := model_exists HM1.
exists (set_params o1 p), (set_params o1' p'), (em_model T (xs_ T M1 mis y) (Ps_ T M1 mis) (Lag_ T M1 mis) mis y M1 e).
split; split=> //.
- exact: kf_model_upto (step HM1 Hpd1) F2'.
- by apply: (em_psd (X := fun t => Xpost mis y Hob t)) => //; [exact: Xpost_mean|exact: Xpost_cov|exact: Xpost_lag].
- apply: (em_pd Hob T0 Hpd1) => /sel_selects s; apply: (HR s k.+1 (set_params o1 p)) => //; by rewrite /= leqnn.
Qed.
End Sim.

Section Api.
Variables (R : rcfType) (n m T : nat) (mis : nat -> bool) (y : nat -> 'cV[R]_m) (zs : seq (orow R m)).
Hypothesis T0 : (0 < T)%N.
Hypothesis Hrows : rows_of T mis y zs.
Hypothesis Hk : (T != 1%N) || (m <= 1)%N.
Variables (o o' : kf R) (M : lgm R n m) (ev : option emspec) (i : nat).
Hypothesis Ho : kf_model o T M.
Hypothesis Hq : requested o' ev = requested o ev.
Hypothesis HM : psd_model M T.
Hypothesis Hpd : pd_model mis T M.
Hypothesis HR : selects (requested o ev) Oc -> forall k o1 (M1 : lgm R n m), (0 < k <= i)%N ->
     kf_em o (O2 m zs) k ev = (o1, Ok tt) -> kf_model o1 T M1 ->
     forall t, (t < T)%N -> ~~ mis t -> pd (mR M1 t).

Lemma em_coord_api (G : 'M[R]_n) h : G \in unitmx -> kf_model o' T (coord_model M G h) ->
  (h = 0 \/ forall q, List.In q [:: Tm; To; Om'; Oo] -> ~ selects (requested o ev) q) ->
  exists o1 o1' (M1 : lgm R n m), [/\ kf_em o (O2 m zs) i ev = (o1, Ok tt), kf_em o' (O2 m zs) i ev = (o1', Ok tt),
    kf_model o1 T M1 & kf_model o1' T (coord_model M1 G h)].
Proof.
move=> UG Ho' Hh.
have Hh' : h = 0 \/ [/\ sel (requested o ev) Tm = false, sel (requested o ev) To = false,
    sel (requested o ev) Om' = false & sel (requested o ev) Oo = false].
  case: Hh => [|H]; [by left|right].
  have N q : List.In q [:: Tm; To; Om'; Oo] -> sel (requested o ev) q = false by move=> /H Hq'; apply/negP => /sel_selects.
  by split; apply: N; rewrite /=; tauto.
have step (K : lgm R n m) (HK : psd_model K T) (HpK : pd_model mis T K) :=
  @em_coord R n m K T mis y zs G h UG T0 Hrows HK HpK (requested o ev) Hh'.
exact: (@em_sim R n m T mis y y zs zs (fun K => coord_model K G h) T0 Hrows Hrows Hk o o' M ev step Ho Ho' Hq HM Hpd i HR).
Qed.
Lemma em_recode_api (N : 'M[R]_m) g zs' : N \in unitmx -> kf_model o' T (recode_model M N g) -> recoded N g zs zs' ->
  (selects (requested o ev) Oo -> exists2 t, (t < T)%N & ~~ mis t) ->
  exists o1 o1' (M1 : lgm R n m), [/\ kf_em o (O2 m zs) i ev = (o1, Ok tt), kf_em o' (O2 m zs') i ev = (o1', Ok tt),
    kf_model o1 T M1 & kf_model o1' T (recode_model M1 N g)].
Proof.
move=> UN Ho' Hz Hv; have Hrows' := recode_rows Hz Hrows.
have step (K : lgm R n m) (HK : psd_model K T) (HpK : pd_model mis T K) :=
  @em_recode R n m K T mis y zs zs' N g UN T0 Hrows Hz HK HpK (requested o ev) (fun s => Hv ((sel_selects _ _).1 s)).
exact: (@em_sim R n m T mis y (fun t => N *m y t + g) zs zs' (fun K => recode_model K N g) T0 Hrows Hrows' Hk o o' M ev step
  Ho Ho' Hq HM Hpd i HR).
Qed.
End Api.
