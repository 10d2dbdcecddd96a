(** The square-root unscented filter computes what the plain one does. *)
From Coq Require Import String List.
From mathcomp Require Import all_ssreflect all_algebra.
From mathcomp Require Import ring.
From Verif Require Import Prelude Zmod LinAlg Numpy NumpyFacts Sklearn Standard Model KfSpec StandardInit StandardFacts Rng Sqrt SqrtFacts Unscented UscSpec UscFacts UscRefine UscLoop
  UscInit UscMain UscPsd SqrtUnscented CuFacts SuTri SuFacts SuStep.
Import GRing.Theory Num.Theory Order.Theory.

Set Implicit Arguments.
Unset Strict Implicit.
Unset Printing Implicit Defensive.
Local Open Scope ring_scope.

#[global] Arguments su_step : simpl never.
#[global] Arguments su_back : simpl never.
#[local] Arguments fun_at : simpl never.
#[local] Arguments wdef : simpl never.
#[local] Arguments spts : simpl never.
#[local] Arguments ucorr : simpl never.

Section Main.
Variable R : rcfType.
Variable qr : qr_fun R.
Hypothesis Hqr : qr_valid qr.

Section Steps.
Variables (n m : nat) (p : uparams R) (Q : 'M[R]_n) (Rn : 'M[R]_m) (mu0 : 'cV[R]_n) (P0 : 'M[R]_n).
Variables (Q2 : 'M[R]_n) (R2 : 'M[R]_m).
Hypotheses (E0 : u_im p = A1 mu0) (EP : u_ic p = A2 P0).
Hypotheses (HR : pd Rn) (HP : pd P0) (HQ : pd Q) (ER2 : is_chol Rn R2) (EQ2 : is_chol Q Q2) (dQ : is_diag_mx Q).
Variables (f : nat -> 'cV[R]_n -> 'cV[R]_n) (g : nat -> 'cV[R]_n -> 'cV[R]_m).

Lemma su_asg (x : moments R) (s : 'cV[R]_n * 'M[R]_n) : stands x s ->
  ('(m0, c) <-- Ok x ;; fm <-- assign1 n m0 ;; fs <-- assign2 n n c ;; Ok (fm, fs)) = Ok x.
Proof. by case=> F -> _; rewrite /= assign1E /= assign2E. Qed.

Lemma p2m_self (mu : 'cV[R]_n) (F : 'M[R]_n) : regular F ->
  exists2 V : 'M[R]_n,
    su_points2moments qr (SigmaPoints (A2 (sigma_rows mu F^T 3%:R)) (A1 (wdef R n)) (A1 (wdef R n))) None =
      Ok (A1 mu, A2 V) & regular V /\ V^T *m V = F^T *m F.
Proof.
move=> HF; have [|V E [HV EV]] := su_p2mE Hqr (sigma_rows mu F^T 3%:R) (wdef R n) (wdef R n) (N := None).
  by move=> _; rewrite ltnW // ltnS leq_addr.
rewrite wdef_mean in E EV; have E2 : V^T *m V = F^T *m F.
  by rewrite EV /nn addr0 -cross_abs wdef_cov trmxK.
by exists V => //; split=> //; apply: upper_regular => //; rewrite E2; exact: regular_pd.
Qed.

Lemma su_firstE G (z : orow R m) : fun_at (u_g p) 0 = Ok G -> fun1 G (g 0%N) -> (missing z \/ (m <= 1)%N /\ tame (g 0%N)) ->
  exists s x, [/\ add_first Rn mu0 P0 g (cut z) = Some s,
    su_step qr p (A2 Q2) (A2 R2) n 0 None (A1 z.1, missing z) = Ok x & stands x s].
Proof.
move=> EG HG Hz; rewrite /su_step E0 EP; have [F -> HF] := cholupperE HP; rewrite bO bO su_m2pE bO.
have rF := is_chol_regular HF; have [V -> [HV EV]] := p2m_self mu0 rF; rewrite bO EG bO.
have EF : F^T *m F = P0 by case: HF.
have EVP : V^T *m V = P0 by rewrite EV.
have [s [x [E1 E2 E3]]] := su_corrE Hqr HR ER2 mu0 rF EF HV EVP HG Hz.
exists s, x; rewrite E2 (su_asg E3); split=> //; rewrite -E1 /add_first (sptsE mu0 HF) [omap _ _]/= [RHS]/=.
by rewrite wdef_mean /wcov wdef_mean wdef_cov trmxK EF.
Qed.

Lemma su_predE (s : 'cV[R]_n * 'M[R]_n) (S2 : 'M[R]_n) F t : regular S2 -> S2^T *m S2 = s.2 -> fun1 F (f t) -> tame (f t) ->
  exists (mp : 'cV[R]_n * 'M[R]_n) pp (V : 'M[R]_n), [/\ add_pred Q f t s = Some mp,
    su_transform qr (SigmaPoints (A2 (sigma_rows s.1 S2^T 3%:R)) (A1 (wdef R n)) (A1 (wdef R n))) F (Some (A2 Q2)) =
     Ok (pp, (A1 mp.1, A2 V)), regular V, V^T *m V = mp.2 & pp = SigmaPoints (A2 (fmap (f t) (sigma_rows s.1 S2^T 3%:R))) (A1 (wdef R n)) (A1 (wdef R n))].
Proof.
move=> rS ES HF Hf; have [V E [HV EV]] := su_utE Hqr (sigma_rows s.1 S2^T 3%:R) (wdef R n) (wdef R n) Q2 HF.
have HS : pd s.2 by rewrite -ES; exact: regular_pd.
have [C _ HC] := cholupperE HS; have EC : C^T *m C = s.2 by case: HC.
have EE : S2^T *m S2 = C^T *m C by rewrite ES.
have [M1 _ M2] := sgn_all s.1 rS (is_chol_regular HC) EE (f t).
rewrite -(tame_abs s.1 S2^T Hf) (diag_chol dQ EQ2) in EV.
rewrite M1 in E; rewrite M2 in EV.
exists (wmean (fmap (f t) (sigma_rows s.1 C^T 3%:R)) (wdef R n), wcov (fmap (f t) (sigma_rows s.1 C^T 3%:R)) (wdef R n) (wdef R n) + Q).
exists (SigmaPoints (A2 (fmap (f t) (sigma_rows s.1 S2^T 3%:R))) (A1 (wdef R n)) (A1 (wdef R n))), V.
split; [by rewrite /add_pred (sptsE s.1 HC)|exact: E| |exact: EV|exact: erefl].
apply: (upper_regular HV); rewrite EV (tame_abs s.1 C^T Hf).
apply: pdD; last exact: HQ.
apply: wcross_psd; exact: wabs_ge0.
Qed.

Lemma su_nextE t x s F G (z : orow R m) : fun_at (u_f p) t = Ok F -> fun1 F (f t) -> tame (f t) ->
  fun_at (u_g p) t.+1 = Ok G -> fun1 G (g t.+1) -> (missing z \/ (m <= 1)%N /\ tame (g t.+1)) -> stands x s ->
  exists s' x', [/\ add_next Q Rn f g t s (cut z) = Some s',
    su_step qr p (A2 Q2) (A2 R2) n t.+1 (Some x) (A1 z.1, missing z) = Ok x' & stands x' s'].
Proof.
move=> EF HF Hf EG HG Hz [S2 -> [rS ES]]; rewrite /su_step bO su_m2pE bO [_.+1.-1]/= EF bO.
have [mp [pp [V [E1 -> rV EV _]]]] := su_predE rS ES HF Hf.
rewrite bO su_m2pE bO bO EG bO.
have [s' [x' [H1 H2 H3]]] := su_corrE Hqr HR ER2 mp.1 rV EV rV EV HG Hz.
exists s', x'; rewrite H2 (su_asg H3); split=> //.
by rewrite /add_next E1 -H1 [obind _ _]/= /add_corr; case: (mp).
Qed.
End Steps.

Section Loop.
Variables (n m : nat) (o : ukf R) (T : nat) (f : nat -> 'cV[R]_n -> 'cV[R]_n) (g : nat -> 'cV[R]_n -> 'cV[R]_m).
Variables (Q : 'M[R]_n) (Rn : 'M[R]_m) (mu0 : 'cV[R]_n) (P0 : 'M[R]_n).
Hypothesis HM : aukf_model o T f g Q Rn mu0 P0.
Hypotheses (HR : pd Rn) (HP : pd P0) (HQ : pd Q) (dQ : is_diag_mx Q).
Hypothesis Hf : forall t, (t < T.-1)%N -> tame (f t).
Variables (Q2 : 'M[R]_n) (R2 : 'M[R]_m).
Hypotheses (ER2 : is_chol Rn R2) (EQ2 : is_chol Q Q2).
Let p := uinit_value (@add_default R) o.
Let stp := (fun p n t prev z => su_step qr p (A2 Q2) (A2 R2) n t prev z).

Lemma su_loopN (y : nat -> option 'cV[R]_m) (zs : seq (orow R m)) t x s :
  ufold (add_first Rn mu0 P0 g) (add_next Q Rn f g) y t = Some s -> stands x s ->
  (t.+1 + size zs <= T)%N ->
  (forall i, (i < size zs)%N -> y (t.+1 + i)%N = stream zs i) ->
  (forall i, (i < size zs)%N -> stream zs i = None \/ (m <= 1)%N /\ tame (g (t.+1 + i)%N)) ->
  exists (ss : seq ('cV[R]_n * 'M[R]_n)) xs, [/\ ufilter_loop stp p n t.+1 (Some x) zs = Ok xs,
    [seq ufold (add_first Rn mu0 P0 g) (add_next Q Rn f g) y i | i <- iota t.+1 (size zs)] = map Some ss & List.Forall2 (@stands R n) xs ss].
Proof.
elim: zs t x s => [|z zs IH] t x s Hs Hx Ht Hy Hg; first by exists [::], [::]; split=> //; constructor.
have tT : (t.+1 < T)%N by apply: leq_trans Ht; rewrite /= addnS ltnS leq_addr.
have [F EF HF] := um_F HM (@dflt1 R n n) (predn_lt tT); have [G EG HG] := um_G HM (@dflt1 R n m) tT.
have Ey : y t.+1 = cut z by have := Hy 0%N isT; rewrite addn0.
have Hz : missing z \/ (m <= 1)%N /\ tame (g t.+1).
  have := Hg 0%N isT; rewrite addn0 => [] [H|H]; [left|by right].
  by move: H; rewrite -[stream _ _]/(cut z) /cut; case: (missing z).
have [s' [x' [E1 E2 E3]]] := su_nextE HR HQ ER2 EQ2 dQ EF HF (Hf (predn_lt tT)) EG HG Hz Hx.
have Hs' : ufold (add_first Rn mu0 P0 g) (add_next Q Rn f g) y t.+1 = Some s' by rewrite (ufold_next Hs) Ey.
have Hy' i : (i < size zs)%N -> y (t.+2 + i)%N = stream zs i by move=> Hi; rewrite addSnnS; exact: (Hy i.+1).
have Hg' i : (i < size zs)%N -> stream zs i = None \/ (m <= 1)%N /\ tame (g (t.+2 + i)%N).
  by move=> Hi; rewrite addSnnS; exact: (Hg i.+1).
have Ht' : (t.+2 + size zs <= T)%N by rewrite addSnnS.
have [ss [xs [I1 I2 I3]]] := IH _ _ _ Hs' E3 Ht' Hy' Hg'.
exists (s' :: ss), (x' :: xs); split.
- by rewrite uloop_cons /stp E2 bO -/stp I1 bO.
- by rewrite [iota _ _]/= map_cons [map Some _]/= Hs' I2.
- by constructor.
Qed.

Lemma su_filterE (zs : seq (orow R m)) : size zs = T ->
  (forall t, (t < T)%N -> stream zs t = None \/ (m <= 1)%N /\ tame (g t)) ->
  exists (ss : seq ('cV[R]_n * 'M[R]_n)) xs, [/\ ufilter_loop stp p n 0 None zs = Ok xs,
    [seq add_filt Q Rn mu0 P0 f g (stream zs) i | i <- iota 0 T] = map Some ss & List.Forall2 (@stands R n) xs ss].
Proof.
case: zs => [<- _|z zs Hs Hg]; first by exists [::], [::]; split=> //; constructor.
have T0 : (0 < T)%N by rewrite -Hs.
have [G EG HG] := um_G HM (@dflt1 R n m) T0.
have Hz : missing z \/ (m <= 1)%N /\ tame (g 0%N).
  have [H|H] := Hg 0%N T0; [left|by right].
  by move: H; rewrite -[stream _ _]/(cut z) /cut; case: (missing z).
have [s [x [E1 E2 E3]]] := su_firstE Q2 (um_E0 _ HM) (um_EP _ HM) HR HP ER2 EG HG Hz.
have [] := @su_loopN (stream (z :: zs)) zs 0%N x s E1 E3 _ _ _.
- by rewrite add1n -Hs.
- by move=> i _; rewrite add1n.
- by move=> i Hi; rewrite add1n; apply: (Hg i.+1); rewrite -Hs.
move=> ss [xs [I1 I2 I3]]; exists (s :: ss), (x :: xs); split.
- by rewrite uloop_cons /stp E2 bO -/stp I1 bO.
- by rewrite -Hs [iota _ _]/= map_cons [map Some _]/= I2; congr cons.
- by constructor.
Qed.
End Loop.

Lemma covsE n xs (ss : seq ('cV[R]_n * 'M[R]_n)) : List.Forall2 (@stands R n) xs ss ->
  su_covariances xs = Ok [seq lift_s s | s <- ss].
Proof.
elim=> [//|x s xs' ss' [F -> [_ E]] _ IH].
by rewrite /su_covariances mapr_cons /su_gram [snd _]/= tr2 bO dot22 bO E bO -/(su_covariances _) IH.
Qed.

Section Filter.
Variables (n m : nat) (o : ukf R) (T : nat) (f : nat -> 'cV[R]_n -> 'cV[R]_n) (g : nat -> 'cV[R]_n -> 'cV[R]_m).
Variables (Q : 'M[R]_n) (Rn : 'M[R]_m) (mu0 : 'cV[R]_n) (P0 : 'M[R]_n).
Hypothesis HM : aukf_model o T f g Q Rn mu0 P0.
Hypotheses (HR : pd Rn) (HP : pd P0) (HQ : pd Q) (dQ : is_diag_mx Q).
Hypothesis Hf : forall t, (t < T.-1)%N -> tame (f t).
Variable zs : seq (orow R m).
Hypotheses (Hsz : size zs = T) (Hk : keeps zs).
Hypothesis Hg : forall t, (t < T)%N -> stream zs t = None \/ (m <= 1)%N /\ tame (g t).

Lemma sukf_rows : exists (ss : seq ('cV[R]_n * 'M[R]_n)) xs,
  [/\ su_filter_ qr (uinit_value (@add_default R) o) zs = Ok xs,
      [seq add_filt Q Rn mu0 P0 f g (stream zs) i | i <- iota 0 T] = map Some ss & List.Forall2 (@stands R n) xs ss].
Proof.
rewrite /su_filter_ (um_EQ _ HM) (um_ER _ HM) [shape_m1 _]/= bO.
have [Q2 -> HQ2] := cholupperE HQ; have [R2 -> HR2] := cholupperE HR; rewrite bO bO.
exact: (su_filterE HM HR HP HQ dQ Hf HR2 HQ2 Hsz Hg).
Qed.

Lemma sukf_is_aukf : exists ss : seq ('cV[R]_n * 'M[R]_n),
  sukf_filter qr o (O2 m zs) = Ok [seq lift_s s | s <- ss] /\ aukf_filter o (O2 m zs) = Ok [seq lift_s s | s <- ss].
Proof.
have [ss [xs [E1 E2 E3]]] := sukf_rows; exists ss; split.
  by rewrite /sukf_filter parse_keep // (um_init _ HM) bO E1 bO (covsE E3).
rewrite (aukf_filterE HM Hsz Hk) -/(add_filt Q Rn mu0 P0 f g (stream zs)).
elim: (iota 0 T) ss {E1 E3} E2 => [|i l IH] [|s ss] //= [E1 E2].
by rewrite E1 /= (IH _ E2).
Qed.
End Filter.
End Main.
