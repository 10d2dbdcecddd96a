(** When the unscented covariances are positive (semi)definite. *)
From Coq Require Import String List.
From mathcomp Require Import all_ssreflect all_algebra.
From mathcomp Require Import ring.
From Verif Require Import Prelude Zmod LinAlg Numpy NumpyFacts Sklearn Standard Model KfSpec StandardInit StandardFacts
  EmSpec EmChain KfGlue Rng Unscented UscSpec UscFacts UscRefine UscLoop UscInit UscMain UscLinear UscOnline UscShape UscProps.
Import GRing.Theory Num.Theory Order.Theory.

Set Implicit Arguments.
Unset Strict Implicit.
Unset Printing Implicit Defensive.
Local Open Scope ring_scope.

Section Psd.
Variable R : rcfType.

(** ** C49 *)
Lemma wdef_ge0 n i : (n <= 3)%N -> 0 <= wdef R n i 0.
Proof.
move=> n3; rewrite mxE; case: ifP => _.
- by rewrite divr_ge0 ?ler0n // subr_ge0 ler_nat.
- by rewrite divr_ge0 ?ler0n // invr_ge0 ler0n.
Qed.
Lemma diag_ge0 k (w : 'cV[R]_k) : (forall i, 0 <= w i 0) -> psd (diag_mx w^T).
Proof.
move=> H; split; first by rewrite tr_diag_mx.
move=> v; rewrite /qf /bf /sc mul_mx_diag mxE.
by apply: sumr_ge0 => i _; rewrite !mxE mulrAC mulr_ge0 // -expr2 sqr_ge0.
Qed.
Lemma wcross_tr k p q (w : 'cV[R]_k) (X : 'M[R]_(k, p)) (Y : 'M[R]_(k, q)) : (wcross w X Y)^T = wcross w Y X.
Proof. by rewrite /wcross !trmx_mul trmxK tr_diag_mx mulmxA. Qed.
Lemma wcross_psd k p (w : 'cV[R]_k) (X : 'M[R]_(k, p)) : (forall i, 0 <= w i 0) -> psd (wcross w X X).
Proof. by move=> H; rewrite /wcross; apply/psd_congrT/diag_ge0. Qed.

Lemma wcov_psd k p (Y : 'M[R]_(k, p)) (wm wc : 'cV[R]_k) : (forall i, 0 <= wc i 0) -> psd (wcov Y wm wc).
Proof. exact: wcross_psd. Qed.
Lemma ut_psd n p (mu : 'cV[R]_n) (S : 'M[R]_n) (F : pyfun R) (f : 'cV[R]_n -> 'cV[R]_p) (N : option 'M[R]_p) pts :
  (n <= 3)%N -> pd S -> fun1 F f -> (if N is Some N' then psd N' else True) ->
  moments2points (A1 mu, A2 S) None None None = Ok pts ->
  exists pts' (m' : 'cV[R]_p) (S' : 'M[R]_p), unscented_transform pts (Some F) None (omap (fun M : 'M_p => A2 M) N) = Ok (pts', (A1 m', A2 S')) /\ psd S'.
Proof.
move=> n3 HS HF HN; rewrite m2p_defE; have [P EP] := spts_pd mu HS; rewrite EP /= => [] [<-].
do 3 eexists; split; first by rewrite (ut1E _ _ _ N HF).
apply: psdD; first by apply: wcov_psd => i; exact: wdef_ge0.
by rewrite /onoise; case: N HN => [N'|] //= _; exact: psd0.
Qed.


(** residual of the weighted regression of [X] on [Y] with noise [N] *)
Lemma wcrossBl k p q (w : 'cV[R]_k) (X X' : 'M[R]_(k, p)) (Y : 'M[R]_(k, q)) : wcross w (X - X') Y = wcross w X Y - wcross w X' Y.
Proof. by rewrite /wcross linearB /= !mulmxBl. Qed.
Lemma wcrossBr k p q (w : 'cV[R]_k) (X : 'M[R]_(k, p)) (Y Y' : 'M[R]_(k, q)) : wcross w X (Y - Y') = wcross w X Y - wcross w X Y'.
Proof. by rewrite /wcross mulmxBr. Qed.
Lemma wcrossMl k p q r (w : 'cV[R]_k) (X : 'M[R]_(k, p)) (A : 'M[R]_(p, r)) (Y : 'M[R]_(k, q)) : wcross w (X *m A) Y = A^T *m wcross w X Y.
Proof. by rewrite /wcross trmx_mul !mulmxA. Qed.
Lemma wcrossMr k p q r (w : 'cV[R]_k) (X : 'M[R]_(k, p)) (A : 'M[R]_(q, r)) (Y : 'M[R]_(k, q)) : wcross w X (Y *m A) = wcross w X Y *m A.
Proof. by rewrite /wcross !mulmxA. Qed.
Section Schur.
Variables (k p q : nat) (w : 'cV[R]_k) (X : 'M[R]_(k, p)) (Y : 'M[R]_(k, q)) (N : 'M[R]_q).
Hypotheses (w0 : forall i, 0 <= w i 0) (HN : pd N) (HX : pd (wcross w X X)).
Let W := wcross w Y Y + N.
Let HW : pd W. Proof. by apply: pdD => //; exact: wcross_psd. Qed.
Let K := wcross w X Y *m pinv W.
Lemma KW : K *m W = wcross w X Y.
Proof. by rewrite /K pinv_unit ?pd_unit // mulmxKV // pd_unit. Qed.
Lemma schurE : wcross w X X - K *m wcross w Y X =
  wcross w (X - Y *m K^T) (X - Y *m K^T) + K *m N *m K^T.
Proof.
have E1 : K *m wcross w Y Y = wcross w X Y - K *m N by rewrite -KW /W mulmxDr addrK.
have E2 : wcross w (X - Y *m K^T) (X - Y *m K^T) =
   wcross w X X - K *m wcross w Y X - (wcross w X Y - K *m wcross w Y Y) *m K^T.
  rewrite wcrossBl !wcrossBr wcrossMl wcrossMr wcrossMl wcrossMr trmxK mulmxBl.
  rewrite [K *m (_ *m K^T)]mulmxA; zmod.
by rewrite E2 E1 subKr subrK.
Qed.
Lemma schur_pd : pd (wcross w X X - K *m wcross w Y X).
Proof.
have P1 := wcross_psd (X - Y *m K^T) w0; have P2 := psd_congr K (pd_psd HN).
have Hs : psd (wcross w X X - K *m wcross w Y X) by rewrite schurE; exact: psdD.
split; first exact: psd_sym Hs.
move=> v v0; rewrite schurE qfD qf_congr.
case: (K^T *m v =P 0) => [E|/eqP NE]; last by apply: ltr_paddl; [exact: psd_ge0|case: HN => _; apply].
apply: ltr_paddr; first exact: psd_ge0 (pd_psd HN).
have EX : (X - Y *m K^T) *m v = X *m v by rewrite mulmxBl -mulmxA E mulmx0 subr0.
have G (A : 'M[R]_(k, p)) : qf (wcross w A A) v = sc ((A *m v)^T *m diag_mx w^T *m (A *m v)).
  by rewrite /qf /bf /wcross trmx_mul !mulmxA.
by rewrite G EX -G; case: HX => _; apply.
Qed.
End Schur.

Lemma sg_self k n (P : 'M[R]_(k, n)) w mu S : is_sigma P w w mu S -> wcov P w w = S.
Proof. by case=> _ H _ H2; rewrite /wcov H. Qed.

Section Add.
Variables (n m : nat) (Q : 'M[R]_n) (Rn : 'M[R]_m) (mu0 : 'cV[R]_n) (P0 : 'M[R]_n).
Variables (f : nat -> 'cV[R]_n -> 'cV[R]_n) (g : nat -> 'cV[R]_n -> 'cV[R]_m).
Hypotheses (n3 : (n <= 3)%N) (HQ : pd Q) (HR : pd Rn) (HP : pd P0).
Let w0 i : 0 <= wdef R n i 0. Proof. exact: wdef_ge0. Qed.

Lemma ucorr_pd P mp S t z : is_sigma P (wdef R n) (wdef R n) mp S -> pd S ->
  pd (ucorr (wdef R n) P (fmap (g t) P) Rn (mp, S) z).2.
Proof.
move=> HP' HS; case: z => [z|] //=; rewrite wcross_tr /wcov.
have E : wcross (wdef R n) (cen P mp) (cen P mp) = S by case: HP'.
by rewrite -{1}E; apply: schur_pd; rewrite ?E.
Qed.
Lemma add_first_pd z : exists2 s, add_first Rn mu0 P0 g z = Some s & pd s.2.
Proof.
rewrite /add_first; have [P EP] := spts_pd mu0 HP; rewrite EP /=; eexists; first by [].
have HS := spts_sigma (pd_sym HP) EP; rewrite (sg_self HS) (sg_mean HS); exact: ucorr_pd HS HP.
Qed.
Lemma add_next_pd t s z : pd s.2 -> exists2 s', add_next Q Rn f g t s z = Some s' & pd s'.2.
Proof.
move=> Hs; rewrite /add_next /add_pred; have [P EP] := spts_pd s.1 Hs; rewrite EP /=.
set mp := (_, _); have Hmp : pd mp.2 by apply: pdD => //; exact: wcov_psd.
rewrite /add_corr; have [P' EP'] := spts_pd mp.1 Hmp; rewrite EP' /=; eexists; first by [].
have HS := spts_sigma (pd_sym Hmp) EP'.
by rewrite [mp]surjective_pairing; apply: ucorr_pd HS Hmp.
Qed.
Lemma add_filt_pd y t : exists2 s, add_filt Q Rn mu0 P0 f g y t = Some s & pd s.2.
Proof.
elim: t => [|t [s Es Hs]]; first exact: add_first_pd.
by rewrite /add_filt /= -/(add_filt Q Rn mu0 P0 f g y t) Es /=; exact: add_next_pd.
Qed.
Lemma add_back_pd t x s : pd x.2 -> psd s.2 -> exists2 r, add_back1 Q f t x s = Some r & pd r.2.
Proof.
move=> Hx Hs; rewrite /add_back1; have [P EP] := spts_pd x.1 Hx; rewrite EP /=; eexists; first by []; rewrite /uback1 /=.
have HS := spts_sigma (pd_sym Hx) EP; set Y := fmap (f t) P.
set w := wdef R n; set V := wcov Y w w + Q; set L := _ *m pinv V.
have E : wcross w (cen P x.1) (cen P x.1) = x.2 by case: HS.
have HX : pd (wcross w (cen P x.1) (cen P x.1)) by rewrite E.
have EL : L = wcross w (cen P x.1) (cen Y (wmean Y w)) *m pinv (wcross w (cen Y (wmean Y w)) (cen Y (wmean Y w)) + Q).
  by rewrite /L wcross_tr.
have H := schur_pd (cen Y (wmean Y w)) w0 HQ HX; rewrite -EL E in H.
have HK : L *m V = wcross w (cen P x.1) (cen Y (wmean Y w)).
  by rewrite EL; exact: (KW (cen P x.1) (cen Y (wmean Y w)) w0 HQ).
have HV : V^T = V by apply: pd_sym; apply: pdD => //; exact: wcov_psd.
have HT : wcross w (cen Y (wmean Y w)) (cen P x.1) = V *m L^T by rewrite -wcross_tr -HK trmx_mul HV.
have -> : x.2 + L *m (s.2 - V) *m L^T = x.2 - L *m wcross w (cen Y (wmean Y w)) (cen P x.1) + L *m s.2 *m L^T.
  by rewrite HT mulmxBr mulmxBl mulmxA; zmod.
by apply: pdDr => //; exact: psd_congr.
Qed.
Lemma add_backs_pd x j t : (forall t, pd (x t).2) -> exists2 r, ubacks (add_back1 Q f) x j t = Some r & pd r.2.
Proof.
move=> Hx; elim: j t => [|j IH] t /=; first by exists (x t).
by have [r -> Hr] := IH t.+1; exact: (add_back_pd t (Hx t) (pd_psd Hr)).
Qed.
End Add.

Lemma aukf_pd n m (o : ukf R) T f g (Q : 'M[R]_n) (Rn : 'M[R]_m) mu0 P0 zs :
  aukf_model o T f g Q Rn mu0 P0 -> (n <= 3)%N -> pd Q -> pd Rn -> pd P0 -> size zs = T -> keeps zs ->
  exists x s : nat -> 'cV[R]_n * 'M[R]_n,
    [/\ aukf_filter o (O2 m zs) = Ok [seq (A1 (x t).1, A2 (x t).2) | t <- iota 0 T],
        (0 < T)%N -> aukf_smooth o (O2 m zs) = Ok [seq (A1 (s t).1, A2 (s t).2) | t <- iota 0 T] &
        forall t, pd (x t).2 /\ pd (s t).2].
Proof.
move=> HM n3 HQ HR HP Hsz Hk.
pose x t := odflt (0, 0) (add_filt Q Rn mu0 P0 f g (stream zs) t).
have Hx t : add_filt Q Rn mu0 P0 f g (stream zs) t = Some (x t).
  by rewrite /x; have [s -> _] := add_filt_pd mu0 f g n3 HQ HR HP (stream zs) t.
have Px t : pd (x t).2.
  by have [s E] := add_filt_pd mu0 f g n3 HQ HR HP (stream zs) t; rewrite /x E.
pose s t := odflt (0, 0) (ubacks (add_back1 Q f) x (T.-1 - t) t).
have Hs t : ubacks (add_back1 Q f) x (T.-1 - t) t = Some (s t).
  by rewrite /s; have [r -> _] := add_backs_pd f n3 HQ (T.-1 - t) t Px.
have Ps t : pd (s t).2.
  by have [r E] := add_backs_pd f n3 HQ (T.-1 - t) t Px; rewrite /s E.
exists x, s; split=> //.
- by rewrite (aukf_filterE HM Hsz Hk); apply: mapr_lift => t _; exact: Hx.
- by move=> T0; rewrite (aukf_smoothE HM Hsz Hk T0 (x := x)) //; apply: mapr_lift => t _; exact: Hs.
Qed.
End Psd.
