(** When the square-root unscented smoother returns, it returns the plain smoother's moments. *)
From Coq Require Import String List.
From mathcomp Require Import all_ssreflect all_algebra.
From mathcomp Require Import ring.
From Verif Require Import Prelude Zmod LinAlg Numpy NumpyFacts Sklearn Standard Model KfSpec StandardInit StandardFacts Rng Sqrt SqrtFacts Unscented UscSpec UscFacts UscRefine UscLoop
  UscInit UscMain UscPsd SqrtUnscented CuFacts CuRank SuTri SuFacts SuStep SuMain SuSmooth.
Import GRing.Theory Num.Theory Order.Theory.

Set Implicit Arguments.
Unset Strict Implicit.
Unset Printing Implicit Defensive.
Local Open Scope ring_scope.

#[local] Arguments fun_at : simpl never.
#[local] Arguments wdef : simpl never.
#[local] Arguments sigma_rows : simpl never.
#[local] Arguments fmap : simpl never.
#[local] Arguments spts : simpl never.
#[local] Arguments ucorr : simpl never.

Section Smooth.
Variable R : rcfType.
Variable qr : qr_fun R.
Hypothesis Hqr : qr_valid qr.

Lemma cu_n01 n v (A : 'M[R]_n) (X : 'M[R]_(v, n)) w : (n <= 1)%N -> exists F : 'M[R]_n, cholupdate (A2 A) (A2 X) w = Ok (A2 F).
Proof.
move=> n1; rewrite cholupdateE; elim: (iota 0 v) A => [|i l IH] A; first by exists A.
have [F EF] : exists F : 'M[R]_n, cu_outer (Num.sg w) (Num.sqrt `|w| *: X) A i = Ok F.
  rewrite /cu_outer; have [k0 kn] : exists l, iota 0 n = l /\ forall k, (k.+1 < n)%N = false.
    by eexists; split=> // k; apply/negbTE; rewrite -leqNgt (leq_trans n1).
  move: (A, _) => st; elim: (iota 0 n) st => [|k l' IH'] st; first by case: st => A' x'; exists A'.
  rewrite foldr_consE; case: st => A' x'; rewrite {1}/cu_inner kn.2 andFb bO; exact: IH'.
by have [F2 E2] := IH F; exists F2; rewrite -E2 foldr_consE EF.
Qed.

Lemma gain_inv n q (V : 'M[R]_n) (A : 'M[R]_(n, q)) : V \in unitmx ->
  (pinv V *m (pinv V^T *m A))^T = A^T *m invmx (V^T *m V).
Proof.
move=> uV; have uT : V^T \in unitmx by rewrite unitmx_tr.
have uP : V^T *m V \in unitmx by rewrite unitmx_mul uV uT.
rewrite !pinv_unit // !trmx_mul !trmx_inv trmxK -mulmxA; congr (_ *m _).
rewrite -[RHS]mulmx1; apply: (canRL (mulKmx uP)).
by rewrite !mulmxA -[V^T *m _ *m _]mulmxA mulmxV // mulmx1 mulmxV.
Qed.
Lemma nat_if' k (P Q S : Prop) : (k = 0%N -> P -> S) -> (Q -> S) -> (if k is 0%N then P else Q) -> S.
Proof. by case: k => [|k] H1 H2; [exact: H1|exact: H2]. Qed.

Lemma usmooth_cons (bck : uback R) p n t x y xs :
  usmooth_loop bck p n t (x :: y :: xs) =
  (ss <-- usmooth_loop bck p n t.+1 (y :: xs) ;;
   match ss with [::] => Err IndexError | s :: _ => r' <-- bck p n t x s ;; Ok (r' :: ss) end).
Proof. by []. Qed.

Section Back.
Variables (n : nat) (Q : 'M[R]_n) (Q2 : 'M[R]_n) (p : uparams R) (f : nat -> 'cV[R]_n -> 'cV[R]_n).
Hypotheses (HQ : pd Q) (EQ2 : is_chol Q Q2) (dQ : is_diag_mx Q).

(** the plain smoother on positive definite moments *)
Lemma tame_back t (x s mp : 'cV[R]_n * 'M[R]_n) : pd x.2 -> psd s.2 -> tame (f t) ->
  add_pred Q f t x = Some mp -> psd (mp.2 - s.2) ->
  exists (C : 'M[R]_n) (L : 'M[R]_n), let P := sigma_rows x.1 C^T 3%:R in let Y := fmap (f t) P in
  [/\ is_chol x.2 C, mp = (wmean Y (wdef R n), wcov Y (wdef R n) (wdef R n) + Q),
      L = wcross (wdef R n) (cen P x.1) (cen Y mp.1) *m invmx mp.2 & [/\ pd mp.2,
      add_back1 Q f t x s = Some (x.1 + L *m (s.1 - mp.1), x.2 - L *m (mp.2 - s.2) *m L^T),
      pd (x.2 - L *m (mp.2 - s.2) *m L^T) & psd (L *m (mp.2 - s.2) *m L^T)]].
Proof.
move=> Hx Hs Hf; have [C _ HC] := cholupperE Hx; rewrite /add_pred (sptsE x.1 HC) [omap _ _]/= => [] [<-].
set P := sigma_rows x.1 C^T 3%:R; set Y := fmap (f t) P; set w := wdef R n; rewrite [fst _]/= [snd _]/= => Hd.
have EA : wcov Y w w = wcross (wabs w) (cen Y (wmean Y w)) (cen Y (wmean Y w)) by exact: (tame_abs x.1 C^T Hf).
have EC : wcross w (cen P x.1) (cen Y (wmean Y w)) = wcross (wabs w) (cen P x.1) (cen Y (wmean Y w)) by exact: cross_abs.
have ES : wcross (wabs w) (cen P x.1) (cen P x.1) = x.2.
  by rewrite -cross_abs wdef_cov trmxK; case: HC.
have HV : pd (wcov Y w w + Q) by rewrite EA; apply: pdD => //; apply: wcross_psd; exact: wabs_ge0.
set V := wcov Y w w + Q in Hd HV *.
pose L := wcross w (cen P x.1) (cen Y (wmean Y w)) *m invmx V.
have EL : L = wcross (wabs w) (cen P x.1) (cen Y (wmean Y w)) *m pinv (wcross (wabs w) (cen Y (wmean Y w)) (cen Y (wmean Y w)) + Q).
  by rewrite /L EC /V EA pinv_unit // -EA; exact: pd_unit.
have HX : pd (wcross (wabs w) (cen P x.1) (cen P x.1)) by rewrite ES.
have H := schur_pd (cen Y (wmean Y w)) (@wabs_ge0 _ _ w) HQ HX; rewrite -EL ES in H.
have HT : wcross (wabs w) (cen Y (wmean Y w)) (cen P x.1) = V *m L^T.
  rewrite -UscFacts.wcross_tr -EC; move: (wcross w (cen P x.1) (cen Y (wmean Y w))) @L {EL H EC} => W L.
  by rewrite /L [_^T in RHS]trmx_mul trmx_inv (pd_sym HV) mulKVmx //; exact: pd_unit.
exists C, L; split; [exact: HC|exact: erefl|exact: erefl|split].
- exact: HV.
- rewrite /add_back1 (sptsE x.1 HC) [omap _ _]/= /uback1; congr (Some _).
  have -> : (wcross w (cen Y (wmean Y w)) (cen P x.1))^T *m pinv V = L.
    by rewrite UscFacts.wcross_tr pinv_unit //; exact: pd_unit.
  rewrite -/V; congr (_, _); rewrite -mulNmx -mulmxN opprB //.
- have -> : x.2 - L *m (V - s.2) *m L^T = x.2 - L *m wcross (wabs w) (cen Y (wmean Y w)) (cen P x.1) + L *m s.2 *m L^T.
    by rewrite HT mulmxBr mulmxBl mulmxA; zmod.
  by apply: pdDr => //; exact: psd_congr.
- exact: psd_congr.
Qed.

Lemma su_backE t F sx xx (x s mp : 'cV[R]_n * 'M[R]_n) : fun_at (u_f p) t = Ok F -> fun1 F (f t) -> tame (f t) ->
  stands xx x -> stands sx s -> add_pred Q f t x = Some mp -> psd (mp.2 - s.2) ->
  exists2 r, add_back1 Q f t x s = Some r & psd (x.2 - r.2) /\
   (((1 < n)%N /\ su_back qr p (A2 Q2) n t xx sx = Err NotANumber) \/
    exists2 rx, su_back qr p (A2 Q2) n t xx sx = Ok rx & stands rx r).
Proof.
move=> EF HF Hf [S2 -> [rS ES]] [Ss -> [rs Es]] Emp Hd.
have Hx : pd x.2 by rewrite -ES; exact: regular_pd.
have Hs : psd s.2 by rewrite -Es; apply: pd_psd; exact: regular_pd.
have [C [L [HC Empv EL [HV EB HP HP0]]]] := tame_back Hx Hs Hf Emp Hd.
eexists; first exact: EB; rewrite [snd _]/=; split; first by rewrite opprB addrC subrK.
have [mp' [pp [V [E1 E2 rV EV Epp]]]] := su_predE Hqr HQ EQ2 dQ rS ES HF Hf.
have {E1} Em : mp' = mp by move: E1; rewrite Emp => [] [].
subst mp'; have Em1 : mp.1 = wmean (fmap (f t) (sigma_rows x.1 C^T 3%:R)) (wdef R n) by rewrite Empv.
have EC : C^T *m C = x.2 by case: HC.
have EE : S2^T *m S2 = C^T *m C by rewrite ES.
have [M1 M3 _] := sgn_all x.1 rS (is_chol_regular HC) EE (f t).
have M3' : wcross (wdef R n) (cen (sigma_rows x.1 S2^T 3%:R) x.1) (cen (fmap (f t) (sigma_rows x.1 S2^T 3%:R)) mp.1) =
   wcross (wdef R n) (cen (sigma_rows x.1 C^T 3%:R) x.1) (cen (fmap (f t) (sigma_rows x.1 C^T 3%:R)) mp.1).
  by rewrite Em1 -M3 M1.
rewrite /su_back su_m2pE bO EF bO E2 bO Epp.
rewrite [sp_points _]/= [fst _]/= sub_row bO tr2 bO [sp_wc _]/= diag1 bO dot22 bO.
rewrite [sp_points _]/= [fst (A1 x.1, _)]/= sub_row bO dot22 bO tr2 bO tr2 bO [snd _]/= tr2 bO lstsqE bO lstsqE bO tr2 bO.
have uV := regular_unit rV.
have -> : (pinv V *m (pinv V^T *m ((cen (fmap (f t) (sigma_rows x.1 S2^T 3%:R)) mp.1)^T *m diag_mx (wdef R n)^T *m cen (sigma_rows x.1 S2^T 3%:R) x.1)^T^T))^T = L.
  rewrite trmxK gain_inv // EV EL -M3'; congr (_ *m _); exact: UscFacts.wcross_tr.
rewrite [fst _]/= [snd _]/= sub11 bO dot21 bO add11 bO assign1E bO.
case Ec: (cholupdate (A2 V) _ _) => [F1|e]; last first.
  left; rewrite (cholupdate_err Ec); split; last exact: erefl.
  by rewrite ltnNge; apply/negP=> n1; have [F' EF'] := cu_n01 V Ss (-1) n1; rewrite EF' in Ec.
have [G1 -> [_ _ _ HG]] := downdate_ok rV.1 Ec; rewrite bO tr2 bO dot22 bO tr2 bO.
have EG : G1^T *m G1 = mp.2 - s.2 by move: HG; rewrite EV Es; apply.
have EX : S2^T *m S2 + (-1) *: ((L *m G1^T)^T^T *m (L *m G1^T)^T) = x.2 - L *m (mp.2 - s.2) *m L^T.
  by rewrite ES scaleN1r trmxK [(L *m _)^T]trmx_mul trmxK -EG !mulmxA.
have HP' : pd (S2^T *m S2 + (-1) *: ((L *m G1^T)^T^T *m (L *m G1^T)^T)) by rewrite EX.
have [c -> Hc] := cholupdate_ok rS.1 rS.2 HP'; rewrite bO assign2E bO; right; eexists; first exact: erefl.
exists c; first exact: erefl.
move: Hc; rewrite EX [snd _]/=; apply: nat_if'.
  move=> n0 ->; split=> //; apply/matrixP=> i; have := ltn_ord i; rewrite [X in (_ < X)%N]n0 //.
by move=> Hc; split; [exact: is_chol_regular Hc|case: Hc].
Qed.

(** ** the loop *)
(** consecutive filtered moments: the covariance at the next time is below the predicted one *)
Fixpoint chained (t : nat) (ss : seq ('cV[R]_n * 'M[R]_n)) : Prop :=
  if ss is s :: ss' then
    if ss' is s' :: _ then (exists2 mp, add_pred Q f t s = Some mp & psd (mp.2 - s'.2)) /\ chained t.+1 ss' else True
  else True.

Let bck : uback R := fun p n t f s => su_back qr p (A2 Q2) n t f s.
Lemma su_loopE (EQ : u_tc p = A2 Q) t xs ss : List.Forall2 (@stands R n) xs ss -> chained t ss -> ss <> [::] ->
  (forall i, (t <= i < t + (size ss).-1)%N -> tame (f i) /\ exists2 F, fun_at (u_f p) i = Ok F & fun1 F (f i)) ->
  exists2 rs, usmooth_loop (@add_back R) p n t [seq lift_s s | s <- ss] = Ok [seq lift_s s | s <- rs] &
   (if (ss, rs) is (s :: _, r :: _) then psd (s.2 - r.2) /\ psd r.2 else False) /\
   (((1 < n)%N /\ usmooth_loop bck p n t xs = Err NotANumber) \/
    exists2 ys, usmooth_loop bck p n t xs = Ok ys & List.Forall2 (@stands R n) ys rs).
Proof.
elim: ss xs t => [//|s ss IH] xs t; case: xs => [|x xs] H; inversion_clear H as [|? ? ? ? Hx Hxs] => Hch _ Hf.
have Hs : pd s.2 by have [S2 _ [rS <-]] := Hx; exact: regular_pd.
case: ss IH Hxs Hch Hf => [|s' ss] IH Hxs Hch Hf.
  inversion_clear Hxs; exists [:: s]; first exact: erefl.
  split; first by split; [rewrite subrr; exact: psd0|exact: pd_psd].
  by right; exists [:: x]; [exact: erefl|constructor].
case: Hch => [[mp Emp Hmp] Hch].
have Hf' i : (t.+1 <= i < t.+1 + (size (s' :: ss)).-1)%N -> tame (f i) /\ exists2 F, fun_at (u_f p) i = Ok F & fun1 F (f i).
  move=> /andP[i1 i2]; apply: Hf; rewrite (ltnW i1) /=; move: i2; rewrite /= addSnnS //.
have ne : s' :: ss <> [::] by [].
have [rs Ers [Hr Hsu]] := IH xs t.+1 Hxs Hch ne Hf'.
case: rs Ers Hr Hsu => [//|r rs] Ers [Hr Pr] Hsu.
have [Ht [F EF HF]] : tame (f t) /\ exists2 F, fun_at (u_f p) t = Ok F & fun1 F (f t).
  by apply: Hf; rewrite leqnn /= -[X in (X < _)%N]addn0 ltn_add2l.
have Hd : psd (mp.2 - r.2).
  have -> : mp.2 - r.2 = (mp.2 - s'.2) + (s'.2 - r.2) by zmod.
  exact: psdD.
have [C [L [_ _ _ [_ EB HP HP0]]]] := tame_back Hs Pr Ht Emp Hd.
set q := (_, _) in EB.
have Eadd : usmooth_loop (@add_back R) p n t [seq lift_s s | s <- s :: s' :: ss] = Ok [seq lift_s s | s <- q :: r :: rs].
  rewrite !map_cons usmooth_cons -map_cons Ers bO map_cons (add_backE EQ s r EF HF) EB //.
have Hq : psd (s.2 - q.2) /\ psd q.2 by split; [rewrite opprB addrC subrK|exact: pd_psd].
exists (q :: r :: rs); first exact: Eadd.
split; first exact: Hq.
case: xs Hxs Hsu {IH} => [|x1 xs] Hxs Hsu; first by inversion_clear Hxs.
case: Hsu => [[n1 El]|[ys El Hys]].
  by left; split; [exact: n1|rewrite usmooth_cons El].
case: ys El Hys => [|y ys] El Hys; inversion_clear Hys as [|? ? ? ? Hy Hys'].
have [q' Eq' [_ H]] := su_backE EF HF Ht Hx Hy Emp Hd.
have Eq : q' = q by move: Eq'; rewrite EB => [] [].
subst q'; case: H => [[n1 Eb]|[y0 Eb H0]].
  by left; split; [exact: n1|rewrite usmooth_cons El bO /bck Eb].
right; exists (y0 :: y :: ys); first by rewrite usmooth_cons El bO /bck Eb.
by constructor=> //; constructor.
Qed.
End Back.
End Smooth.
