(** The square-root unscented smoother against the plain one. *)
From Coq Require Import String List.
From mathcomp Require Import all_ssreflect all_algebra.
From mathcomp Require Import ring.
From Verif Require Import Prelude Zmod LinAlg Numpy NumpyFacts Sklearn Standard Model KfSpec StandardInit StandardFacts Rng Sqrt SqrtFacts Unscented UscSpec UscFacts UscRefine UscLoop
  UscInit UscMain UscPsd SqrtUnscented CuFacts CuRank SuTri SuFacts SuStep SuMain SuSmooth SuSmooth2.
Import GRing.Theory Num.Theory Order.Theory.

Set Implicit Arguments.
Unset Strict Implicit.
Unset Printing Implicit Defensive.
Local Open Scope ring_scope.

#[local] Arguments fun_at : simpl never.
#[local] Arguments wdef : simpl never.
#[local] Arguments sigma_rows : simpl never.
#[local] Arguments fmap : simpl never.
#[local] Arguments spts : simpl never.
#[local] Arguments ucorr : simpl never.

Section Main.
Variable R : rcfType.
Variable qr : qr_fun R.
Hypothesis Hqr : qr_valid qr.
Variables (n m : nat) (o : ukf R) (T : nat) (f : nat -> 'cV[R]_n -> 'cV[R]_n) (g : nat -> 'cV[R]_n -> 'cV[R]_m).
Variables (Q : 'M[R]_n) (Rn : 'M[R]_m) (mu0 : 'cV[R]_n) (P0 : 'M[R]_n).
Hypothesis HM : aukf_model o T f g Q Rn mu0 P0.
Hypotheses (HR : pd Rn) (HP : pd P0) (HQ : pd Q) (dQ : is_diag_mx Q).
Hypothesis Hf : forall t, (t < T.-1)%N -> tame (f t).
Variable zs : seq (orow R m).
Hypotheses (Hsz : size zs = T) (Hk : keeps zs).
Hypothesis Hg : forall t, (t < T)%N -> stream zs t = None \/ (m <= 1)%N /\ tame (g t).

Lemma next_below t s s' z : pd s.2 -> tame (f t) -> (z = None \/ tame (g t.+1)) ->
  add_next Q Rn f g t s z = Some s' -> exists2 mp, add_pred Q f t s = Some mp & psd (mp.2 - s'.2).
Proof.
move=> Hs Ht Hz; have [C _ HC] := cholupperE Hs.
rewrite /add_next /add_pred (sptsE s.1 HC) [omap _ _]/= [obind _ _]/=.
set P := sigma_rows s.1 C^T 3%:R; set Y := fmap (f t) P; set w := wdef R n.
set mp := (wmean Y w, wcov Y w w + Q).
have EA : wcov Y w w = wcross (wabs w) (cen Y (wmean Y w)) (cen Y (wmean Y w)) by exact: (tame_abs s.1 C^T Ht).
have HV : pd mp.2 by rewrite /mp EA; apply: pdD => //; apply: wcross_psd; exact: wabs_ge0.
move: mp HV {EA} => mp HV; have [D _ HD] := cholupperE HV.
rewrite /add_corr (sptsE mp.1 HD) [omap _ _]/= => [] [<-]; exists mp; first exact: erefl.
case: z Hz => [z [//|Hz]|_]; rewrite /ucorr; last by rewrite subrr; exact: psd0.
have [HW _] := tame_pd mp.1 HD Hz HR; rewrite [snd _]/= opprB addrC subrK.
by apply: psd_congr; rewrite pinv_unit ?pd_unit //; apply: pd_psd; exact: pd_inv.
Qed.

Lemma chainedP (y : nat -> option 'cV[R]_m) ss t : (forall i, (i < size ss)%N -> (t + i < T)%N) ->
  (forall i, (t <= i < T)%N -> y i = None \/ tame (g i)) ->
  [seq ufold (add_first Rn mu0 P0 g) (add_next Q Rn f g) y i | i <- iota t (size ss)] = map Some ss ->
  (forall s, In s ss -> pd s.2) -> chained Q f t ss.
Proof.
elim: ss t => [//|s ss IH] t Hi Hy E Hpd; case: ss IH Hi E Hpd => [//|s' ss] IH Hi E Hpd.
have tT : (t.+1 < T)%N by have := Hi 1%N isT; rewrite addn1.
split; last first.
  apply: IH.
  - by move=> i si; rewrite addSnnS; exact: (Hi i.+1 si).
  - by move=> i /andP[i1 i2]; apply: Hy; rewrite (ltnW i1).
  - exact: (congr1 behead E).
  - by move=> s0 H0; apply: Hpd; right.
have [E0 E1] : ufold (add_first Rn mu0 P0 g) (add_next Q Rn f g) y t = Some s /\ add_next Q Rn f g t s (y t.+1) = Some s'.
  have E0 : ufold (add_first Rn mu0 P0 g) (add_next Q Rn f g) y t = Some s.
    exact: (congr1 (fun l => if l is a :: _ then a else None) E).
  split; first exact: E0.
  have : ufold (add_first Rn mu0 P0 g) (add_next Q Rn f g) y t.+1 = Some s'.
    exact: (congr1 (fun l => if l is _ :: a :: _ then a else None) E).
  by rewrite (ufold_next E0).
apply: (@next_below t s s' (y t.+1)) => //.
- by apply: Hpd; left.
- by apply: Hf; exact: (predn_lt tT).
- by apply: Hy; rewrite leqnSn.
Qed.

Lemma stands_pd xs (ss : seq ('cV[R]_n * 'M[R]_n)) : List.Forall2 (@stands R n) xs ss -> forall s, In s ss -> pd s.2.
Proof.
elim=> [//|x s xs' ss' [F _ [rF EF]] _ IH] s' [<-|]; last exact: IH.
by rewrite -EF; exact: regular_pd.
Qed.

Lemma sukf_smooth_is : (0 < T)%N ->
  is_ok (aukf_smooth o (O2 m zs)) /\
  (((1 < n)%N /\ sukf_smooth qr o (O2 m zs) = Err NotANumber) \/
   sukf_smooth qr o (O2 m zs) = aukf_smooth o (O2 m zs)).
Proof.
move=> T0; have [ss [xs [E1 E2 E3]]] := sukf_rows Hqr HM HR HP HQ dQ Hf Hsz Hg.
have Es : size ss = T by have := congr1 size E2; rewrite !size_map size_iota.
have Ea : aukf_filter o (O2 m zs) = Ok [seq lift_s s | s <- ss].
  rewrite (aukf_filterE HM Hsz Hk) -/(add_filt Q Rn mu0 P0 f g (stream zs)).
  by elim: (iota 0 T) (ss) E2 => [|i l IH] [|s ss'] //= [H1 H2]; rewrite H1 /= (IH _ H2).
have Hch : chained Q f 0 ss.
  apply: (@chainedP (stream zs)); last exact: (stands_pd E3).
  - by move=> i; rewrite Es add0n.
  - by move=> i /andP[_ iT]; have [->|[_ H]] := Hg iT; [left|right].
  - by rewrite Es.
have ne : ss <> [::] by move=> e; move: T0; rewrite -Es e.
have [Q2 EQ2 HQ2] := cholupperE HQ.
have [|rs Er [_ Hr]] := @su_loopE R qr Hqr n Q Q2 (uinit_value (@add_default R) o) f HQ HQ2 dQ (um_EQ _ HM) 0%N xs ss E3 Hch ne.
  move=> i /andP[_ iT]; rewrite add0n Es in iT; split; first exact: Hf.
  by have [F EF HF] := um_F HM (@dflt1 R n n) iT; exists F.
rewrite /aukf_smooth (um_init _ HM) bO Ea bO (um_EQ _ HM) [shape_m1 _]/= bO Er; split; first by [].
rewrite /sukf_smooth parse_keep // (um_init _ HM) bO E1 bO (um_EQ _ HM) [shape_m1 _]/= bO.
have -> : (if xs is [::] then Err IndexError else Ok tt) = Ok tt.
  by case: (xs) (ss) E3 ne => [|? ?] ss0 H0 //; inversion_clear H0.
rewrite bO EQ2 bO; case: Hr => [[n1 ->]|[ys -> Hys]]; [left|right].
  by split; [exact: n1|exact: erefl].
by rewrite bO (covsE Hys).
Qed.
End Main.
