(** When the square-root unscented smoother returns numbers at all. *)
From Coq Require Import String List.
From mathcomp Require Import all_ssreflect all_algebra.
From mathcomp Require Import ring.
From Verif Require Import Prelude Zmod LinAlg Numpy NumpyFacts Sklearn Standard Model KfSpec StandardInit StandardFacts Rng Sqrt SqrtFacts Unscented UscSpec UscFacts UscRefine UscLoop
  UscInit UscMain UscPsd SqrtUnscented CuFacts CuRank SuTri SuFacts SuStep SuMain.
Import GRing.Theory Num.Theory Order.Theory.

Set Implicit Arguments.
Unset Strict Implicit.
Unset Printing Implicit Defensive.
Local Open Scope ring_scope.

#[local] Arguments fun_at : simpl never.
#[local] Arguments wdef : simpl never.
#[local] Arguments sigma_rows : simpl never.
#[local] Arguments fmap : simpl never.

Section Smooth.
Variable R : rcfType.
Variable qr : qr_fun R.
Hypothesis Hqr : qr_valid qr.

Lemma upper_shape n (P : 'M[R]_n) a : np_cholesky_upper (A2 P) = Ok a -> exists F : 'M[R]_n, a = A2 F.
Proof. by rewrite /np_cholesky_upper cholTE; case: (chol _) => [L|//]; rewrite bO tr2 => [] [<-]; exists L^T. Qed.

(** ** the shape of a step's result *)
Lemma asg_shape n (m c : arr R) (x : moments R) :
  (fm <-- assign1 n m ;; fs <-- assign2 n n c ;; Ok (fm, fs)) = Ok x ->
  exists (mu : 'cV[R]_n) (S : 'M[R]_n), x = (A1 mu, A2 S).
Proof.
have H1 a : assign1 n m = Ok a -> exists mu : 'cV[R]_n, a = A1 mu.
  case: m => [y|p v|p q M|//]; rewrite /assign1.
  - by move=> [<-]; eexists.
  - case pn: (p == n).
      move/eqP: pn => e; subst p.
      by move=> [<-]; exists v.
    by case: ifP => // _ [<-]; eexists.
  - by case: ifP => // _ [<-]; eexists.
have H2' p q (M : 'M[R]_(p, q)) a : assign2_mx n n M = Ok a -> exists S : 'M[R]_n, a = A2 S.
  rewrite /assign2_mx; case: ifP => [/andP[/eqP ep /eqP eq]|_]; first by subst p q; move=> [<-]; exists M.
  by case: ifP => // _ [<-]; eexists.
have H2 a : assign2 n n c = Ok a -> exists S : 'M[R]_n, a = A2 S.
  case: c => [y|p v|p q M|p q [//|M [|//]]]; rewrite /assign2; try exact: H2'.
  by move=> [<-]; eexists.
case E1: (assign1 n m) => [a|//]; rewrite bO; case E2: (assign2 n n c) => [b|//]; rewrite bO => [] [<-].
by have [mu ->] := H1 _ E1; have [S ->] := H2 _ E2; exists mu, S.
Qed.

(** ** predictions *)
Section Last.
Variables (n m : nat) (p : uparams R) (Q2 : 'M[R]_n) (R2 : 'M[R]_m).
Variables (t : nat) (F G : pyfun R) (f : 'cV[R]_n -> 'cV[R]_n) (g : 'cV[R]_n -> 'cV[R]_m).
Hypotheses (EF : fun_at (u_f p) t = Ok F) (HF : fun1 F f) (EG : fun_at (u_g p) t.+1 = Ok G) (HG : fun1 G g).
Variables (mu : 'cV[R]_n) (S : 'M[R]_n).

(** the filtered factor against the predicted one *)
Lemma last_step (z : orow R m) x :
  su_step qr p (A2 Q2) (A2 R2) n t.+1 (Some (A1 mu, A2 S)) (A1 z.1, missing z) = Ok x ->
  exists (mp mf : 'cV[R]_n) (Sf Vp : 'M[R]_n) (U : 'M[R]_(n, m)) pp,
   [/\ su_transform qr (SigmaPoints (A2 (sigma_rows mu S^T 3%:R)) (A1 (wdef R n)) (A1 (wdef R n))) F (Some (A2 Q2)) = Ok (pp, (A1 mp, A2 Vp)),
       x = (A1 mf, A2 Sf), upper Vp, eqoff (Sf^T *m Sf) (Vp^T *m Vp - U *m U^T) &
       missing z -> Sf = Vp].
Proof.
rewrite /su_step bO su_m2pE bO [_.-1]/= EF bO.
have [Vp E [HV _]] := su_utE Hqr (sigma_rows mu S^T 3%:R) (wdef R n) (wdef R n) Q2 HF.
rewrite E bO; set mp := wmean _ _ in E *; set pp := SigmaPoints (A2 (fmap f _)) _ _ in E *.
rewrite su_m2pE bO EG bO bO.
have [V' -> _] := su_filter_correctE Hqr (sigma_rows mp Vp^T 3%:R) (wdef R n) mp Vp R2 z.1 (missing z) HG.
rewrite /su_correct; case Em: (missing z).
  rewrite [~~ _]/= bO assign1E bO assign2E bO => [] [<-].
  exists mp, mp, Vp, Vp, 0, pp; split; [exact: erefl|exact: erefl|exact: HV| |move=> _; exact: erefl].
  by rewrite mul0mx subr0; exact: eqoff_refl.
rewrite [~~ _]/= [fst _]/= [snd _]/= tr2 bO lstsqE bO tr2 bO lstsqE bO tr2 bO.
set K := (_ *m _)^T.
rewrite [fst _]/= [snd _]/= sub11 bO dot21 bO add11 bO dot22 bO tr2 bO.
case Ec: (cholupdate _ _ _) => [r|e]; last by rewrite [bind (Err _) _]/=.
have [Sf Er [_ _ HG' _]] := downdate_ok HV Ec; rewrite Er bO bO assign1E bO assign2E bO => [] [<-].
exists mp; eexists; exists Sf, Vp, (K *m V'), pp.
split; [exact: erefl|exact: erefl|exact: HV| |by move=> H; discriminate H].
by move: HG'; rewrite trmxK.
Qed.

(** the smoothing step fails on a factor the downdate cannot handle *)
Lemma back_fails (ms mp : 'cV[R]_n) (Ss Vp : 'M[R]_n) pp :
  su_transform qr (SigmaPoints (A2 (sigma_rows mu S^T 3%:R)) (A1 (wdef R n)) (A1 (wdef R n))) F (Some (A2 Q2)) = Ok (pp, (A1 mp, A2 Vp)) ->
  cholupdate (A2 Vp) (A2 Ss) (-1) = Err NotANumber ->
  su_back qr p (A2 Q2) n t (A1 mu, A2 S) (A1 ms, A2 Ss) = Err NotANumber.
Proof.
have [V E _] := su_utE Hqr (sigma_rows mu S^T 3%:R) (wdef R n) (wdef R n) Q2 HF.
move=> E0 Ec; have EV : A2 V = A2 Vp by move: E0; rewrite E; congruence.
rewrite -(A2_inj EV) in Ec.
rewrite /su_back su_m2pE bO EF bO E bO.
rewrite [sp_points _]/= [fst _]/= sub_row bO tr2 bO [sp_wc _]/= diag1 bO dot22 bO.
rewrite [sp_points _]/= [fst (A1 mu, _)]/= sub_row bO dot22 bO tr2 bO tr2 bO [snd _]/= tr2 bO lstsqE bO lstsqE bO tr2 bO.
by rewrite sub11 bO dot21 bO add11 bO assign1E bO Ec.
Qed.
End Last.

(** ** the loops *)
Lemma uloop_split (stp : ustep R) p n t prev k (zs : seq (orow R k)) z1 z2 rows :
  ufilter_loop stp p n t prev (zs ++ [:: z1; z2]) = Ok rows ->
  exists pre r s prev', [/\ rows = pre ++ [:: r; s], size pre = size zs,
    stp p n (t + size zs)%N prev' (A1 z1.1, missing z1) = Ok r & stp p n (t + size zs).+1 (Some r) (A1 z2.1, missing z2) = Ok s].
Proof.
elim: zs t prev rows => [|z zs IH] t prev rows.
  rewrite cat0s uloop_cons; case E1: (stp _ _ _ _ _) => [r|//]; rewrite bO uloop_cons.
  case E2: (stp _ _ _ _ _) => [s|//] [<-]; exists [::], r, s, prev.
  by rewrite addn0; split.
rewrite cat_cons uloop_cons; case E1: (stp _ _ _ _ _) => [r0|//]; rewrite bO.
case E2: (ufilter_loop _ _ _ _ _ _) => [rs|//]; rewrite bO => [] [<-].
have [pre [r [s [prev' [-> Es E3 E4]]]]] := IH _ _ _ E2.
exists (r0 :: pre), r, s, prev'; rewrite [size _]/= addnS; split=> //=.
by rewrite Es.
Qed.
Lemma usmooth_fails (bck : uback R) p n t pre r s e :
  bck p n (t + size pre)%N r s = Err e -> usmooth_loop bck p n t (pre ++ [:: r; s]) = Err e.
Proof.
elim: pre t => [|r0 pre IH] t; first by rewrite addn0 /= => ->.
rewrite [size _]/= addnS -addSn => /IH H; rewrite cat_cons.
by case: pre {IH} H => [|r1 pre] H; rewrite /= -?/(usmooth_loop _ _ _ _ _) in H *; rewrite H.
Qed.

Section Fail.
Variables (n m : nat) (o : ukf R) (T : nat) (f : nat -> 'cV[R]_n -> 'cV[R]_n) (g : nat -> 'cV[R]_n -> 'cV[R]_m).
Variables (Q : 'M[R]_n) (Rn : 'M[R]_m) (mu0 : 'cV[R]_n) (P0 : 'M[R]_n).
Hypothesis HM : aukf_model o T f g Q Rn mu0 P0.
Variable zs : seq (orow R m).
Hypotheses (Hsz : size zs = T) (T2 : (1 < T)%N) (Hk : keeps zs).

Lemma smooth_fails rows : sukf_filter qr o (O2 m zs) = Ok rows ->
  (m.+1 < n)%N \/ (1 < n)%N /\ stream zs T.-1 = None ->
  sukf_smooth qr o (O2 m zs) = Err NotANumber.
Proof.
rewrite /sukf_filter /sukf_smooth parse_keep // (um_init _ HM) !bO.
rewrite /su_filter_ (um_EQ _ HM) (um_ER _ HM) [shape_m1 _]/= !bO.
case EQ2: (np_cholesky_upper _) => [Q2'|//]; rewrite !bO; have [Q2 EQ] := upper_shape EQ2; subst Q2'.
case ER2: (np_cholesky_upper (A2 Rn)) => [R2'|//]; rewrite !bO; have [R2 ER] := upper_shape ER2; subst R2'.
set stp := (fun _ _ _ _ _ => _); case El: (ufilter_loop _ _ _ _ _ _) => [xs|//]; rewrite !bO => _ Hcase.
have [zs' [z1 [z2 Ez]]] : exists zs' z1 z2, zs = zs' ++ [:: z1; z2].
  case/lastP: zs Hsz T2 => [<-//|zs1 z2 <-]; rewrite size_rcons; case/lastP: zs1 => [//|zs2 z1] _.
  by exists zs2, z1, z2; rewrite -!cats1 -catA.
have ET : T = (size zs').+2 by rewrite -Hsz Ez size_cat /= addn2.
rewrite Ez in El; have [pre [r [s [prev [Ex Ep E1 E2]]]]] := uloop_split El.
rewrite add0n in E1 E2.
have [mu [S Er]] : exists (mu : 'cV[R]_n) (S : 'M[R]_n), r = (A1 mu, A2 S).
  move: E1; rewrite /stp /su_step.
  case: (match prev with Some _ => _ | None => _ end) => [[a b]|//]; rewrite bO.
  case: (su_moments2points _ _ _ _) => [ps|//]; rewrite bO.
  case: (match prev with Some _ => _ | None => _ end) => [[c d]|//]; rewrite bO.
  case: (fun_at _ _) => [G|//]; rewrite bO.
  case: (su_filter_correct _ _ _ _ _ _) => [[e h]|//]; rewrite bO.
  exact: asg_shape.
subst r.
have t1 : ((size zs').+1 < T)%N by rewrite ET.
have [F EF HF] := um_F HM (@dflt1 R n n) (predn_lt t1); have [G EG HG] := um_G HM (@dflt1 R n m) t1.
have [mp [mf [Sf [Vp [U [pp [H1 H2 H3 H4 H5]]]]]]] := last_step EF HF EG HG E2.
have Hfail : cholupdate (A2 Vp) (A2 Sf) (-1) = Err NotANumber.
  case: Hcase => [mn|[n1 Hs]]; first exact: (downdate_fails H3 mn H4).
  have Em : missing z2.
    by move: Hs; rewrite ET Ez /stream; elim: (zs') => [|? ? IH //] /=; case: (missing z2).
  apply: (@downdate_fails R n 0 Vp Sf (0 : 'M_(n, 0))) => //.
  by rewrite mul0mx subr0 H5 //; exact: eqoff_refl.
have := back_fails EF HF mf H1 Hfail; rewrite -H2 => Hb.
have -> : (if xs is [::] then Err IndexError else Ok tt) = Ok tt by rewrite Ex; case: (pre).
rewrite bO Ex (usmooth_fails (e := NotANumber)) //.
by rewrite add0n Ep.
Qed.
End Fail.
End Smooth.
