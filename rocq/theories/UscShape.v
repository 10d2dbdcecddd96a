(** Observations of the wrong width, and causality, for the unscented filters. *)
From Coq Require Import String List.
From mathcomp Require Import all_ssreflect all_algebra.
From Verif Require Import Prelude Zmod LinAlg Numpy NumpyFacts Sklearn Standard Model KfSpec StandardInit StandardFacts Rng
  Unscented UscSpec UscFacts UscRefine UscLoop UscInit UscMain.
Import GRing.Theory Num.Theory Order.Theory.

Set Implicit Arguments.
Unset Strict Implicit.
Unset Printing Implicit Defensive.
Local Open Scope ring_scope.

Section Causal.
Variable R : rcfType.
Lemma uloop_take (stp : ustep R) p n k (zs : seq (orow R k)) t prev rows j :
  ufilter_loop stp p n t prev zs = Ok rows -> ufilter_loop stp p n t prev (take j zs) = Ok (take j rows).
Proof.
elim: zs t prev rows j => [|z zs IH] t prev rows j; first by case=> <-; case: j.
rewrite uloop_cons; case E: (stp _ _ _ _ _) => [r|//]; rewrite bO.
case El: (ufilter_loop _ _ _ _ _ _) => [l|//]; rewrite bO => [] [<-].
by case: j => [//|j]; rewrite /= E /= (IH _ _ _ _ El).
Qed.
Lemma ufilter_take dflt (stp : ustep R) o k (zs : seq (orow R k)) rows j :
  keeps zs -> keeps (take j zs) ->
  ufilter_with dflt stp o (O2 k zs) = Ok rows -> ufilter_with dflt stp o (O2 k (take j zs)) = Ok (take j rows).
Proof.
move=> H1 H2; rewrite /ufilter_with !parse_keep //.
case: (uinitialize _ _) => [p|//]; rewrite !bO /unscented_filter.
case: (shape_m1 _) => [n|//]; rewrite !bO; exact: uloop_take.
Qed.
Lemma ufilter_size dflt (stp : ustep R) o k (zs : seq (orow R k)) rows :
  keeps zs -> ufilter_with dflt stp o (O2 k zs) = Ok rows -> size rows = size zs.
Proof.
move=> H1; rewrite /ufilter_with !parse_keep //.
case: (uinitialize _ _) => [p|//]; rewrite !bO /unscented_filter.
case: (shape_m1 _) => [n|//]; rewrite !bO.
elim: zs 0%N (@None (moments R)) rows {H1} => [|z zs IH] t prev rows; first by case=> <-.
rewrite uloop_cons; case E: (stp _ _ _ _ _) => [r|//]; rewrite bO.
by case El: (ufilter_loop _ _ _ _ _ _) => [l|//]; rewrite bO => [] [<-] /=; rewrite (IH _ _ _ El).
Qed.
End Causal.

Section Width.
Variable R : rcfType.

(** the observation enters the correction only through its difference with the predicted observation *)
Lemma fcE1 k n m (P : 'M[R]_(k.+1, n)) w (G : pyfun R) (g : 'cV[R]_n -> 'cV[R]_m) (mp : 'cV[R]_n * 'M[R]_n) (Rn : 'M[R]_m) z :
  fun1 G g ->
  unscented_filter_correct G (lift_s mp) (SigmaPoints (A2 P) (A1 w) (A1 w)) z None (Some (A2 Rn)) =
  unscented_correct (A2 (wcross w (cen P mp.1) (cen (fmap g P) (wmean (fmap g P) w)))) (lift_s mp)
     (A1 (wmean (fmap g P) w), A2 (wcov (fmap g P) w w + Rn)) z.
Proof.
move=> HG; rewrite /unscented_filter_correct (ut1E _ _ _ (Some Rn) HG) [bind (Ok _) _]/=.
by rewrite sub_row [bind (Ok _) _]/=; np; rewrite sub_row [bind (Ok _) _]/= npE [bind (Ok _) _]/=.
Qed.
Lemma fcE2 k n m (P : 'M[R]_(k.+1, n)) (V : 'M[R]_(k.+1, m)) w (G : pyfun R) (g : 'cV[R]_n -> 'cV[R]_m -> 'cV[R]_m) (mp : 'cV[R]_n * 'M[R]_n) wm' wc' z :
  fun2 G g ->
  unscented_filter_correct G (lift_s mp) (SigmaPoints (A2 P) (A1 w) (A1 w)) z (Some (SigmaPoints (A2 V) wm' wc')) None =
  unscented_correct (A2 (wcross w (cen P mp.1) (cen (fmap2 g P V) (wmean (fmap2 g P V) w)))) (lift_s mp)
     (A1 (wmean (fmap2 g P V) w), A2 (wcov (fmap2 g P V) w w)) z.
Proof.
move=> HG; rewrite /unscented_filter_correct (ut2E _ _ _ _ _ _ HG) [bind (Ok _) _]/=.
by rewrite sub_row [bind (Ok _) _]/=; np; rewrite sub_row [bind (Ok _) _]/= npE [bind (Ok _) _]/=.
Qed.

Lemma ucorrect_bad n m k (cross : 'M[R]_(n, m)) mp (mu : 'cV[R]_m) (S : 'M[R]_m) (z : 'cV[R]_k) : k <> m -> k <> 1%N ->
  unscented_correct (A2 cross) mp (A1 mu, A2 S) (A1 z, false) = Err ValueError.
Proof.
move=> km k1; rewrite /unscented_correct /=; np.
rewrite /sub /= /bdim; case: eqP => // _; case: eqP => // _.
case: eqP => [m1|_] //=.
rewrite /dot mulr_dyn_err //; exact/eqP.
Qed.
Lemma ucorrect_congr cr mp (om : moments R) (a a' : arr R) b : sub a om.1 = sub a' om.1 ->
  unscented_correct cr mp om (a, b) = unscented_correct cr mp om (a', b).
Proof. by move=> E; rewrite /unscented_correct -[fst (a, b)]/a -[fst (a', b)]/a' E. Qed.
Lemma ucorrect_wide n m (cross : 'M[R]_(n, m)) mp (mu : 'cV[R]_m) (S : 'M[R]_m) (z : 'cV[R]_1) b :
  unscented_correct (A2 cross) mp (A1 mu, A2 S) (A1 z, b) =
  unscented_correct (A2 cross) mp (A1 mu, A2 S) (A1 (const_mx (z 0 0) : 'cV_m), b).
Proof.
have E : sub (A1 z) (A1 mu) = sub (A1 (const_mx (z 0 0) : 'cV_m)) (A1 mu).
  rewrite sub11; rewrite /sub /= /bdim.
  case: eqP => [m1|_].
    move: mu; rewrite -m1 => mu; congr (Ok (A1 _)); apply/matrixP=> i j.
    by rewrite !mxE !bget_col !ord1.
  rewrite eqxx; congr (Ok (A1 _)); apply/matrixP=> i j.
  by rewrite !mxE (ord1 j) (bget_col mu i) -(bget_col z ord0 0).
exact: ucorrect_congr.
Qed.

(** ** steps with rows of width [k] *)
Section Steps.
Variables (n m k : nat) (p : uparams R) (Q : 'M[R]_n) (Rn : 'M[R]_m) (mu0 : 'cV[R]_n) (P0 : 'M[R]_n).
Hypotheses (EQ : u_tc p = A2 Q) (ER : u_oc p = A2 Rn) (E0 : u_im p = A1 mu0) (EP : u_ic p = A2 P0).

(** [stp] ends in a correction by the observation, from well-shaped arrays *)
Definition ends_in (stp : arr R * bool -> res (moments R)) : Prop :=
  (exists2 e, (forall z, stp z = Err e) & e = LinAlgError) \/
  exists (cross : 'M[R]_(n, m)) (mp : 'cV[R]_n * 'M[R]_n) (mu : 'cV[R]_m) (S : 'M[R]_m),
    forall z, stp z = ('(m0, c) <-- unscented_correct (A2 cross) (lift_s mp) (A1 mu, A2 S) z ;;
                       fm <-- assign1 n m0 ;; fc <-- assign2 n n c ;; Ok (fm, fc)).

Lemma ends_ok stp (z : 'cV[R]_m) b : ends_in stp -> stp (A1 z, b) = Err LinAlgError \/ exists s, stp (A1 z, b) = Ok (lift_s (n := n) s).
Proof.
case=> [[e H He]|[cr [mp [mu [S ->]]]]]; [by left; rewrite H He|right].
rewrite /unscented_correct; case: b => /=; first by exists mp; rewrite assign1E /= assign2E.
by np; eexists (_, _).
Qed.
Lemma ends_masked stp (z : 'cV[R]_k) (z' : 'cV[R]_m) : ends_in stp -> stp (A1 z, true) = stp (A1 z', true).
Proof. by case=> [[e H _]|[cr [mp [mu [S H]]]]]; rewrite !H. Qed.
Lemma ends_bad stp (z : 'cV[R]_k) : k <> m -> k <> 1%N -> ends_in stp ->
  stp (A1 z, false) = Err LinAlgError \/ stp (A1 z, false) = Err ValueError.
Proof.
move=> km k1; case=> [[e H He]|[cr [mp [mu [S ->]]]]]; [by left; rewrite H He|right].
by rewrite ucorrect_bad.
Qed.
Lemma ends_wide stp (z : 'cV[R]_1) b : ends_in stp -> stp (A1 z, b) = stp (A1 (const_mx (z 0 0) : 'cV_m), b).
Proof.
case=> [[e H _]|[cr [mp [mu [S H]]]]]; rewrite !H //; by rewrite ucorrect_wide.
Qed.

Section Add.
Lemma add_ends0 G (g : 'cV[R]_n -> 'cV[R]_m) : fun_at (u_g p) 0 = Ok G -> fun1 G g -> ends_in (add_step p n 0 None).
Proof.
move=> EG HG; rewrite /ends_in /add_step E0 EP ER m2p_defE; case: (spts _ _) => [P|]; last by left; exists LinAlgError.
right; do 4 eexists; move=> z; rewrite !bO (p2mE _ _ _ None) !bO EG !bO (fcE1 _ _ (_, _) _ _ HG).
by reflexivity.
Qed.
Lemma add_endsN t (s : 'cV[R]_n * 'M[R]_n) F G (f : 'cV[R]_n -> 'cV[R]_n) (g : 'cV[R]_n -> 'cV[R]_m) :
  fun_at (u_f p) t = Ok F -> fun1 F f -> fun_at (u_g p) t.+1 = Ok G -> fun1 G g -> ends_in (add_step p n t.+1 (Some (lift_s s))).
Proof.
move=> EF HF EG HG; cbv beta iota zeta delta [ends_in add_step lift_s]; rewrite EQ ER m2p_defE; case: (spts _ _) => [P|]; last by left; exists LinAlgError.
rewrite -[t.+1.-1]/t EF /unscented_filter_predict.
case ES: (spts (wmean (fmap f P) (wdef R n)) (wcov (fmap f P) (wdef R n) (wdef R n) + Q)) => [P'|]; last first.
  left; exists LinAlgError => // z; by rewrite !bO (ut1E _ _ _ (Some Q) HF) bO m2p_defE /onoise /= ES.
right; do 4 eexists; move=> z; rewrite !bO (ut1E _ _ _ (Some Q) HF) bO m2p_defE /onoise [odflt _ _]/= ES !bO EG !bO (fcE1 _ _ (_, _) _ _ HG).
by reflexivity.
Qed.
End Add.
Section Aug.
Lemma aug_ends0 G (g : 'cV[R]_n -> 'cV[R]_m -> 'cV[R]_m) : fun_at (u_g p) 0 = Ok G -> fun2 G g -> ends_in (aug_step p n 0 None).
Proof.
move=> EG HG; rewrite /ends_in /aug_step E0 EP ER EQ (aug3E _ _ (mu0, P0)); case: (aug_pts _ _ _) => [P|]; last by left; exists LinAlgError.
right; do 4 eexists; move=> z; rewrite !bO (p2mE _ _ _ None) !bO EG !bO (fcE2 _ _ _ (_, _) _ _ _ HG).
by reflexivity.
Qed.
Lemma aug_endsN t (s : 'cV[R]_n * 'M[R]_n) F G (f : 'cV[R]_n -> 'cV[R]_n -> 'cV[R]_n) (g : 'cV[R]_n -> 'cV[R]_m -> 'cV[R]_m) :
  fun_at (u_f p) t = Ok F -> fun2 F f -> fun_at (u_g p) t.+1 = Ok G -> fun2 G g -> ends_in (aug_step p n t.+1 (Some (lift_s s))).
Proof.
move=> EF HF EG HG; cbv beta iota zeta delta [ends_in aug_step lift_s]; rewrite EQ ER aug3E; case: (aug_pts _ _ _) => [P|]; last by left; exists LinAlgError.
rewrite -[t.+1.-1]/t EF /unscented_filter_predict.
right; do 4 eexists; move=> z; rewrite !bO (ut2E _ _ _ _ _ _ HF) !bO EG !bO (fcE2 _ _ _ (_, _) _ _ _ HG).
by reflexivity.
Qed.
End Aug.
End Steps.

(** ** loops *)
Section Loops.
Variables (n m T : nat) (stp : ustep R) (p : uparams R).
Hypothesis H0 : (0 < T)%N -> ends_in n m (stp p n 0%N None).
Hypothesis HN : forall t s, (t.+1 < T)%N -> ends_in n m (stp p n t.+1 (Some (lift_s (n := n) s))).
Definition prev_ok (t : nat) (prev : option (moments R)) : Prop :=
  if t is _.+1 then exists s, prev = Some (lift_s (n := n) s) else prev = None.
Lemma ends_at t prev : (t < T)%N -> prev_ok t prev -> ends_in n m (stp p n t prev).
Proof. by case: t => [|t] tT /=; [move=> ->; exact: H0|case=> s ->; exact: HN]. Qed.

Lemma width_loop k (zs : seq (orow R k)) t prev : k <> m -> k <> 1%N -> (t + size zs <= T)%N -> prev_ok t prev ->
  has (fun z : orow R k => ~~ missing z) zs ->
  ufilter_loop stp p n t prev zs = Err LinAlgError \/ ufilter_loop stp p n t prev zs = Err ValueError.
Proof.
move=> km k1; elim: zs t prev => [//|z zs IH] t prev Ht Hp Hh.
have tT : (t < T)%N by apply: leq_trans Ht; rewrite /= addnS ltnS leq_addr.
have HE := ends_at tT Hp; rewrite uloop_cons.
case Em: (missing z); last first.
  by case: (ends_bad z.1 km k1 HE) => ->; [left|right].
rewrite (ends_masked z.1 0 HE); case: (ends_ok 0 true HE) => [->|[s ->]]; first by left.
rewrite bO; have := IH t.+1 (Some (lift_s s)); case=> [| | |->|->]; try by [left|right].
- by rewrite addSnnS.
- by exists s.
- by move: Hh => /=; rewrite Em.
Qed.

Definition widen (r : orow R 1) : orow R m := (const_mx (r.1 0 0), const_mx (r.2 0 0)).
Lemma missing_widen r : (0 < m)%N -> missing (widen r) = missing r.
Proof.
move=> m0; apply/existsP/existsP => [[i]|[i]]; first by rewrite mxE => H; exists 0.
by rewrite ord1 => H; exists (Ordinal m0); rewrite mxE.
Qed.
Lemma widen_loop (zs : seq (orow R 1)) t prev : (0 < m)%N -> (t + size zs <= T)%N -> prev_ok t prev ->
  ufilter_loop stp p n t prev zs = ufilter_loop stp p n t prev (map widen zs).
Proof.
move=> m0; elim: zs t prev => [//|z zs IH] t prev Ht Hp.
have tT : (t < T)%N by apply: leq_trans Ht; rewrite /= addnS ltnS leq_addr.
have HE := ends_at tT Hp.
rewrite [map _ _]/= !uloop_cons missing_widen // -(ends_wide z.1 (missing z) HE).
have := ends_ok (const_mx (z.1 0 0)) (missing z) HE; rewrite -(ends_wide z.1 (missing z) HE).
case=> [->//|[s ->]]; rewrite !bO IH //; first by rewrite addSnnS.
by exists s.
Qed.
End Loops.
End Width.

Section Classes.
Variables (R : rcfType) (n m : nat) (o : ukf R) (T : nat) (Q : 'M[R]_n) (Rn : 'M[R]_m) (mu0 : 'cV[R]_n) (P0 : 'M[R]_n).

Lemma aukf_ends f g (HM : aukf_model o T f g Q Rn mu0 P0) :
  ((0 < T)%N -> ends_in n m (add_step (uinit_value (@add_default R) o) n 0%N None)) /\
  (forall t s, (t.+1 < T)%N -> ends_in n m (add_step (uinit_value (@add_default R) o) n t.+1 (Some (lift_s (n := n) s)))).
Proof.
split=> [T0|t s tT].
  have [G EG HG] := um_G HM (@dflt1 R n m) T0.
  exact: (add_ends0 (um_ER _ HM) (um_E0 _ HM) (um_EP _ HM) EG HG).
have [F' EF HF] := um_F HM (@dflt1 R n n) (predn_lt tT); have [G EG HG] := um_G HM (@dflt1 R n m) tT.
exact: (add_endsN (um_EQ _ HM) (um_ER _ HM) s EF HF EG HG).
Qed.
Lemma ukf_ends f g (HM : ukf_model o T f g Q Rn mu0 P0) :
  ((0 < T)%N -> ends_in n m (aug_step (uinit_value (@aug_default R) o) n 0%N None)) /\
  (forall t s, (t.+1 < T)%N -> ends_in n m (aug_step (uinit_value (@aug_default R) o) n t.+1 (Some (lift_s (n := n) s)))).
Proof.
split=> [T0|t s tT].
  have [G EG HG] := um_G HM (@dflt2 R n m m) T0.
  exact: (aug_ends0 (um_EQ _ HM) (um_ER _ HM) (um_E0 _ HM) (um_EP _ HM) EG HG).
have [F' EF HF] := um_F HM (@dflt2 R n n n) (predn_lt tT); have [G EG HG] := um_G HM (@dflt2 R n m m) tT.
exact: (aug_endsN (um_EQ _ HM) (um_ER _ HM) s EF HF EG HG).
Qed.

Lemma aukf_width f g k (zs : seq (orow R k)) : aukf_model o T f g Q Rn mu0 P0 -> k <> m -> k <> 1%N ->
  size zs = T -> keeps zs -> has (fun z : orow R k => ~~ missing z) zs ->
  aukf_filter o (O2 k zs) = Err LinAlgError \/ aukf_filter o (O2 k zs) = Err ValueError.
Proof.
move=> HM km k1 Hsz Hk Hh; have [H0 HN] := aukf_ends HM.
rewrite /aukf_filter /ufilter_with parse_keep // (um_init _ HM) !bO /unscented_filter (um_EQ _ HM) -[shape_m1 _]/(Ok n) bO.
by apply: (width_loop H0 HN) => //; rewrite add0n Hsz.
Qed.
Lemma ukf_width f g k (zs : seq (orow R k)) : ukf_model o T f g Q Rn mu0 P0 -> k <> m -> k <> 1%N ->
  size zs = T -> keeps zs -> has (fun z : orow R k => ~~ missing z) zs ->
  ukf_filter o (O2 k zs) = Err LinAlgError \/ ukf_filter o (O2 k zs) = Err ValueError.
Proof.
move=> HM km k1 Hsz Hk Hh; have [H0 HN] := ukf_ends HM.
rewrite /ukf_filter /ufilter_with parse_keep // (um_init _ HM) !bO /unscented_filter (um_EQ _ HM) -[shape_m1 _]/(Ok n) bO.
by apply: (width_loop H0 HN) => //; rewrite add0n Hsz.
Qed.
Lemma aukf_widen f g (zs : seq (orow R 1)) : aukf_model o T f g Q Rn mu0 P0 -> (0 < m)%N ->
  size zs = T -> T <> 1%N -> aukf_filter o (O2 1 zs) = aukf_filter o (O2 m (map (widen m) zs)).
Proof.
move=> HM m0 Hsz Hk; have [H0 HN] := aukf_ends HM.
rewrite /aukf_filter /ufilter_with !parse_keep ?size_map ?Hsz ?orbT //; last by apply/orP; left; exact/eqP.
rewrite (um_init _ HM) !bO /unscented_filter (um_EQ _ HM) -[shape_m1 _]/(Ok n) !bO.
by apply: (widen_loop H0 HN) => //; rewrite add0n Hsz.
Qed.
Lemma ukf_widen f g (zs : seq (orow R 1)) : ukf_model o T f g Q Rn mu0 P0 -> (0 < m)%N ->
  size zs = T -> T <> 1%N -> ukf_filter o (O2 1 zs) = ukf_filter o (O2 m (map (widen m) zs)).
Proof.
move=> HM m0 Hsz Hk; have [H0 HN] := ukf_ends HM.
rewrite /ukf_filter /ufilter_with !parse_keep ?size_map ?Hsz ?orbT //; last by apply/orP; left; exact/eqP.
rewrite (um_init _ HM) !bO /unscented_filter (um_EQ _ HM) -[shape_m1 _]/(Ok n) !bO.
by apply: (widen_loop H0 HN) => //; rewrite add0n Hsz.
Qed.
End Classes.
