(** Facts about [sample] of the unscented classes. *)
From Coq Require Import String List.
From mathcomp Require Import all_ssreflect all_algebra.
From Verif Require Import Prelude LinAlg Numpy NumpyFacts Sklearn SklearnFacts Standard Model StandardInit StandardFacts
  Rng Sample SampleSpec SampleFacts Unscented UscSpec UscInit UscMain UscSampleSpec.
Import GRing.Theory Num.Theory.

Set Implicit Arguments.
Unset Strict Implicit.
Unset Printing Implicit Defensive.
Local Open Scope ring_scope.

Section Facts.
Variables (R : rcfType) (G : Type) (rl : rng_lib R G).
Variables (n m T : nat) (app : pyfun R -> arr R -> arr R -> res (arr R)) (p : uparams R).
Variables (f : nat -> 'cV[R]_n -> 'cV[R]_n -> 'cV[R]_n) (g : nat -> 'cV[R]_n -> 'cV[R]_m -> 'cV[R]_m).
Variables (Q : 'M[R]_n) (V : 'M[R]_m) (mu0 : 'cV[R]_n) (P0 : 'M[R]_n).
Hypotheses (EQ : u_tc p = A2 Q) (ER : u_oc p = A2 V).
Hypothesis HF : forall t, (t < T.-1)%N -> exists2 h, fun_at (u_f p) t = Ok h &
  forall x w, app h (A1 x) (A1 w) = Ok (A1 (f t x w)).
Hypothesis HG : forall t, (t < T)%N -> exists2 h, fun_at (u_g p) t = Ok h &
  forall x w, app h (A1 x) (A1 w) = Ok (A1 (g t x w)).
Variables (x0 : 'cV[R]_n) (g0 : G).

Fixpoint utr (t : nat) : 'cV[R]_n * G :=
  match t with
  | 0 => (x0, g0)
  | t'.+1 => let k := (mvn rl 0 V (utr t').2).2 in (f t' (utr t').1 (mvn rl 0 Q k).1, (mvn rl 0 Q k).2)
  end.
Definition uxs t := (utr t).1.
Definition uhs t := (utr t).2.
Definition uks t := (mvn rl 0 V (uhs t)).2.
Definition uvs t := (mvn rl 0 V (uhs t)).1.
Definition uws t := (mvn rl 0 Q (uks t)).1.
Definition uos t := g t (uxs t) (uvs t).
Definition ugs t := if t is t'.+1 then uks t' else uhs 0%N.

Lemma usample_step_ok t : (t < T)%N ->
  usample_step rl app p n m t (A1 x0) (if t is t'.+1 then Some (A1 (uxs t')) else None) (ugs t) =
  (uks t, Ok (A1 (uxs t), A1 (uos t))).
Proof.
move=> tT; rewrite /usample_step EQ ER.
apply: etrans.
  apply: (@rbindE _ _ _ _ _ _ (uhs t) (A1 (uxs t))).
  case: t tT => [|t] tT; first by apply: rliftE; rewrite npE.
  have [h Eh Hh] := HF (predn_lt tT).
  rewrite -[t.+1.-1]/t Eh; apply: etrans; first by apply: rbindE; apply: rliftE; reflexivity.
  apply: etrans; first by apply: rbindE; exact: mvnE.
  apply: etrans; first by apply: rbindE; apply: rliftE; exact: Hh.
  by apply: rliftE; rewrite npE.
have [h Eh Hh] := HG tT.
rewrite Eh; apply: etrans; first by apply: rbindE; apply: rliftE; reflexivity.
apply: etrans; first by apply: rbindE; exact: mvnE.
apply: etrans; first by apply: rbindE; apply: rliftE; exact: Hh.
by apply: etrans; first by apply: rbindE; apply: rliftE; rewrite npE.
Qed.

Lemma usample_loop_ok k t : (t + k <= T)%N ->
  usample_loop rl app p n m (A1 x0) k t (if t is t'.+1 then Some (A1 (uxs t')) else None) (ugs t) =
  (ugs (t + k), Ok [seq (A1 (uxs s), A1 (uos s)) | s <- iota t k]).
Proof.
elim: k t => [|k IH] t tT; first by rewrite addn0.
have tT' : (t < T)%N by apply: leq_trans tT; rewrite addnS ltnS leq_addr.
rewrite /usample_loop -/(usample_loop rl app p n m (A1 x0)).
apply: (etrans (rbindE _ (usample_step_ok tT'))).
have /IH H : (t.+1 + k <= T)%N by rewrite addSnnS.
apply: (etrans (rbindE _ H)).
by rewrite addSnnS.
Qed.

Lemma uxs_trajectory x s : (if x is Some a then x0 = a /\ g0 = s else mvn rl mu0 P0 s = (x0, g0)) ->
  utrajectory rl f g Q V mu0 P0 T x s (ugs T) uxs uos.
Proof.
move=> H0; exists uws, uvs, uhs, uks; split.
- by case: x H0 => [a [<- <-]|->].
- by move=> t tT; split=> //; rewrite /uvs /uks; case: (mvn rl 0 V (uhs t)).
- by move=> t tT; split=> //; rewrite /uws /uhs /= -/(uhs t) -/(uks t); case: (mvn rl 0 Q (uks t)).
- by case: (T).
Qed.
End Facts.

Section Main.
Variables (R : rcfType) (G : Type) (rl : rng_lib R G) (n m : nat).

Lemma usampleE dflt app (o : ukf R) T p f g (Q : 'M[R]_n) (V : 'M[R]_m) mu0 P0 x0 rs h w :
  uinitialize dflt o = Ok p -> u_tc p = A2 Q -> u_oc p = A2 V -> u_im p = A1 mu0 -> u_ic p = A2 P0 ->
  (forall t, (t < T.-1)%N -> exists2 h, fun_at (u_f p) t = Ok h & forall x w, app h (A1 x) (A1 w) = Ok (A1 (f t x w))) ->
  (forall t, (t < T)%N -> exists2 h, fun_at (u_g p) t = Ok h & forall x w, app h (A1 x) (A1 w) = Ok (A1 (g t x w))) ->
  handle (if rs is Some r then Some r else o_rs o) = Some h ->
  exists s' x z, utrajectory rl f g Q V mu0 P0 T x0 (state_of rl h w) s' x z /\
    usample rl dflt app o T (omap (fun v : 'cV_n => A1 v) x0) rs w =
    (after h w s', Ok [seq (A1 (x t), A1 (z t)) | t <- iota 0 T]).
Proof.
move=> Ei EQ ER E0 EP HF HG Hh.
pose s := state_of rl h w.
pose i : 'cV_n * G := if x0 is Some a then (a, s) else mvn rl mu0 P0 s.
exists (ugs rl f Q V i.1 i.2 T), (uxs rl f Q V i.1 i.2), (uos rl f g Q V i.1 i.2); split.
  by apply: uxs_trajectory; rewrite /i /s; case: (x0) => //; case: (mvn _ _ _ _).
rewrite /usample Ei EQ ER (handle_check Hh).
apply: run_onE; rewrite -/s.
apply: (etrans (@rbindE _ _ _ _ _ _ i.2 (A1 i.1) _)).
  by rewrite /i; case: (x0) => [a|] //; rewrite E0 EP; exact: mvnE.
exact: (usample_loop_ok rl EQ ER HF HG i.1 i.2 (t := 0%N) (k := T)).
Qed.

Lemma aukf_sampleE (o : ukf R) T f g (Q : 'M[R]_n) (V : 'M[R]_m) mu0 P0 x0 rs h w :
  aukf_model o T f g Q V mu0 P0 -> handle (if rs is Some r then Some r else o_rs o) = Some h ->
  exists s' x z, utrajectory rl (noisy f) (noisy g) Q V mu0 P0 T x0 (state_of rl h w) s' x z /\
    aukf_sample rl o T (omap (fun v : 'cV_n => A1 v) x0) rs w =
    (after h w s', Ok [seq (A1 (x t), A1 (z t)) | t <- iota 0 T]).
Proof.
move=> HM Hh.
apply: (usampleE _ _ (um_init _ HM) (um_EQ _ HM) (um_ER _ HM) (um_E0 _ HM) (um_EP _ HM) _ _ Hh) => t tT.
  have [F EF HF] := um_F HM (@dflt1 R n n) tT; exists F; first exact: EF.
  by move=> x u; rewrite /add_apply HF /= npE.
have [F EF HF] := um_G HM (@dflt1 R n m) tT; exists F; first exact: EF.
by move=> x u; rewrite /add_apply HF /= npE.
Qed.
Lemma ukf_sampleE (o : ukf R) T f g (Q : 'M[R]_n) (V : 'M[R]_m) mu0 P0 x0 rs h w :
  ukf_model o T f g Q V mu0 P0 -> handle (if rs is Some r then Some r else o_rs o) = Some h ->
  exists s' x z, utrajectory rl f g Q V mu0 P0 T x0 (state_of rl h w) s' x z /\
    ukf_sample rl o T (omap (fun v : 'cV_n => A1 v) x0) rs w =
    (after h w s', Ok [seq (A1 (x t), A1 (z t)) | t <- iota 0 T]).
Proof.
move=> HM Hh.
apply: (usampleE _ _ (um_init _ HM) (um_EQ _ HM) (um_ER _ HM) (um_E0 _ HM) (um_EP _ HM) _ _ Hh) => t tT.
  have [F EF HF] := um_F HM (@dflt2 R n n n) tT; exists F; first exact: EF.
  by move=> x u; exact: HF.
have [F EF HF] := um_G HM (@dflt2 R n m m) tT; exists F; first exact: EF.
by move=> x u; exact: HF.
Qed.

(** ** seeding *)
Lemma usample_seeded dflt app (o : ukf R) T x0 rs z w w' : (if rs is Some r then Some r else o_rs o) = Some (RsSeed z) ->
  (usample rl dflt app o T x0 rs w).2 = (usample rl dflt app o T x0 rs w').2 /\ (usample rl dflt app o T x0 rs w).1 = w.
Proof.
move=> E; rewrite /usample E; case: (uinitialize _ o) => [p|] //.
case: (shape_m1 _) => //; case: (shape_m1 _) => // a b.
rewrite /=; case: ifP => // _ /=; set c := rbind _ _.
by case: (c _).
Qed.
Lemma usample_frame dflt app (o : ukf R) T x0 rs w :
  let w1 := (usample rl dflt app o T x0 rs w).1 in
  match (if rs is Some r then Some r else o_rs o) with
  | None | Some RsModule => w_inst w1 = w_inst w
  | Some (RsGen i) => w_global w1 = w_global w /\ forall j, j != i -> w_inst w1 j = w_inst w j
  | _ => w1 = w
  end.
Proof.
rewrite /usample; case: (uinitialize _ o) => [p|e] /=; last by case: (if rs is Some r then _ else _) => [[]|].
case: (shape_m1 _) => [a|e]; last by case: (if rs is Some r then _ else _) => [[]|].
case: (shape_m1 _) => [b|e]; last by case: (if rs is Some r then _ else _) => [[]|].
set c := rbind _ _.
case: (if rs is Some r then _ else _) => [[|z|i|]|] //=.
- by case: (c _).
- by case: ifP => //= _; case: (c _).
- case: (c _) => g r /=; split=> // j; rewrite /upd.
  by case: (j == i).
- by case: (c _).
Qed.
Lemma usample_rejects dflt app (o : ukf R) T x0 w p a b : uinitialize dflt o = Ok p ->
  shape_m1 (u_tc p) = Ok a -> shape_m1 (u_oc p) = Ok b ->
  usample rl dflt app o T x0 (Some RsOther) w = (w, Err AttributeError) /\
  forall z : int, ~~ ((0 <= z) && (z < 2%:R ^+ 32)) -> usample rl dflt app o T x0 (Some (RsSeed z)) w = (w, Err ValueError).
Proof.
move=> E Ea Eb; rewrite /usample E Ea Eb; split=> // z /negbTE Hz.
by rewrite /check_random_state Hz.
Qed.
End Main.

(** ** the trajectory is determined by the generator *)
Section Unique.
Variables (R : rcfType) (G : Type) (rl : rng_lib R G) (n m : nat).
Variables (f : nat -> 'cV[R]_n -> 'cV[R]_n -> 'cV[R]_n) (g : nat -> 'cV[R]_n -> 'cV[R]_m -> 'cV[R]_m).
Variables (Q : 'M[R]_n) (V : 'M[R]_m) (mu0 : 'cV[R]_n) (P0 : 'M[R]_n).

Lemma utrajectory_unique T x0 s s1 x1 z1 s2 x2 z2 :
  utrajectory rl f g Q V mu0 P0 T x0 s s1 x1 z1 -> utrajectory rl f g Q V mu0 P0 T x0 s s2 x2 z2 ->
  s1 = s2 /\ forall t, (t < T)%N -> x1 t = x2 t /\ z1 t = z2 t.
Proof.
move=> [w1 [v1 [h1 [k1 [A1 B1 C1 D1]]]]] [w2 [v2 [h2 [k2 [A2' B2 C2 D2]]]]].
have H0 : x1 0%N = x2 0%N /\ h1 0%N = h2 0%N.
  case: x0 A1 A2' => [a|]; first by move=> [-> ->] [-> ->].
  by move=> -> [-> ->].
have H t : (t < T)%N -> [/\ x1 t = x2 t, h1 t = h2 t, k1 t = k2 t & z1 t = z2 t].
  elim: t => [|t IH] tT.
    have [E1 E1'] := B1 _ tT; have [E2 E2'] := B2 _ tT; have [X H] := H0.
    by move: E1; rewrite H E2 => -[Ev Ek]; rewrite E1' E2' X Ev Ek.
  have [X H K _] := IH (ltnW tT).
  have [F1 F1'] := C1 _ tT; have [F2 F2'] := C2 _ tT.
  move: F1; rewrite K F2 => -[Ew Eh].
  have [E1 E1'] := B1 _ tT; have [E2 E2'] := B2 _ tT.
  by move: E1; rewrite -Eh E2 => -[Ev Ek]; rewrite E1' E2' F1' F2' X Ew Ev Ek Eh.
split; last by move=> t /H [].
rewrite D1 D2; case: (T) H => [_|T' H]; first by case: H0.
by have [] := H T' (ltnSn _).
Qed.
End Unique.

Section Linear.
Variables (R : rcfType) (G : Type) (rl : rng_lib R G) (n m : nat) (M : lgm R n m) (T : nat).
Variables (Q : 'M[R]_n) (V : 'M[R]_m).
Hypotheses (EQ : forall t, (t < T.-1)%N -> mQ M t = Q) (ER : forall t, (t < T)%N -> mR M t = V).
Let f t x w := mA M t *m x + mb M t + w.
Let g t x v := mC M t *m x + md M t + v.

Lemma lin_trajectory x0 s s' x z : trajectory rl M (mQ M) (mR M) T x0 s s' x z ->
  utrajectory rl f g Q V (mmu M) (mP M) T x0 s s' x z.
Proof.
case=> [[w [v [h [k [H1 H2 H3 H4]]]]]]; exists w, v, h, k; split=> // t tT.
  by rewrite -(ER tT); exact: H2.
by rewrite -(EQ (predn_lt tT)); exact: H3.
Qed.

Lemma sample_agree (o : kf R) x0 rs h w a s' x z : kf_model o T M ->
  handle (if rs is Some r then Some r else k_rs o) = Some h ->
  utrajectory rl f g Q V (mmu M) (mP M) T x0 (state_of rl h w) s' x z ->
  a = (after h w s', Ok [seq (A1 (x t), A1 (z t)) | t <- iota 0 T]) ->
  a = kf_sample rl o T (omap (fun v : 'cV_n => A1 v) x0) rs w.
Proof.
move=> HM Hh H1 ->.
have HQ t : (t < T.-1)%N -> mQ M t = mQ M 0%N.
  by move=> tT; rewrite (EQ tT) (EQ (leq_ltn_trans (leq0n t) tT)).
have HR t : (t < T)%N -> mR M t = mR M 0%N.
  by move=> tT; rewrite (ER tT) (ER (leq_ltn_trans (leq0n t) tT)).
have [s2 [x2 [z2 [/lin_trajectory H2 ->]]]] := sample_const rl x0 w HM HQ HR Hh.
have [-> H] := utrajectory_unique H1 H2.
by congr (_, Ok _); apply/eq_in_map => t; rewrite mem_iota add0n => /= tT; have [-> ->] := H t tT.
Qed.

Lemma linear_samples (o : kf R) (oa ou : ukf R) x0 rs w :
  kf_model o T M ->
  aukf_model oa T (fun t x => mA M t *m x + mb M t) (fun t x => mC M t *m x + md M t) Q V (mmu M) (mP M) ->
  ukf_model ou T f g Q V (mmu M) (mP M) ->
  o_rs oa = k_rs o -> o_rs ou = k_rs o ->
  isSome (handle (if rs is Some r then Some r else k_rs o)) ->
  let x0' := omap (fun v : 'cV_n => A1 v) x0 in
  aukf_sample rl oa T x0' rs w = kf_sample rl o T x0' rs w /\
  ukf_sample rl ou T x0' rs w = kf_sample rl o T x0' rs w.
Proof.
move=> HM HA HU Ea Eu; case Hh: (handle _) => [h|] // _ x0'; split.
  have [|s' [x [z [H E]]]] := aukf_sampleE rl x0 w HA (rs := rs) (h := h); first by rewrite Ea.
  exact: sample_agree HM Hh H E.
have [|s' [x [z [H E]]]] := ukf_sampleE rl x0 w HU (rs := rs) (h := h); first by rewrite Eu.
exact: sample_agree HM Hh H E.
Qed.
End Linear.

Section Glue.
Variables (R : rcfType) (G : Type) (rl : rng_lib R G).
Lemma unscented_seeded (o : ukf R) T x0 rs z w w' : (if rs is Some r then Some r else o_rs o) = Some (RsSeed z) ->
  [/\ (aukf_sample rl o T x0 rs w).2 = (aukf_sample rl o T x0 rs w').2, (aukf_sample rl o T x0 rs w).1 = w,
      (ukf_sample rl o T x0 rs w).2 = (ukf_sample rl o T x0 rs w').2 & (ukf_sample rl o T x0 rs w).1 = w].
Proof.
move=> E; have [H1 H2] := usample_seeded rl (@add_default R) (@add_apply R) T x0 w w' E.
by have [H3 H4] := usample_seeded rl (@aug_default R) (@aug_apply R) T x0 w w' E; split.
Qed.
Lemma unscented_frame (o : ukf R) T x0 rs w (w1 : world G) :
  w1 = (aukf_sample rl o T x0 rs w).1 \/ w1 = (ukf_sample rl o T x0 rs w).1 ->
  match (if rs is Some r then Some r else o_rs o) with
  | None | Some RsModule => w_inst w1 = w_inst w
  | Some (RsGen i) => w_global w1 = w_global w /\ forall j, j != i -> w_inst w1 j = w_inst w j
  | _ => w1 = w
  end.
Proof. by case=> ->; exact: usample_frame. Qed.
Lemma aukf_rejects n m (o : ukf R) T T' f g (Q : 'M[R]_n) (V : 'M[R]_m) mu0 P0 x0 w : aukf_model o T f g Q V mu0 P0 ->
  aukf_sample rl o T' x0 (Some RsOther) w = (w, Err AttributeError) /\
  forall z : int, ~~ ((0 <= z) && (z < 2%:R ^+ 32)) -> aukf_sample rl o T' x0 (Some (RsSeed z)) w = (w, Err ValueError).
Proof.
move=> HM; apply: (@usample_rejects _ _ _ _ _ _ _ _ _ _ n m (um_init _ HM)).
  by rewrite (um_EQ _ HM).
by rewrite (um_ER _ HM).
Qed.
End Glue.
