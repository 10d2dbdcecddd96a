(** Facts about [KalmanFilter.sample]. *)
From Coq Require Import String List.
From mathcomp Require Import all_ssreflect all_algebra.
From Verif Require Import Prelude LinAlg Numpy NumpyFacts Sklearn SklearnFacts Standard Model StandardInit StandardFacts
  Rng Sample SampleSpec.
Import GRing.Theory Num.Theory.

Set Implicit Arguments.
Unset Strict Implicit.
Unset Printing Implicit Defensive.
Local Open Scope ring_scope.

Section Facts.
Variables (R : rcfType) (G : Type) (rl : rng_lib R G).

Lemma mvnE n (mu : 'cV[R]_n) (c : 'M[R]_n) g :
  multivariate_normal rl (A1 mu) (A2 c) g = ((mvn rl mu c g).2, Ok (A1 (mvn rl mu c g).1)).
Proof.
rewrite /multivariate_normal; case: (n =P n) => // e1.
by rewrite castmx_id; case: (mvn rl mu c g).
Qed.

Lemma rep2_slice m n (X : arr R) T (F : nat -> 'M[R]_(m, n)) : rep2 X T F -> (0 < T)%N ->
  last_dims X 0 2 = Ok (A2 (F 0%N)).
Proof. exact: rep2_last_dims. Qed.

Section Run.
Variables (n m : nat) (M : lgm R n m) (p : kfparams R) (T : nat).
Hypothesis Hp : params_model p T M.
Variables (x0 : 'cV[R]_n) (g0 : G).
Let Q := mQ M 0%N.
Let V := mR M 0%N.
(** state and generator before the observation noise of time t *)
Fixpoint tr_ (t : nat) : 'cV[R]_n * G :=
  match t with
  | 0 => (x0, g0)
  | t'.+1 => let k := (mvn rl 0 V (tr_ t').2).2 in
             (mA M t' *m (tr_ t').1 + mb M t' + (mvn rl 0 Q k).1, (mvn rl 0 Q k).2)
  end.
Definition xs t := (tr_ t).1.
Definition hs t := (tr_ t).2.
Definition ks t := (mvn rl 0 V (hs t)).2.
Definition vs t := (mvn rl 0 V (hs t)).1.
Definition ws t := (mvn rl 0 Q (ks t)).1.
Definition os t := mC M t *m xs t + md M t + vs t.

Lemma xsS t : xs t.+1 = mA M t *m xs t + mb M t + ws t. Proof. by []. Qed.
Lemma hsS t : hs t.+1 = (mvn rl 0 Q (ks t)).2. Proof. by []. Qed.

Definition gs t := if t is t'.+1 then ks t' else hs 0%N.
(** local variables before step t *)
Definition tcs t := if (1 < t)%N then A2 Q else p_tc p.
Definition ocs t := if (0 < t)%N then A2 V else p_oc p.

Lemma tcs_slice t : (t.+1 < T)%N -> last_dims (tcs t.+1) t 2 = Ok (A2 Q).
Proof.
move=> tT; rewrite /tcs ltnS; case: t tT => [|t] tT //=.
by apply: (rep2_slice (pm_tc Hp)); case: (T) tT => [|[]].
Qed.
Lemma ocs_slice t : (t < T)%N -> last_dims (ocs t) t 2 = Ok (A2 V).
Proof.
move=> tT; rewrite /ocs; case: t tT => [|t] tT //=.
exact: (rep2_slice (pm_oc Hp)).
Qed.

Lemma rbindE U W (x : rnd G U) (k : U -> rnd G W) g g' r : x g = (g', Ok r) -> rbind x k g = k r g'.
Proof. by rewrite /rbind => ->. Qed.
Lemma rliftE U (x : res U) v (g : G) : x = Ok v -> rlift x g = (g, Ok v).
Proof. by rewrite /rlift => ->. Qed.

Ltac go := apply: etrans; first (apply: rbindE; first [apply: rliftE; by rewrite npE | apply: rliftE; reflexivity | exact: mvnE]).

Lemma sample_step_ok t : (t < T)%N ->
  sample_step rl p n m t (A1 x0) (if t is t'.+1 then Some (A1 (xs t')) else None) (tcs t) (ocs t) (gs t) =
  (ks t, Ok (A1 (xs t), A1 (os t), tcs t.+1, ocs t.+1)).
Proof.
move=> tT; rewrite /sample_step.
apply: etrans.
  apply: (@rbindE _ _ _ _ _ (hs t) (A1 (xs t), tcs t.+1)).
  case: t tT => [|t] tT; first by go.
  have tT' : (t < T.-1)%N by rewrite -ltnS prednK //; apply: leq_ltn_trans tT.
  rewrite /= (rep2_last_dims (pm_tm Hp) tT') (rep1_last_dims (pm_to Hp) tT') (tcs_slice tT).
  by do 8!go.
rewrite /= (rep2_last_dims (pm_om Hp) tT) (rep1_last_dims (pm_oo Hp) tT) (ocs_slice tT).
by do 8!go.
Qed.

Lemma sample_loop_ok k t : (t + k <= T)%N ->
  sample_loop rl p n m (A1 x0) k t (if t is t'.+1 then Some (A1 (xs t')) else None) (tcs t) (ocs t) (gs t) =
  (gs (t + k), Ok [seq (A1 (xs s), A1 (os s)) | s <- iota t k]).
Proof.
elim: k t => [|k IH] t tT; first by rewrite addn0.
have tT' : (t < T)%N by apply: leq_trans tT; rewrite addnS ltnS leq_addr.
rewrite /sample_loop -/(sample_loop rl p n m (A1 x0)).
apply: (etrans (rbindE _ (sample_step_ok tT'))).
have /IH H : (t.+1 + k <= T)%N by rewrite addSnnS.
apply: (etrans (rbindE _ H)).
by rewrite addSnnS.
Qed.

Lemma xs_trajectory x g : (if x is Some a then x0 = a /\ g0 = g else mvn rl (mmu M) (mP M) g = (x0, g0)) ->
  trajectory rl M (fun=> Q) (fun=> V) T x g (gs T) xs os.
Proof.
move=> H0; split; exists ws, vs, hs, ks; split.
- by case: x H0 => [a [<- <-]|->].
- by move=> t tT; rewrite /os /vs /ks; case: (mvn rl 0 V (hs t)).
- by move=> t tT; split => //; rewrite hsS /ws; case: (mvn rl 0 Q (ks t)).
- by case: (T).
Qed.
End Run.

Lemma handle_check r h : handle r = Some h -> check_random_state r = Ok h.
Proof. by case: r => [[|z|i|]|] //=; [move=> [<-]|case: ifP => // _ [<-]|move=> [<-]|move=> [<-]]. Qed.

Lemma run_onE U h (c : rnd G U) w g' r : c (state_of rl h w) = (g', r) -> run_on rl h c w = (after h w g', r).
Proof. by case: h => [|z|i] /= ->. Qed.

Lemma rep2_m2 m n (X : arr R) T (F : nat -> 'M[R]_(m, n)) : rep2 X T F -> shape_m2 X = Ok m.
Proof. by case=> [[N -> _]|[s [-> _ _]]]. Qed.

Lemma sampleE n m (o : kf R) (M : lgm R n m) T x0 rs h w :
  kf_model o T M -> handle (if rs is Some r then Some r else k_rs o) = Some h ->
  exists g' x z, trajectory rl M (fun=> mQ M 0%N) (fun=> mR M 0%N) T x0 (state_of rl h w) g' x z /\
    kf_sample rl o T (omap (fun v : 'cV_n => A1 v) x0) rs w =
    (after h w g', Ok [seq (A1 (x t), A1 (z t)) | t <- iota 0 T]).
Proof.
move=> HM Hh; have Hp := kf_model_params HM.
pose g := state_of rl h w.
pose i : 'cV_n * G := if x0 is Some a then (a, g) else mvn rl (mmu M) (mP M) g.
exists (gs M i.1 i.2 T), (xs M i.1 i.2), (os M i.1 i.2); split.
  by apply: xs_trajectory; rewrite /i /g; case: (x0) => //; case: (mvn _ _ _ _).
rewrite /kf_sample initialize_parametersE; last exact: (km_rs HM).
rewrite (rep2_m2 (pm_tm Hp)) (rep2_m2 (pm_om Hp)) (handle_check Hh).
apply: run_onE; rewrite -/g /sample_run.
apply: (etrans (@rbindE _ _ _ _ _ i.2 (A1 i.1) _)).
  rewrite /i; case: (x0) => [a|] //.
  by rewrite (pm_im Hp) (pm_ic Hp); exact: mvnE.
exact: (sample_loop_ok Hp i.1 i.2 (t := 0%N) (k := T)).
Qed.

Lemma sample_bad_rs (o : kf R) T x0 rs w p n m : initialize_parameters o = Ok p ->
  shape_m2 (p_tm p) = Ok n -> shape_m2 (p_om p) = Ok m ->
  handle (if rs is Some r then Some r else k_rs o) = None ->
  exists e, kf_sample rl o T x0 rs w = (w, Err e) /\ (rs = Some RsOther -> e = AttributeError) /\ 
    (forall z, rs = Some (RsSeed z) -> e = ValueError).
Proof.
move=> Hi Hn Hm Hh; rewrite /kf_sample Hi Hn Hm.
case: rs Hh => [[|z|i|]|] //=; first by case: ifP => // _ _; eexists; split=> //; split.
  by exists AttributeError.
case: (k_rs o) => [[|z|i|]|] //=; first by case: ifP => // _ _; exists ValueError.
by move=> _; exists AttributeError.
Qed.
End Facts.

From Verif Require Import Client.
Section Calls.
Variables (R : rcfType) (G : Type) (rl : rng_lib R G) (ln : R -> R) (ln2pi : R).
Local Notation crun := (run rl ln ln2pi).
Local Notation cstep := (step rl ln ln2pi).



#[local] Arguments step : simpl never.
Lemma step_obj o w w' c : (cstep (o, w) c).1.1 = (cstep (o, w') c).1.1.
Proof.
rewrite /step; case: c => //= [T x r|X n ev]; last by case: (kf_em o X n ev).
by case: (kf_sample rl o T x r w) => ? ?; case: (kf_sample rl o T x r w').
Qed.
Lemma step_keep o w c : changes c = false -> (cstep (o, w) c).1.1 = o.
Proof. by rewrite /step; case: c => //= T x r _; case: (kf_sample _ _ _ _ _ _). Qed.
Lemma step_reply o w w' c : random c = false -> (cstep (o, w) c).2 = (cstep (o, w') c).2.
Proof. by rewrite /step; case: c => //= X n ev _; case: (kf_em o X n ev). Qed.

Lemma run_obj cs o w w' : (crun (o, w) cs).1.1 = (crun (o, w') (filter (@changes R) cs)).1.1.
Proof.
elim: cs o w w' => [|c cs IH] o w w' //=.
case E: (cstep (o, w) c) => [[o1 w1] r]; case E1: (crun (o1, w1) cs) => [s1 rs1] /=.
case: ifP => Hc /=.
  case E': (cstep (o, w') c) => [[o1' w1'] r'].
  have := step_obj o w w' c; rewrite E E' /= => Eo; subst o1'.
  by have := IH o1 w1 w1'; rewrite E1; case: (crun (o1, w1') _).
have := step_keep o w Hc; rewrite E /= => Eo; subst o1.
by have := IH o w1 w'; rewrite E1.
Qed.

Lemma run_same cs o w : ~~ has (@changes R) cs -> (crun (o, w) cs).1.1 = o.
Proof.
move=> H; rewrite (run_obj cs o w w).
have -> // : filter (@changes R) cs = [::].
by apply: size0nil; rewrite size_filter; apply/eqP; rewrite -leqn0 leqNgt -has_count.
Qed.

Lemma query_reply cs o w w' c : ~~ has (@changes R) cs -> random c = false ->
  (cstep (crun (o, w) cs).1 c).2 = (cstep (o, w') c).2.
Proof.
move=> H Hr; have := run_same o w H; case: (crun (o, w) cs) => [[o' w1] rs] /= ->.
exact: step_reply.
Qed.

Lemma query_reply_em cs o w w' c : random c = false ->
  (cstep (crun (o, w) cs).1 c).2 = (cstep (crun (o, w') (filter (@changes R) cs)).1 c).2.
Proof.
move=> Hr; have := run_obj cs o w w'.
case: (crun (o, w) cs) => [[o1 w1] rs]; case: (crun (o, w') _) => [[o2 w2] rs2] /= ->.
exact: step_reply.
Qed.

Lemma sample_seeded (o : kf R) T x0 rs z w w' : (if rs is Some r then Some r else k_rs o) = Some (RsSeed z) ->
  (kf_sample rl o T x0 rs w).2 = (kf_sample rl o T x0 rs w').2 /\ (kf_sample rl o T x0 rs w).1 = w.
Proof.
move=> E; rewrite /kf_sample E; case: (initialize_parameters o) => [p|] //.
case: (shape_m2 _) => //; case: (shape_m2 _) => // a b.
rewrite /=; case: ifP => // _ /=.
by case: (sample_run _ _ _ _ _ _ _).
Qed.

Lemma sample_frame (o : kf R) T x0 rs w :
  let w1 := (kf_sample rl o T x0 rs w).1 in
  match (if rs is Some r then Some r else k_rs o) with
  | None | Some RsModule => w_inst w1 = w_inst w
  | Some (RsGen i) => w_global w1 = w_global w /\ forall j, j != i -> w_inst w1 j = w_inst w j
  | _ => w1 = w
  end.
Proof.
rewrite /kf_sample; case: (initialize_parameters o) => [p|e] /=; last by case: (if rs is Some r then _ else _) => [[]|].
case: (shape_m2 _) => [a|e]; last by case: (if rs is Some r then _ else _) => [[]|].
case: (shape_m2 _) => [b|e]; last by case: (if rs is Some r then _ else _) => [[]|].
case: (if rs is Some r then _ else _) => [[|z|i|]|] //=.
- by case: (sample_run _ _ _ _ _ _ _).
- by case: ifP => //= _; case: (sample_run _ _ _ _ _ _ _).
- case: (sample_run _ _ _ _ _ _ _) => g r /=; split=> // j; rewrite /upd.
  by case: (j == i).
- by case: (sample_run _ _ _ _ _ _ _).
Qed.

Lemma sample_seeded_history cs (o : kf R) T x0 rs z w w' : ~~ has (@changes R) cs ->
  (if rs is Some r then Some r else k_rs o) = Some (RsSeed z) ->
  (cstep (crun (o, w) cs).1 (CSample T x0 rs)).2 = (cstep (o, w') (CSample T x0 rs)).2.
Proof.
move=> H E; have := run_same o w H; case: (crun (o, w) cs) => [[o' w1] rs1] /= ->.
have [+ _] := sample_seeded T x0 w1 w' E.
by rewrite /step; case: (kf_sample rl o T x0 rs w1) => ? ?; case: (kf_sample rl o T x0 rs w') => ? ? /= ->.
Qed.

(** an explicit argument wins: the constructor's value is not consulted *)
Lemma sample_arg_wins (o o' : kf R) T x0 r w : initialize_parameters o = initialize_parameters o' ->
  kf_sample rl o T x0 (Some r) w = kf_sample rl o' T x0 (Some r) w.
Proof. by rewrite /kf_sample => ->. Qed.
End Calls.

(** the loop uses slice 0 of the covariances *)
Section Refute.
Variable R : rcfType.
(** a generator library whose draws are deterministic: mean + covariance * (1,...,1) *)
Definition det_lib : rng_lib R unit := RngLib (fun _ => tt) (fun n mu c g => (mu + c *m const_mx 1, g)).
(** random walk with observation noise variance 0 then 1 *)
Definition bad_o : kf R :=
  KF None None None (Some (A3 [:: 0 : 'M[R]_1; 1%:M])) None None None None None None 1 1 (EmNames default_em_vars).
Definition bad_M : lgm R 1 1 :=
  LGM (fun _ => 1%:M) (fun _ => 0) (fun _ => 1%:M) (fun _ => 1%:M) (fun _ => 0) (fun t => nth 0 [:: 0 : 'M[R]_1; 1%:M] t) 0 1%:M.
Lemma bad_model : kf_model bad_o 2 bad_M.
Proof.
split=> //=; first by move=> t _; apply/matrixP=> i j; rewrite !mxE.
right; exists [:: 0 : 'M[R]_1; 1%:M]; split=> //.
Qed.
Definition getv (a : arr R) : R := if a is A1 _ v then mget v 0 0 else 0.
Lemma getvE (v : 'cV[R]_1) : getv (A1 v) = v 0 0.
Proof. exact: (mgetE v ord0 ord0). Qed.
Lemma bad_sample (w : world unit) :
  ~ exists g' x z, trajectory det_lib bad_M (mQ bad_M) (mR bad_M) 2 None tt g' x z /\
    kf_sample det_lib bad_o 2 None None w = (after HGlobal w g', Ok [seq (A1 (x t), A1 (z t)) | t <- iota 0 2]).
Proof.
case=> g' [x [z [[[ww [v [h [k [H0 Ho Hx _]]]]]] E]]].
have Hh : handle (k_rs bad_o) = Some HGlobal by [].
have [g1 [x1 [z1 [[[w1 [v1 [h1 [k1 [H0' Ho' Hx' _]]]]]] E1]]]] :=
  sampleE det_lib None (rs := None) w bad_model Hh.
move: E1; rewrite [X in kf_sample _ _ _ X]/= E => E1.
have [E2 E3] : x 1%N 0 0 = x1 1%N 0 0 /\ z 1%N 0 0 = z1 1%N 0 0.
  have E1' : [seq (A1 (x t), A1 (z t)) | t <- iota 0 2] = [seq (A1 (x1 t), A1 (z1 t)) | t <- iota 0 2].
    by exact: (f_equal (fun q => if q.2 is Ok s then s else [::]) E1).
  have := congr1 (fun s => (getv (nth (A0 0, A0 0) s 1).1, getv (nth (A0 0, A0 0) s 1).2)) E1'.
  by move=> q; rewrite -!getvE; split; [exact: (congr1 fst q) | exact: (congr1 snd q)].
have [Ev Hz] := Ho 1%N isT; have [Ev' Hz'] := Ho' 1%N isT.
move/(congr1 (fun u : 'cV_1 => u 0 0)): Hz'; move/(congr1 (fun u : 'cV_1 => u 0 0)): Hz.
rewrite E3 /= !mul1mx !addr0 !mxE E2 => -> /addrI.
have Hv : v 1%N 0 0 = 1.
  have := congr1 (fun q : 'cV[R]_1 * unit => q.1 0 0) Ev; rewrite /= mul1mx add0r !mxE; exact: esym.
have Hv' : v1 1%N 0 0 = 0.
  have := congr1 (fun q : 'cV[R]_1 * unit => q.1 0 0) Ev'; rewrite /= mul0mx add0r !mxE; exact: esym.
by rewrite Hv Hv' => /eqP; rewrite oner_eq0.
Qed.
End Refute.

Section Glue.
Variables (R : rcfType) (G : Type) (rl : rng_lib R G).

Lemma trajectory_ext n m (M : lgm R n m) Q V Q' V' T x0 g g' x z :
  (forall t, (t < T.-1)%N -> Q t = Q' t) -> (forall t, (t < T)%N -> V t = V' t) ->
  trajectory rl M Q V T x0 g g' x z -> trajectory rl M Q' V' T x0 g g' x z.
Proof.
move=> HQ HV [[w [v [h [k [H1 H2 H3 H4]]]]]]; split; exists w, v, h, k; split=> // t tT.
  by rewrite -HV //; apply: H2.
by rewrite -HQ; [apply: H3|rewrite -ltnS prednK //; apply: leq_ltn_trans tT].
Qed.

Lemma sample_const n m (o : kf R) (M : lgm R n m) T x0 rs h w :
  kf_model o T M ->
  (forall t, (t < T.-1)%N -> mQ M t = mQ M 0%N) -> (forall t, (t < T)%N -> mR M t = mR M 0%N) ->
  handle (if rs is Some r then Some r else k_rs o) = Some h ->
  exists g' x z, trajectory rl M (mQ M) (mR M) T x0 (state_of rl h w) g' x z /\
    kf_sample rl o T (omap (fun v : 'cV_n => A1 v) x0) rs w =
    (after h w g', Ok [seq (A1 (x t), A1 (z t)) | t <- iota 0 T]).
Proof.
move=> HM HQ HR Hh; have [g' [x [z [H E]]]] := sampleE rl x0 w HM Hh.
by exists g', x, z; split=> //; apply: trajectory_ext H => t tT; rewrite ?HQ ?HR.
Qed.

(** same object with another random_state *)
Definition with_rs (o : kf R) (r : option rspec) : kf R :=
  KF (k_tm o) (k_om o) (k_tc o) (k_oc o) (k_to o) (k_oo o) (k_im o) (k_ic o) r (k_em o) (k_n o) (k_m o) (k_em_ o).
Lemma sample_explicit (o : kf R) r' T x0 r w : seed_ok (k_rs o) -> seed_ok r' ->
  kf_sample rl o T x0 (Some r) w = kf_sample rl (with_rs o r') T x0 (Some r) w.
Proof. by move=> H H'; apply: sample_arg_wins; rewrite !initialize_parametersE. Qed.

Lemma sample_rejects n m (o : kf R) (M : lgm R n m) T T' x0 w : kf_model o T M ->
  kf_sample rl o T' x0 (Some RsOther) w = (w, Err AttributeError) /\
  forall z : int, ~~ ((0 <= z) && (z < 2%:R ^+ 32)) -> kf_sample rl o T' x0 (Some (RsSeed z)) w = (w, Err ValueError).
Proof.
move=> HM; have Hp := kf_model_params HM.
have H := @sample_bad_rs _ _ rl o T' x0 _ w _ _ _ (initialize_parametersE (km_rs HM)) (rep2_m2 (pm_tm Hp)) (rep2_m2 (pm_om Hp)).
split; first by have [e [-> [-> //]]] := H (Some RsOther) erefl.
move=> z /negbTE Hz; have [|e [-> [_ He]]] := H (Some (RsSeed z)) _; first by rewrite /= Hz.
by rewrite (He z).
Qed.
End Glue.

Lemma sample_refuted (R : rcfType) :
  exists (rl : rng_lib R unit) (o : kf R) (M : lgm R 1 1) T, kf_model o T M /\ forall w : world unit,
  ~ exists g' x z, trajectory rl M (mQ M) (mR M) T None (w_global w) g' x z /\
    kf_sample rl o T None None w = (after HGlobal w g', Ok [seq (A1 (x t), A1 (z t)) | t <- iota 0 T]).
Proof.
exists (det_lib R), (bad_o R), (bad_M R), 2%N; split; first exact: bad_model.
by move=> w; have := @bad_sample R w; case: (w) => -[].
Qed.
