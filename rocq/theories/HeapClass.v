(** The methods of KalmanFilter in memory. *)
From mathcomp Require Import all_ssreflect all_algebra.
From Coq Require Import String.
From Verif Require Import Prelude LinAlg Numpy Sklearn Standard StandardInit Model Rng.
From Verif Require Import Heap HeapSpec HeapFacts HeapFilter HeapEm.
Import GRing.Theory Num.Theory.

Set Implicit Arguments.
Unset Strict Implicit.
Unset Printing Implicit Defensive.
Local Open Scope ring_scope.

Section Class.
Variable R : rcfType.
Notation arr := (arr R).
Notation heap := (heap R).
Implicit Types (h : heap) (o : hkf).

Lemma pick2 h0 tl (v : option view) a i d : shows h0 v a -> getidx tl i = Ok (CArr d) ->
  vread (h0 ++ tl) (pick V2d v (size h0 + i)) = Ok (array2d (odflt d a)).
Proof.
case: v a => [v|] [a|] //= H Hi; last by rewrite /vread /= getidx_catr Hi.
move: H; rewrite /vread /=; case E: getidx => [c|] //=.
by rewrite (getidx_catl _ E) /= => ->.
Qed.
Lemma pick1 h0 tl (v : option view) a i d : shows h0 v a -> getidx tl i = Ok (CArr d) ->
  vread (h0 ++ tl) (pick V1d v (size h0 + i)) = Ok (array1d (odflt d a)).
Proof.
case: v a => [v|] [a|] //= H Hi; last by rewrite /vread /= getidx_catr Hi.
move: H; rewrite /vread /=; case E: getidx => [c|] //=.
by rewrite (getidx_catl _ E) /= => ->.
Qed.

Lemma init_h_sim h0 o (o' : kf R) : stands_for h0 o o' -> seed_ok (k_rs o') ->
  exists tl p, init_h o h0 = (h0 ++ tl, Ok p) /\ reads (h0 ++ tl) p (init_value o').
Proof.
move=> [[Htm Hom Htc Hoc] [Hto Hoo Him Hic] [Hrs _] [Hn Hm _]] Hs.
rewrite /init_h -{1}[h0]cats0.
do 8 rewrite (rb_eq _ (alloc_cat _ _ _)).
have [g Eg] : exists g, check_random_state (Some (odflt (RsSeed 0) (h_rs o))) = Ok g.
  rewrite Hrs /check_random_state; move: Hs; rewrite /seed_ok.
  by case: (k_rs o') => [[]|] //=; try (by eexists); move=> z ->; eexists.
rewrite Eg {1}/rlift {1}/rbind.
eexists; eexists; split; first exact: erefl.
rewrite /init_value -Hn -Hm.
by split; split; (apply: pick2 || apply: pick1).
Qed.

Lemma sim_agree A B h0 (y : heap * res B) (F : res A) K (K' : heap -> B -> A -> Prop) :
  sim h0 y F K -> (forall w h' b, K w h' b -> extends h0 h' /\ K' h' b w) ->
  extends h0 y.1 /\ agree (K' y.1) y.2 F.
Proof.
case: F => [w|e] /=.
- by move=> [h' [b [-> H]]] HK; have [H1 H2] := HK _ _ _ H.
- by move=> [tl ->] _; split=> //; exists tl.
Qed.

Lemma init_call h0 (a : hargs) (a' : kfargs R) : args_stand h0 a a' ->
  (kf_init_h a h0).1 = h0 /\ agree (stands_for h0) (kf_init_h a h0).2 (kf_init a').
Proof.
move=> [[Htm Hom Htc Hoc] [Hto Hoo Him Hic] [Hrs Hem] [Hn Hm]].
have ol A (Q : option arr -> prog R A) v w : shows h0 v w -> rbind (oload v) Q h0 = Q w h0.
  case: v w => [v|] [w|] //= Hv; apply: rb_eq; rewrite /oload //.
  by have := vloadE [::] Hv; rewrite cats0 => E; rewrite (rb_eq _ E).
rewrite /kf_init_h (ol _ _ _ _ Htm) (ol _ _ _ _ Hom) (ol _ _ _ _ Htc) (ol _ _ _ _ Hoc).
rewrite (ol _ _ _ _ Hto) (ol _ _ _ _ Hoo) (ol _ _ _ _ Him) (ol _ _ _ _ Hic) /kf_init -Hn -Hm.
rewrite /rbind /rlift.
case: determine_dimensionality => [n|e] //; rewrite bOk.
case: determine_dimensionality => [m|e] //; rewrite bOk /=.
by split=> //; rewrite Hem; split.
Qed.

Section Calls.
Variables (h0 : heap) (o : hkf) (o' : kf R) (x : nat) (X : obs R) (k : nat) (zs : seq (orow R k)).
Hypothesis Ho : stands_for h0 o o'.
Hypothesis Hs : seed_ok (k_rs o').
Hypothesis Hx : getidx h0 x = Ok (CObs X).
Hypothesis HX : parse_observations X = existT _ k zs.

(** where everything is after [_filter] *)
Definition after_filter h p (q : kfparams R) b rows : Prop :=
  [/\ frows_at h b rows, reads h p q, getidx h x = Ok (CObs X) & size rows = size zs].

Lemma filter_after h p q : reads h p q -> getidx h x = Ok (CObs X) ->
  sim h (filter_h p x h) (filter_ q zs)
    (fun rows h' b => [/\ after_filter h' p q b rows, extends h h',
       (size h <= b_fm b)%N /\ (size h <= b_fc b)%N & b_fm b <> b_fc b]).
Proof.
move=> Hr Hh; have := filter_h_sim Hr Hh HX.
case E: (filter_ q zs) => [rows|e] //.
move=> [h' [b [E1 [Eb [n En Eh]]]]]; rewrite E1 Eh Eb; apply: sim_ok; split.
- split; last exact: filter_len E.
  + by split; rewrite [X in getidx _ X]/= getidx_catr /fcells !cats0.
  + exact: reads_cat.
  + exact: getidx_catl.
- by eexists.
- by split; exact: leq_addr.
- by move=> /eqP; rewrite eqn_add2l.
Qed.


Lemma extends_trans h1 h2 h3 : extends h1 h2 -> extends h2 h3 -> extends h1 h3.
Proof. by move=> [t1 ->] [t2 ->]; exists (t1 ++ t2); rewrite catA. Qed.
Lemma extends_cat h tl : extends h (h ++ tl).
Proof. by exists tl. Qed.
Lemma sim_ext A B h1 h2 (y : heap * res B) (F : res A) K :
  extends h1 h2 -> sim h2 y F K -> sim h1 y F K.
Proof. by move=> [tl ->] H; apply: sim_weak H _. Qed.
Lemma getidx_ext h h' a c : extends h h' -> getidx h a = Ok c -> getidx h' a = Ok c.
Proof. by move=> [tl ->]; exact: getidx_catl. Qed.
Lemma vread_ext h h' v a : extends h h' -> vread h v = Ok a -> vread h' v = Ok a.
Proof. by move=> [tl ->]; exact: vread_cat. Qed.
Lemma size_ext h h' : extends h h' -> (size h <= size h')%N.
Proof. by move=> [tl ->]; rewrite size_cat leq_addr. Qed.

Lemma filter_call :
  extends h0 (kf_filter_h o x h0).1 /\
  agree (moments_at h0 (kf_filter_h o x h0).1) (kf_filter_h o x h0).2 (kf_filter o' X).
Proof.
have [tl [p [Ep Hp]]] := init_h_sim Ho Hs.
have He := extends_cat h0 tl.
rewrite /kf_filter_h (rb_eq _ Ep) /kf_filter /filter_with HX (initialize_parametersE Hs) bOk.
set K : seq (arr * arr) -> heap -> nat * nat -> Prop :=
  fun rows h' ab => extends h0 h' /\ moments_at h0 h' ab rows.
apply: (@sim_agree _ _ _ _ _ K); last by [].
apply: (sim_ext He).
apply: sim_bind (filter_after Hp (getidx_ext He Hx)) _ => rows h' b.
move=> [[[_ _ Hfm Hfc] _ _ _] He' [H1 H2] H3].
apply: sim_ok; split; first exact: extends_trans He He'.
split=> //=.
- by split; [apply: leq_trans H1 | apply: leq_trans H2]; exact: size_ext.
- by rewrite -map_comp.
- by rewrite -map_comp.
Qed.

Lemma smooth_call :
  extends h0 (kf_smooth_h o x h0).1 /\
  agree (moments_at h0 (kf_smooth_h o x h0).1) (kf_smooth_h o x h0).2 (kf_smooth o' X).
Proof.
have [tl [p [Ep Hp]]] := init_h_sim Ho Hs.
have He := extends_cat h0 tl.
rewrite /kf_smooth_h (rb_eq _ Ep) /kf_smooth /smooth_with HX (initialize_parametersE Hs) bOk.
set K : seq (arr * arr) -> heap -> nat * nat -> Prop :=
  fun rows h' ab => extends h0 h' /\ moments_at h0 h' ab rows.
apply: (@sim_agree _ _ _ _ _ K); last by [].
apply: (sim_ext He).
apply: sim_bind (filter_after Hp (getidx_ext He Hx)) _ => rows h1 b.
move=> [[Hb [[Htm _ _ _] [_ _ Him _]] Hx1 Hsz] He1 _ _].
apply: (sim_ext He1).
rewrite -{2}[h1]cats0 (rb_eq _ (obs_shapeE Hx1 HX _)).
rewrite (rb_eq _ (vloadE _ Him)).
apply: sim_step => n _; rewrite cats0 -Hsz.
apply: sim_bind (smooth_h_sim _ Htm Hb) _ => -[ss gs] h2 s [-> -> _ _ _].
apply: sim_ok; split.
  by apply: (extends_trans He); apply: (extends_trans He1); exact: extends_cat.
have Hle : (size h0 <= size h1)%N by apply: size_ext; exact: extends_trans He He1.
split=> /=.
- by split; apply: (leq_trans Hle); exact: leq_addr.
- by move=> /eqP; rewrite eqn_add2l.
- by rewrite getidx_catr -map_comp.
- by rewrite getidx_catr -map_comp.
Qed.

Lemma loglik_call ln ln2pi :
  extends h0 (kf_loglikelihood_h ln ln2pi o x h0).1 /\
  (kf_loglikelihood_h ln ln2pi o x h0).2 = kf_loglikelihood ln ln2pi o' X.
Proof.
have [tl [p [Ep Hp]]] := init_h_sim Ho Hs.
have He := extends_cat h0 tl.
rewrite /kf_loglikelihood_h (rb_eq _ Ep) /kf_loglikelihood /loglikelihood_with HX
  (initialize_parametersE Hs) bOk.
set K : R -> heap -> R -> Prop := fun l h' l' => extends h0 h' /\ l' = l.
set P := loglikelihood_h_body _ _ _ _ _; set F := bind _ _.
suff H : sim h0 P F K.
  have [H1 H2] := sim_agree (K' := fun _ l' l => l' = l) H (fun w h' b HK => HK).
  by split=> //; move: H2; case: (P.2) => [a|e]; case: F {H} => [a'|e'] //= ->.
apply: (sim_ext He).
apply: sim_bind (filter_after Hp (getidx_ext He Hx)) _ => rows h1 b.
move=> [[Hb Hp1 Hx1 Hsz] He1 _ _].
apply: (sim_ext He1).
rewrite -{2}[h1]cats0 (rb_eq _ (obs_shapeE Hx1 HX _)) cats0.
apply: sim_post (loglik_h_sim ln ln2pi Hp1 Hx1 HX Hb Hsz) _ => l h' l' [-> [tl' ->]].
split=> //; apply: (extends_trans He); apply: (extends_trans He1); exact: extends_cat.
Qed.


Lemma em_iter_sim h p q g g' : reads h p q -> getidx h x = Ok (CObs X) -> greads h g g' ->
  sim h (em_iter_h x g p h) (em_iter (@filter_ R) zs g' q)
    (fun q' h' p' => [/\ reads h' p' q', given_or_new (size h) g p' & extends h h']).
Proof.
move=> Hp Hxh Hg; rewrite /em_iter_h /em_iter.
apply: sim_bind (filter_after Hp Hxh) _ => rows h1 b.
move=> [[Hb [[Htm Hto _ _] [Hoo _ Him _]] Hx1 Hsz] He1 _ _].
apply: (sim_ext He1).
rewrite -{2}[h1]cats0 (rb_eq _ (obs_shapeE Hx1 HX _)).
rewrite (rb_eq _ (vloadE _ Him)).
apply: sim_step => n _; rewrite cats0 -Hsz.
apply: sim_bind (smooth_h_sim _ Htm Hb) _ => -[ss gs] h2 s [-> ->].
rewrite [(ss, gs).1]/= [(ss, gs).2]/= => Hpos Hss Hgs.
set h3 := h1 ++ _; set sb := SBufs _ _ _.
have He3 : extends h1 h3 by exact: extends_cat.
apply: (sim_ext He3); rewrite -Hss.
have Hsm : getidx h3 (b_sm sb) = Ok (CRows (map (@s_m R) ss)) by rewrite getidx_catr.
have Hsc : getidx h3 (b_sc sb) = Ok (CRows (map (@s_c R) ss)) by rewrite getidx_catr.
have Hsg : getidx h3 (b_sg sb) = Ok (CRows gs) by rewrite getidx_catr.
have Hs1 : size ss = (size gs).+1 by rewrite Hgs -Hss prednK.
apply: sim_bind (smooth_pair_h_sim _ Hsc Hsg Hs1) _ => pw h4 pwa [-> -> Hpw].
set h5 := h3 ++ _.
have He5 : extends h3 h5 by exact: extends_cat.
have He15 := extends_trans He3 He5.
have Hgp : getidx h5 (size h3 + 0) = Ok (CRows pw) by rewrite getidx_catr.
have Ez : size ss = size zs by rewrite Hss.
have He05 := extends_trans He1 He15.
have Hg5 : greads h5 g g' by case: He05 => tl0 ->; exact: greads_cat.
apply: (sim_ext He5); rewrite Ez.
have Hpz : size pw = size zs by rewrite Hpw.
have Hz0 : (0 < size zs)%N by rewrite -Ez.
have Hl5 := size_ext He05.
have Hlb : (size h <= b_sm sb)%N by apply: leq_trans (size_ext He1) _; exact: leq_addr.
apply: sim_post (em_body_sim _ (getidx_ext He15 Hx1) HX (getidx_ext He5 Hsm) (getidx_ext He5 Hsc)
  Hgp Ez Hpz Hz0 (vread_ext He15 Hto) (vread_ext He15 Hoo) Hg5 Hl5 Hlb) _.
move=> q' h' p' [H1 H2 [tl Eh]]; split=> //; rewrite Eh.
exact: (extends_trans He05 (extends_cat h5 tl)).
Qed.

Lemma given_or_new_le lo lo' g p : (lo <= lo')%N -> given_or_new lo' g p -> given_or_new lo g p.
Proof.
move=> Hl [[H1 H2 H3 H4] [H5 H6 H7 H8]].
have mono name v : match dget g name with None => (lo' <= v_addr v)%N | Some w => v = w end ->
    match dget g name with None => (lo <= v_addr v)%N | Some w => v = w end.
  by case: dget => //; exact: leq_trans.
by split; split; exact: mono.
Qed.

Lemma em_loop_call h p q g g' n_iter : reads h p q -> getidx h x = Ok (CObs X) -> greads h g g' ->
  [/\ extends h (em_loop_h x g n_iter p h).1,
      reads (em_loop_h x g n_iter p h).1 (em_loop_h x g n_iter p h).2.1
            (em_loop (@filter_ R) zs g' n_iter q).1,
      (em_loop_h x g n_iter p h).2.2 = (em_loop (@filter_ R) zs g' n_iter q).2 &
      (0 < n_iter)%N -> (em_loop_h x g n_iter p h).2.2 = Ok tt ->
      given_or_new (size h) g (em_loop_h x g n_iter p h).2.1].
Proof.
elim: n_iter h p q => [|i IH] h p q Hp Hh Hg.
  by split=> //; exists [::]; rewrite cats0.
have := em_iter_sim Hp Hh Hg.
rewrite [em_loop_h _ _ _ _ _]/= [em_loop _ _ _ _ _]/=.
case: em_iter => [q'|e].
- move=> [h' [p' [-> [Hp' Hn He]]]].
  have Hg' : greads h' g g' by case: He => tl ->; exact: greads_cat.
  have [H1 H2 H3 H4] := IH h' p' q' Hp' (getidx_ext He Hh) Hg'.
  split=> //; first exact: (extends_trans He H1).
  move=> _ Hr; case: i {IH} H1 H2 H3 H4 Hr => [|i] // H1 H2 H3 H4 Hr.
  exact: given_or_new_le (size_ext He) (H4 isT Hr).
- move=> [tl ->]; split=> //; first exact: extends_cat.
  exact: reads_cat.
Qed.

(** the dictionary [given] *)
Fixpoint grel h (g : seq (string * view)) (g' : given_t R) : Prop :=
  match g, g' with
  | [::], [::] => True
  | (nm, v) :: g1, (nm', a) :: g1' => [/\ nm = nm', vread h v = Ok a & grel h g1 g1']
  | _, _ => False
  end.
Lemma grel_greads h g g' : grel h g g' -> greads h g g'.
Proof.
elim: g g' => [|[nm v] g IH] [|[nm' a] g'] //= [<- Hv Hg] name /=.
by case: String.eqb => //; exact: IH.
Qed.
Lemma grel_filter h (f : string -> bool) g g' : grel h g g' ->
  grel h [seq kv <- g | f kv.1] [seq kv <- g' | f kv.1].
Proof.
elim: g g' => [|[nm v] g IH] [|[nm' a] g'] //= [<- Hv Hg].
by case: (f nm) => /=; [split=> //; exact: IH | exact: IH].
Qed.
Lemma mk_given_rel h p q e : reads h p q -> greads h (mk_given_h p e) (mk_given q e).
Proof.
move=> [[Htm Hto Htc Hom] [Hoo Hoc Him Hic]]; apply: grel_greads.
rewrite /mk_given_h /mk_given; case: em_is_all => //.
by apply: (@grel_filter _ (fun nm => ~~ em_mem e nm)); rewrite /given_all_h /given_all; do 8 split=> //.
Qed.

Lemma set_params_stands h p q (o1 : hkf) (o1' : kf R) h1 : stands_for h1 o1 o1' -> reads h p q ->
  stands_for h (set_params_h o1 p) (set_params o1' q).
Proof.
move=> [_ _ [H1 H2] [H3 H4 H5]] [[Htm Hto Htc Hom] [Hoo Hoc Him Hic]].
by split; split.
Qed.

Lemma em_call_all n_iter ev :
  let y := kf_em_h o x n_iter ev h0 in let y' := kf_em o' X n_iter ev in
  [/\ extends h0 y.1, stands_for y.1 y.2.1 y'.1, y.2.2 = y'.2 &
      (0 < n_iter)%N -> y.2.2 = Ok tt -> em_is_all (odflt (h_em_ o) ev) ->
      forall a, refers y.2.1 a -> (size h0 <= a)%N].
Proof.
rewrite /=.
have [tl [p [Ep Hp]]] := init_h_sim Ho Hs.
have He := extends_cat h0 tl.
rewrite /kf_em_h Ep /kf_em /em_with HX (initialize_parametersE Hs).
have -> : (if ev is Some e then Some e else Some (k_em_ o')) = Some (odflt (h_em_ o) ev).
  by case: Ho => _ _ _ [_ _ ->]; case: ev.
have Hg := mk_given_rel (odflt (h_em_ o) ev) Hp.
have := em_loop_call n_iter Hp (getidx_ext He Hx) Hg.
case: em_loop_h => h' [p' r]; case: em_loop => q' r' /= [H1 H2 H3 H4].
split=> //; first exact: (extends_trans He H1).
  exact: (set_params_stands Ho H2).
move=> Hn Hr Hall; have := H4 Hn Hr; rewrite /mk_given_h Hall.
move=> [[/= ? ? ? ?] [? ? ? ?]] a [v /= Hv <-]; move: Hv.
have Hle := size_ext He.
by do 8 (case=> [[<-]|]; first exact: leq_trans Hle _).

Qed.


Lemma em_call n_iter ev :
  [/\ extends h0 (kf_em_h o x n_iter ev h0).1,
      stands_for (kf_em_h o x n_iter ev h0).1 (kf_em_h o x n_iter ev h0).2.1 (kf_em o' X n_iter ev).1 &
      (kf_em_h o x n_iter ev h0).2.2 = (kf_em o' X n_iter ev).2].
Proof. by have [] := em_call_all n_iter ev. Qed.


(** filter_update *)
Lemma aod_sim h A B (Q : arr -> prog R B) (G : arr -> res A) K v a d dv dim :
  shows h v a -> vread h d = Ok dv ->
  (forall w, sim h (Q w h) (G w) K) ->
  sim h (rbind (arg_or_default_h v d dim) Q h) (bind (arg_or_default a dv dim) G) K.
Proof.
move=> Hv Hd HQ.
have Ev : vread h (odflt d v) = Ok (odflt dv a) by case: v a Hv => [v|] [a|].
have El := vloadE [::] Ev; rewrite cats0 in El.
rewrite /arg_or_default_h /arg_or_default {1}/rbind {1}/rbind El /rlift.
have -> : (if a is Some a0 then a0 else dv) = odflt dv a by case: a {Hv Ev El}.
case: ifP => _; first by exists [::]; rewrite cats0.
exact: HQ.
Qed.

Lemma shows_ext h h' v a : extends h h' -> shows h v a -> shows h' v a.
Proof. by move=> He; case: v a => [v|] [a|] //=; exact: vread_ext. Qed.

Lemma filter_update_call fmv fm fcv fc zv z tmv tm tov to tcv tc omv om oov oo ocv oc :
  vread h0 fmv = Ok fm -> vread h0 fcv = Ok fc ->
  shows_obs h0 zv z ->
  [/\ shows h0 tmv tm, shows h0 tov to & shows h0 tcv tc] ->
  [/\ shows h0 omv om, shows h0 oov oo & shows h0 ocv oc] ->
  let y := kf_filter_update_h o fmv fcv zv tmv tov tcv omv oov ocv h0 in
  extends h0 y.1 /\ agree (state_at h0 y.1) y.2 (kf_filter_update o' fm fc z tm to tc om oo oc).
Proof.
move=> Hfm Hfc Hz [Htm Hto Htc] [Hom Hoo Hoc] y; rewrite {}/y.
have [tl [p [Ep [[Ptm Pto Ptc Pom] [Poo Poc Pim Pic]]]]] := init_h_sim Ho Hs.
have He := extends_cat h0 tl.
rewrite /kf_filter_update_h (rb_eq _ Ep) /kf_filter_update (initialize_parametersE Hs) bOk.
set K : arr * arr -> heap -> view * view -> Prop :=
  fun mc h' ab => extends h0 h' /\ state_at h0 h' ab mc.
apply: (@sim_agree _ _ _ _ _ K); last by [].
apply: (sim_ext He); set h1 := h0 ++ tl.
apply: aod_sim (shows_ext He Hto) Pto _ => b.
apply: aod_sim (shows_ext He Hoo) Poo _ => d.
apply: aod_sim (shows_ext He Htm) Ptm _ => A.
apply: aod_sim (shows_ext He Hom) Pom _ => C.
apply: aod_sim (shows_ext He Htc) Ptc _ => Q.
apply: aod_sim (shows_ext He Hoc) Poc _ => Rc.
apply: (@sim_bind _ _ _ _ _ _ _ _ _ _ _ (fun (zm : arr * bool) h' (w : arr * bool) => h' = h1 /\ w = zm)).
  case: zv z Hz => [[v bb]|] [[a bb']|] //.
  - move=> [Hv <-]; have Hv1 := vloadE [::] (vread_ext He Hv); rewrite cats0 in Hv1.
    by rewrite (rb_eq _ Hv1); apply: sim_ok.
  - by move=> _; case: (shape0 Rc) => [no|e]; [apply: sim_ok | exists [::]; rewrite cats0].
move=> [za miss] h' w [-> ->].
have Hfm1 := vloadE [::] (vread_ext He Hfm); have Hfc1 := vloadE [::] (vread_ext He Hfc).
rewrite -[h1]cats0 (rb_eq _ Hfm1) (rb_eq _ Hfc1) /h1.
apply: sim_step => -[pm pc] _; apply: sim_step => -[[K0 m] c] _.
rewrite cats0 /new_arr /rbind /alloc /rlift.
apply: sim_ok; split.
  by exists (tl ++ [:: CArr m; CArr c]); rewrite -!cats1 -!catA.
split; rewrite ?[v_addr _]/=.
- split; first by rewrite size_cat leq_addr.
  by rewrite size_rcons size_cat; apply: leq_trans (leqnSn _); exact: leq_addr.
- by rewrite size_rcons; apply/eqP; rewrite neq_ltn ltnSn.
- by rewrite /vread -!cats1 -catA getidx_catr0.
- by rewrite /vread -!cats1 getidx_catr0.
Qed.

End Calls.
End Class.
