(** [sample] in memory (HeapSample.v) and on values (Sample.v). *)
From mathcomp Require Import all_ssreflect all_algebra.
From Verif Require Import Prelude LinAlg Numpy Sklearn Standard StandardInit Model Rng Sample.
From Verif Require Import Heap HeapSpec HeapFacts HeapFilter HeapClass HeapNeg HeapSample.
Import GRing.Theory Num.Theory.

Set Implicit Arguments.
Unset Strict Implicit.
Unset Printing Implicit Defensive.
Local Open Scope ring_scope.

Section Sim.
Variables (R : rcfType) (G : Type).
Notation arr := (arr R).
Notation heap := (heap R).

Definition sim2 A B (h0 : heap) (x : heap * G * res B) (F : G * res A) (K : A -> heap -> B -> Prop) : Prop :=
  match F with
  | (g, Ok w) => exists h' b, x = (h', g, Ok b) /\ K w h' b
  | (g, Err e) => exists tl, x = (h0 ++ tl, g, Err e)
  end.

Lemma sim2_bind A B A' B' (h0 h : heap) g (P : gprog R G B) (Q : B -> gprog R G B') (F : rnd G A)
    (E : A -> rnd G A') (K : A -> heap -> B -> Prop) (K' : A' -> heap -> B' -> Prop) :
  sim2 h0 (P (h, g)) (F g) K ->
  (forall w h' g' b, K w h' b -> sim2 h0 (Q b (h', g')) (E w g') K') ->
  sim2 h0 (rbind P Q (h, g)) (rbind F E g) K'.
Proof.
rewrite /rbind; case: (F g) => g' [w|e] /=.
- by move=> [h' [b [-> H]]] HQ; exact: HQ.
- by move=> [tl ->] _; exists tl.
Qed.
Lemma sim2_step A A' B' (h0 tl : heap) g (Q : A -> gprog R G B') (F : res A)
    (E : A -> rnd G A') (K' : A' -> heap -> B' -> Prop) :
  (forall w, F = Ok w -> sim2 h0 (Q w (h0 ++ tl, g)) (E w g) K') ->
  sim2 h0 (rbind (rlift F) Q (h0 ++ tl, g)) (rbind (rlift F) E g) K'.
Proof. by case: F => [w|e] /= H; [exact: H | exists tl]. Qed.
Lemma sim2_draw A A' B' (h0 tl : heap) g (Q : A -> gprog R G B') (F : rnd G A)
    (E : A -> rnd G A') (K' : A' -> heap -> B' -> Prop) :
  (forall w g', sim2 h0 (Q w (h0 ++ tl, g')) (E w g') K') ->
  sim2 h0 (rbind (ongen F) Q (h0 ++ tl, g)) (rbind F E g) K'.
Proof.
rewrite /rbind /ongen /=; case: (F g) => g' [w|e] /= H; [exact: H | by exists tl].
Qed.
Lemma mem_eq A B (P : prog R A) (Q : A -> gprog R G B) h h' g a :
  P h = (h', Ok a) -> rbind (onmem P) Q (h, g) = Q a (h', g).
Proof. by rewrite /rbind /onmem /= => ->. Qed.
Lemma sim2_mem A A' B' (h0 tl : heap) g (P : prog R A) (Q : A -> gprog R G B') (F : res A)
    (E : A -> rnd G A') (K' : A' -> heap -> B' -> Prop) :
  P (h0 ++ tl) = (h0 ++ tl, F) ->
  (forall w, F = Ok w -> sim2 h0 (Q w (h0 ++ tl, g)) (E w g) K') ->
  sim2 h0 (rbind (onmem P) Q (h0 ++ tl, g)) (rbind (rlift F) E g) K'.
Proof.
by move=> EP; rewrite /rbind /onmem /= EP; case: F {EP} => [w|e] /= H; [exact: H | exists tl].
Qed.
End Sim.

Section Loop.
Variables (R : rcfType) (G : Type) (rl : rng_lib R G).
Notation arr := (arr R).
Notation heap := (heap R).

Definition lread (h : heap) (v : lview) : res arr :=
  a <-- vread h (l_of v) ;; foldl (fun r t => b <-- r ;; last_dims b t 2) (Ok a) (l_at v).
Lemma lread_narrow (h : heap) v t a : lread h v = Ok a -> lread h (narrow v t) = last_dims a t 2.
Proof.
rewrite /lread /narrow /=; case: vread => [b|] //=; rewrite foldl_rcons.
by move=> ->.
Qed.
Lemma lloadE (h tl : heap) v t a : lread h v = Ok a ->
  lload (narrow v t) (h ++ tl) = (h ++ tl, last_dims a t 2).
Proof.
move=> H; rewrite -(lread_narrow t H); move: H.
rewrite /lread /lload /=; case E: vread => [b|] //= _.
by rewrite (rb_eq _ (vloadE _ E)) /rlift.
Qed.

Variables (h0 : heap) (p : hparams) (q : kfparams R) (n m : nat) (init : view) (x0 : arr).
Hypothesis Hp : reads h0 p q.
Variable hm : heap.      (* the two result buffers come before further cells [hm] *)
Hypothesis Hi : forall a b, vread (h0 ++ [:: a; b] ++ hm) init = Ok x0.

Let st := (size h0 + 0)%N.
Let ob := (size h0 + 1)%N.
Definition scells (k : nat) (rs : seq (arr * arr)) : heap :=
  [:: CRows ([seq r.1 | r <- rs] ++ nseq k (zeros1 n)); CRows ([seq r.2 | r <- rs] ++ nseq k (zeros1 m))] ++ hm.

Lemma put_next (s : seq arr) k z w tl : put (CRows (s ++ nseq k.+1 z) :: tl) 0 (size s) w =
  CRows (rcons s w ++ nseq k z) :: tl :> heap.
Proof. by rewrite put0 upd_nth_catr0 cat_rcons. Qed.

Definition plast (rs : seq (arr * arr)) : option arr := if rs is r :: rs' then Some (last r rs').1 else None.
Lemma plast_rcons rs r : plast (rcons rs r) = Some r.1.
Proof. by case: rs => [|r' rs] //=; rewrite last_rcons. Qed.

Definition cells2 (s1 s2 : seq arr) : heap := [:: CRows s1; CRows s2] ++ hm.

Lemma obs_part k (rs : seq (arr * arr)) x tc tc' oc ocv g :
  lread h0 oc = Ok ocv -> lread h0 tc = Ok tc' ->
  sim2 h0
   ((om <~~ onmem (vload (q_om p)) ;; C <~~ rlift (last_dims om (size rs) 2) ;;
     oo <~~ onmem (vload (q_oo p)) ;; d <~~ rlift (last_dims oo (size rs) 1) ;;
     Rc <~~ onmem (lload (narrow oc (size rs))) ;;
     s <~~ onmem (get_row st (size rs)) ;;
     y <~~ rlift (dot C s) ;; yd <~~ rlift (add y d) ;;
     v <~~ ongen (multivariate_normal rl (zeros1 m) Rc) ;;
     z <~~ rlift (add yd v) ;; z' <~~ rlift (assign1 m z) ;;
     _ <~~ onmem (set_row ob (size rs) z') ;;
     rlift (Ok (tc, narrow oc (size rs))))
    (h0 ++ cells2 (rcons [seq r.1 | r <- rs] x ++ nseq k (zeros1 n))
                  ([seq r.2 | r <- rs] ++ nseq k.+1 (zeros1 m)), g))
   ((C <~~ rlift (last_dims (p_om q) (size rs) 2) ;;
     d <~~ rlift (last_dims (p_oo q) (size rs) 1) ;;
     oc' <~~ rlift (last_dims ocv (size rs) 2) ;;
     y <~~ rlift (dot C x) ;;
     yd <~~ rlift (add y d) ;;
     v <~~ multivariate_normal rl (zeros1 m) oc' ;;
     z <~~ rlift (add yd v) ;;
     z' <~~ rlift (assign1 m z) ;;
     rlift (Ok (x, z', tc', oc'))) g)
   (fun w h' b => [/\ w.1.1.1 = x /\ w.1.2 = tc', lread h0 b.1 = Ok w.1.2, lread h0 b.2 = Ok w.2 &
      h' = h0 ++ scells k (rcons rs w.1.1)]).
Proof.
move=> Hoc Htc; have [[_ _ _ Hom] [Hoo _ _ _]] := Hp.
rewrite (mem_eq _ _ (vloadE _ Hom)); apply: sim2_step => C _.
rewrite (mem_eq _ _ (vloadE _ Hoo)); apply: sim2_step => d _.
apply: sim2_mem (lloadE _ _ Hoc) _ => Rc ERc.
have Eg : get_row st (size rs) (h0 ++ cells2 (rcons [seq r.1 | r <- rs] x ++ nseq k (zeros1 n))
                  ([seq r.2 | r <- rs] ++ nseq k.+1 (zeros1 m))) =
          (h0 ++ cells2 (rcons [seq r.1 | r <- rs] x ++ nseq k (zeros1 n))
                  ([seq r.2 | r <- rs] ++ nseq k.+1 (zeros1 m)), Ok x).
  apply: get_rowE; first by rewrite getidx_catr.
  by rewrite cat_rcons getidx_at // size_map.
rewrite (mem_eq _ _ Eg).
apply: sim2_step => y _; apply: sim2_step => yd _; apply: sim2_draw => v g'.
apply: sim2_step => z _; apply: sim2_step => z' _.
rewrite (mem_eq _ _ (set_rowE' (i := 1) h0 _ _)); last first.
  by rewrite size_cat size_map size_nseq addnS ltnS leq_addr.
eexists; eexists; split; first exact: erefl.
split=> //=; first by rewrite (lread_narrow _ Hoc).
congr cat; rewrite /scells /cells2 !cat_cons putS -(size_map snd) put_next.
by rewrite !map_rcons.
Qed.

Lemma step_sim k (rs : seq (arr * arr)) tc tcv oc ocv g :
  lread h0 tc = Ok tcv -> lread h0 oc = Ok ocv ->
  sim2 h0 (sample_step_h rl p n m init st ob (size rs) tc oc (h0 ++ scells k.+1 rs, g))
    (sample_step rl q n m (size rs) x0 (plast rs) tcv ocv g)
   (fun w h' b => [/\ lread h0 b.1 = Ok w.1.2, lread h0 b.2 = Ok w.2 &
      h' = h0 ++ scells k (rcons rs w.1.1)]).
Proof.
move=> Htc Hoc; rewrite /sample_step_h /sample_step.
pose K (xt : arr * arr) (h' : heap) tc' := lread h0 tc' = Ok xt.2 /\
      h' = h0 ++ cells2 (rcons [seq r.1 | r <- rs] xt.1 ++ nseq k (zeros1 n))
                        ([seq r.2 | r <- rs] ++ nseq k.+1 (zeros1 m)).
apply: (@sim2_bind _ _ _ _ _ _ _ _ _ _ _ _ _ K); last first.
  move=> [x tc'] h' g' b [Hb ->].
  have := obs_part k rs x g' Hoc Hb.
  rewrite /sim2; case: (rbind _ _ g') => g1 [w|e] //.
  move=> [h1 [b1 [-> [[E1 E2] E3 E4 ->]]]].
  by exists (h0 ++ scells k (rcons rs w.1.1)), b1.
rewrite /K {K}; case/lastP: rs => [|rs r].
- rewrite [size _]/= [plast _]/=.
  have Ev : vload init (h0 ++ scells k.+1 [::]) = (h0 ++ scells k.+1 [::], Ok x0).
    by have := vloadE [::] (Hi (CRows (nseq k.+1 (zeros1 n))) (CRows (nseq k.+1 (zeros1 m)))); rewrite cats0.
  rewrite (mem_eq _ _ Ev); apply: sim2_step => x _.
  rewrite (mem_eq _ _ (set_rowE' (i := 0) h0 _ _)) //.
  by eexists; eexists; split; first exact: erefl.
- rewrite size_rcons plast_rcons.
  have [[Htm Hto _ _] _] := Hp.
  rewrite (mem_eq _ _ (vloadE _ Htm)); apply: sim2_step => A _.
  rewrite (mem_eq _ _ (vloadE _ Hto)); apply: sim2_step => b _.
  apply: sim2_mem (lloadE _ _ Htc) _ => Q EQ.
  have Eg : get_row st (size rs) (h0 ++ scells k.+1 (rcons rs r)) = (h0 ++ scells k.+1 (rcons rs r), Ok r.1).
    apply: get_rowE; first by rewrite getidx_catr.
    by rewrite map_rcons cat_rcons getidx_at // size_map.
  rewrite (mem_eq _ _ Eg).
  apply: sim2_step => y _; apply: sim2_step => yb _; apply: sim2_draw => w g'.
  apply: sim2_step => x _; apply: sim2_step => x' _.
  rewrite (mem_eq _ _ (set_rowE' (i := 0) h0 _ _)); last first.
    by rewrite size_cat size_map size_rcons size_nseq addnS ltnS leq_addr.
  eexists; eexists; split; first exact: erefl.
  split=> /=; first by rewrite (lread_narrow _ Htc).
  congr cat; rewrite /scells /cells2 !cat_cons -(size_rcons rs r) -(size_map fst) put_next.
  by [].
Qed.

Lemma forS k t tc oc : sample_for_h rl p n m init st ob k.+1 t tc oc =
  rbind (sample_step_h rl p n m init st ob t tc oc)
    (fun y => let '(tc', oc') := y in sample_for_h rl p n m init st ob k t.+1 tc' oc').
Proof. by []. Qed.
Lemma loopS k t prev tc oc : sample_loop rl q n m x0 k.+1 t prev tc oc =
  rbind (sample_step rl q n m t x0 prev tc oc)
    (fun y => let '(x, z, tc', oc') := y in
       rest <~~ sample_loop rl q n m x0 k t.+1 (Some x) tc' oc' ;; rlift (Ok ((x, z) :: rest))).
Proof. by []. Qed.

Lemma for_sim k (rs : seq (arr * arr)) tc tcv oc ocv g :
  lread h0 tc = Ok tcv -> lread h0 oc = Ok ocv ->
  sim2 h0 (sample_for_h rl p n m init st ob k (size rs) tc oc (h0 ++ scells k rs, g))
    (sample_loop rl q n m x0 k (size rs) (plast rs) tcv ocv g)
   (fun rs' h' _ => h' = h0 ++ scells 0 (rs ++ rs')).
Proof.
elim: k rs tc tcv oc ocv g => [|k IH] rs tc tcv oc ocv g Htc Hoc.
  by eexists; eexists; split; first exact: erefl; rewrite cats0.
rewrite forS loopS.
apply: (sim2_bind (step_sim k rs g Htc Hoc)) => [[[[x z] tc'] oc'] h' g' [tc1 oc1] [H1 H2 ->]].
have := IH (rcons rs (x, z)) _ _ _ _ g' H1 H2.
rewrite size_rcons plast_rcons /rbind /=.
case: (sample_loop _ _ _ _ _ _ _ _ _ _ _) => g1 [rs'|e] //= [h1 [u [-> ->]]].
by exists (h0 ++ scells 0 (rcons rs (x, z) ++ rs')), u; rewrite cat_rcons.
Qed.
End Loop.

Section Call.
Variables (R : rcfType) (G : Type) (rl : rng_lib R G).
Notation arr := (arr R).
Notation heap := (heap R).

Lemma run_sim (h0 h : heap) p (q : kfparams R) n m T init init' g :
  extends h0 h -> reads h p q -> shows h0 init init' ->
  sim2 h0 (sample_run_h rl p n m T init (size h + 0)%N (size h + 1)%N
             (h ++ [:: CRows (nseq T (zeros1 n)); CRows (nseq T (zeros1 m))], g))
    (sample_run rl q n m T init' g)
    (fun rs h' ab => extends h0 h' /\ moments_at h0 h' ab rs).
Proof.
move=> [tl Eh] Hp Hi.
have [[_ _ Htc _] [_ Hoc Him Hic]] := Hp.
have Ltc : lread h (LView (q_tc p) [::]) = Ok (p_tc q) by rewrite /lread Htc.
have Loc : lread h (LView (q_oc p) [::]) = Ok (p_oc q) by rewrite /lread Hoc.
have fin hm v x0 g' : (forall a b, vread (h ++ [:: a; b] ++ hm) v = Ok x0) ->
  sim2 h0 ((_ <~~ sample_for_h rl p n m v (size h + 0)%N (size h + 1)%N T 0 (LView (q_tc p) [::])
                   (LView (q_oc p) [::]) ;; rlift (Ok ((size h + 0)%N, (size h + 1)%N)))
             (h ++ [:: CRows (nseq T (zeros1 n)); CRows (nseq T (zeros1 m))] ++ hm, g'))
    (sample_loop rl q n m x0 T 0 None (p_tc q) (p_oc q) g')
    (fun rs h' ab => extends h0 h' /\ moments_at h0 h' ab rs).
  move=> Hv; have := for_sim rl n m Hp Hv T [::] g' Ltc Loc.
  rewrite /rbind /= /scells /=.
  case: (sample_loop _ _ _ _ _ _ _ _ _ _ _) => g1 [rs'|e] /=.
  - move=> [h1 [u [-> ->]]]; eexists; eexists; split; first exact: erefl.
    split; first by rewrite Eh -catA; eexists.
    split; rewrite /=.
    + by rewrite Eh size_cat -!addnA !leq_addr.
    + by move=> /eqP; rewrite eqn_add2l.
    + by rewrite getidx_catr /= cats0.
    + by rewrite !cats0 getidx_catr.
  - by move=> [tl' ->]; exists (tl ++ tl'); rewrite Eh catA.
rewrite /sample_run_h /sample_run.
case: init init' Hi => [v|] [x0|] //= Hi.
  rewrite /rbind /=; apply: (fin [::]) => a b.
  by apply: vread_cat; rewrite Eh; apply: vread_cat.
set c2 := [:: _; _].
pose K x (h' : heap) v := h' = h ++ c2 ++ [:: CArr x] /\ v = View (size (h ++ c2)) VWhole.
apply: (@sim2_bind _ _ _ _ _ _ _ _ _ _ _ _ _ K); last first.
  move=> x h' g' v [-> ->]; apply: fin => a b.
  by rewrite /vread [v_addr _]/= size_cat getidx_catr.
rewrite (mem_eq _ _ (vloadE _ Him)) (mem_eq _ _ (vloadE _ Hic)) /K {K}.
rewrite {1}/rbind /ongen [(h ++ c2, g).2]/= [(h ++ c2, g).1]/=.
case: (multivariate_normal _ _ _ g) => g' [x|e]; last by exists (tl ++ c2); rewrite Eh catA.
by exists (h ++ c2 ++ [:: CArr x]), (View (size (h ++ c2)) VWhole); rewrite /onmem /= -cats1 -catA.
Qed.

Lemma sample_call (h : heap) o (o' : kf R) T init init' rs w :
  stands_for h o o' -> seed_ok (k_rs o') -> shows h init init' ->
  let y := kf_sample_h rl o T init rs h w in let y' := kf_sample rl o' T init' rs w in
  [/\ extends h y.1.1, y.1.2 = y'.1 & agree (moments_at h y.1.1) y.2 y'.2].
Proof.
move=> Ho Hs Hi y y'; rewrite {}/y {}/y'.
have [tl [p [Ep Hp]]] := init_h_sim Ho Hs.
have He := extends_cat h tl.
have Hrs : h_rs o = k_rs o' by case: Ho => _ _ [].
have EP : sample_prepare_h o T h =
  match shape_m2 (p_tm (init_value o')), shape_m2 (p_om (init_value o')) with
  | Ok n, Ok m => ((h ++ tl) ++ [:: CRows (nseq T (zeros1 n)); CRows (nseq T (zeros1 m))],
                   Ok (p, n, m, (size (h ++ tl) + 0)%N, (size (h ++ tl) + 1)%N))
  | Err e, _ | Ok _, Err e => (h ++ tl, Err e)
  end.
  have [[Htm _ _ Hom] _] := Hp.
  rewrite /sample_prepare_h (rb_eq _ Ep) -{1}[h ++ tl]cats0 (rb_eq _ (vloadE _ Htm)).
  case: (shape_m2 (p_tm _)) => [n|e]; last by rewrite cats0.
  rewrite {1}/rlift {1}/rbind (rb_eq _ (vloadE _ Hom)).
  case: (shape_m2 (p_om _)) => [m|e]; last by rewrite cats0.
  rewrite {1}/rlift {1}/rbind; do 2 rewrite (rb_eq _ (alloc_cat _ _ _)).
  by [].
rewrite /kf_sample_h /kf_sample EP (initialize_parametersE Hs) Hrs.
case: (shape_m2 (p_tm _)) => [n|e]; last by [].
case: (shape_m2 (p_om _)) => [m|e]; last by [].
case: check_random_state => [gh|e]; last first.
  by split=> //=; rewrite -catA; eexists.
have key g := run_sim n m T g He Hp Hi.
case: gh => [|z|i] /=.
- have := key (w_global w); rewrite /sim2; case: (sample_run _ _ _ _ _ _ _) => g' [v|e] /=.
  + by move=> [h' [b [-> [H1 H2]]]].
  + by move=> [tl' ->]; split=> //=; eexists.
- have := key (seed_state rl z); rewrite /sim2; case: (sample_run _ _ _ _ _ _ _) => g' [v|e] /=.
  + by move=> [h' [b [-> [H1 H2]]]].
  + by move=> [tl' ->]; split=> //=; eexists.
- have := key (w_inst w i); rewrite /sim2; case: (sample_run _ _ _ _ _ _ _) => g' [v|e] /=.
  + by move=> [h' [b [-> [H1 H2]]]].
  + by move=> [tl' ->]; split=> //=; eexists.
Qed.
End Call.

Lemma sample_met (R : rcfType) : let h := ex_heap (0 : R) in exists v,
  [/\ stands_for h ex_obj (ex_kf 0), seed_ok (k_rs (ex_kf (0 : R))), h_im ex_obj = Some v &
      shows h (Some v) (k_im (ex_kf (0 : R)))].
Proof. by exists (View 0 VWhole); split=> //; exact: ex_stands. Qed.
