(** The M step in memory computes what it computes on values. *)
From mathcomp Require Import all_ssreflect all_algebra.
From Coq Require Import String.
From Verif Require Import Prelude LinAlg Numpy Sklearn Standard Rng Heap HeapSpec HeapFacts HeapFilter.
Import GRing.Theory Num.Theory.

Set Implicit Arguments.
Unset Strict Implicit.
Unset Printing Implicit Defensive.
Local Open Scope ring_scope.

Section Acc.
Variable R : rcfType.
Notation arr := (arr R).
Notation heap := (heap R).

Lemma bOk A B (a : A) (G : A -> res B) : bind (Ok a) G = G a.
Proof. by []. Qed.

Lemma for_in_sim A (h0 : heap) (inj : A -> heap) (f : nat -> prog R unit) (g : A -> nat -> res A) s acc :
  (forall t a, t \in s -> sim h0 (f t (h0 ++ inj a)) (g a t) (fun a' h' _ => h' = h0 ++ inj a')) ->
  sim h0 (for_in s f (h0 ++ inj acc)) (foldr_res g acc s) (fun a' h' _ => h' = h0 ++ inj a').
Proof.
elim: s acc => [|t s IH] acc H; first by eexists; eexists; split; first exact: erefl.
rewrite [for_in _ _]/= [foldr_res _ _ _]/=.
apply: sim_bind (H t acc _) _; first by rewrite inE eqxx.
move=> a h' [] ->; apply: IH => u a' Hu; apply: H.
by rewrite inE Hu orbT.
Qed.

Lemma for_count_sim A (h0 : heap) (inj : A -> heap) (f : nat -> nat -> prog R nat)
    (g : A * nat -> nat -> res (A * nat)) s acc :
  (forall t a, t \in s -> sim h0 (f t a.2 (h0 ++ inj a.1)) (g a t)
     (fun a' h' i => h' = h0 ++ inj a'.1 /\ i = a'.2)) ->
  sim h0 (for_count s f acc.2 (h0 ++ inj acc.1)) (foldr_res g acc s)
     (fun a' h' i => h' = h0 ++ inj a'.1 /\ i = a'.2).
Proof.
elim: s acc => [|t s IH] acc H; first by eexists; eexists; split; first exact: erefl.
rewrite [for_count _ _ _]/= [foldr_res _ _ _]/=.
apply: sim_bind (H t acc _) _; first by rewrite inE eqxx.
move=> a h' i [-> ->]; apply: IH => u a' Hu; apply: H.
by rewrite inE Hu orbT.
Qed.

Lemma iadd_atE (h tl : heap) i a v w : getidx tl i = Ok (CArr a) -> iadd a v = Ok w ->
  iadd_at (size h + i) v (h ++ tl) = (h ++ upd_nth tl i (CArr w), Ok tt).
Proof.
move=> H1 H2; rewrite /iadd_at /rbind /load getidx_catr H1 /rlift H2 /store.
by rewrite size_cat ltn_add2l (getidx_ltn H1) upd_nth_catr.
Qed.
Lemma iadd_at_err (h tl : heap) i a v e : getidx tl i = Ok (CArr a) -> iadd a v = Err e ->
  iadd_at (size h + i) v (h ++ tl) = (h ++ tl, Err e).
Proof. by move=> H1 H2; rewrite /iadd_at /rbind /load getidx_catr H1 /rlift H2. Qed.

Lemma sim_iadd A' B' (h0 tl : heap) i a v (Q : unit -> prog R B') (G : arr -> res A')
    (K' : A' -> heap -> B' -> Prop) :
  getidx tl i = Ok (CArr a) ->
  (forall w, sim h0 (Q tt (h0 ++ upd_nth tl i (CArr w))) (G w) K') ->
  sim h0 (rbind (iadd_at (size h0 + i) v) Q (h0 ++ tl)) (bind (iadd a v) G) K'.
Proof.
move=> Ha H; case E: (iadd a v) => [w|e].
- by rewrite (rb_eq _ (iadd_atE _ Ha E)); exact: H.
- by exists tl; rewrite (rb_err _ (iadd_at_err _ Ha E)).
Qed.
Lemma sim_iadd_end A' (h0 tl : heap) i a v (G : arr -> res A') (K' : A' -> heap -> unit -> Prop) :
  getidx tl i = Ok (CArr a) ->
  (forall w, sim h0 (h0 ++ upd_nth tl i (CArr w), Ok tt) (G w) K') ->
  sim h0 (iadd_at (size h0 + i) v (h0 ++ tl)) (bind (iadd a v) G) K'.
Proof.
move=> Ha H; case E: (iadd a v) => [w|e].
- by rewrite (iadd_atE _ Ha E); exact: H.
- by exists tl; rewrite (iadd_at_err _ Ha E).
Qed.
Lemma load_arrE (h tl : heap) i a : getidx tl i = Ok (CArr a) ->
  load_arr (size h + i) (h ++ tl) = (h ++ tl, Ok a).
Proof. by move=> H; rewrite /load_arr /rbind /load getidx_catr H. Qed.

Lemma rb_load A (Q : arr -> prog R A) (h tl : heap) i a : getidx tl i = Ok (CArr a) ->
  rbind (load_arr (size h + i)) Q (h ++ tl) = Q a (h ++ tl).
Proof. by move=> H; rewrite (rb_eq _ (load_arrE _ H)). Qed.

(** a new array: a reference allocated after [h0] that shows the value *)
Definition fresh_view (h0 : heap) (a : arr) (h' : heap) (v : view) : Prop :=
  [/\ vread h' v = Ok a, (size h0 <= v_addr v)%N & exists tl, h' = h0 ++ tl].
Lemma new_arrE h0 tl (a : arr) : exists h' v, new_arr a (h0 ++ tl) = (h', Ok v) /\ fresh_view h0 a h' v.
Proof.
rewrite /new_arr (rb_eq _ (alloc_cat _ _ _)); eexists; eexists; split; first exact: erefl.
split; last by eexists.
- by rewrite /vread /= -cats1 catA -size_cat getidx_catr0.
- exact: leq_addr.
Qed.
End Acc.

Section EM.
Variable R : rcfType.
Notation arr := (arr R).
Notation heap := (heap R).
Variables (h0 : heap) (x : nat) (X : obs R) (k n : nat) (zs : seq (orow R k)).
Variables (s : sbufs) (pwa : nat) (ss : seq (srow R)) (pw : seq arr).
Hypothesis Hx : getidx h0 x = Ok (CObs X).
Hypothesis HX : parse_observations X = existT _ k zs.
Hypothesis Hsm : getidx h0 (b_sm s) = Ok (CRows (map (@s_m R) ss)).
Hypothesis Hsc : getidx h0 (b_sc s) = Ok (CRows (map (@s_c R) ss)).
Hypothesis Hpw : getidx h0 pwa = Ok (CRows pw).
Hypothesis Hsz : size ss = size zs.
Hypothesis Hpsz : size pw = size zs.
Let T := size zs.

Lemma sm_get A (Q : arr -> prog R A) tl t r : getidx ss t = Ok r ->
  rbind (get_row (b_sm s) t) Q (h0 ++ tl) = Q (s_m r) (h0 ++ tl).
Proof. by move=> H; rewrite (rb_getp (w := s_m r) _ _ Hsm) // getidx_map H. Qed.
Lemma sc_get A (Q : arr -> prog R A) tl t r : getidx ss t = Ok r ->
  rbind (get_row (b_sc s) t) Q (h0 ++ tl) = Q (s_c r) (h0 ++ tl).
Proof. by move=> H; rewrite (rb_getp (w := s_c r) _ _ Hsc) // getidx_map H. Qed.
Lemma ss_some t : (t < T)%N -> exists r, getidx ss t = Ok r.
Proof. by move=> H; apply: getidx_some; rewrite Hsz. Qed.

Let two (a : arr * arr) : heap := [:: CArr a.1; CArr a.2].
Let one (a : arr) : heap := [:: CArr a].

Lemma two_end (a : arr * arr) :
  sim h0 ((a1 <~~ load_arr (size h0 + 0) ;; a2 <~~ load_arr (size h0 + 1) ;;
    a2i <~~ rlift (np_pinv a2) ;; v <~~ rlift (dot a1 a2i) ;; new_arr v) (h0 ++ two a))
   (r2i <-- np_pinv a.2 ;; dot a.1 r2i) (fresh_view h0).
Proof.

rewrite (@rb_load R _ _ _ _ _ a.1) // (@rb_load R _ _ _ _ _ a.2) //.
apply: sim_step => a2i _; apply: sim_step_last => v _.
by have [h' [w [-> Hw]]] := new_arrE h0 (two a) v; by apply: sim_ok.
Qed.

Lemma em_om_sim oov oo : vread h0 oov = Ok oo ->
  sim h0 (em_observation_matrix_h x s T n k oov h0) (em_observation_matrix n zs ss oo) (fresh_view h0).
Proof.
move=> Hoo; rewrite /em_observation_matrix_h /em_observation_matrix -{2}[h0]cats0.
do 2 rewrite (rb_eq _ (alloc_cat _ _ _)).
apply: (sim_bind (@for_in_sim R _ h0 two _ _ _ (zeros2 k n, zeros2 n n) _)); last first.
  by move=> [a1 a2] h' [] ->; exact: (two_end (a1, a2)).
move=> t a; rewrite mem_iota => /andP[_ Ht].
have [z Hz] := getidx_some Ht; have [r Hr] := ss_some Ht.
rewrite (rb_eq _ (obs_atE Hx HX _ Hz)) [projT2 _]/= Hz bOk.
case: (missing z); rewrite [~~ _]/=; lazy iota; first by apply: sim_ok.
rewrite (rb_eq _ (vloadE _ Hoo)); apply: sim_step => d _.
rewrite (sm_get _ _ Hr) Hr bOk.
apply: sim_step => e _; apply: sim_step => x1 _; apply: sim_iadd => // r1.
rewrite (sc_get _ _ Hr).
apply: sim_step => x2 _; apply: sim_step => x3 _; apply: sim_iadd_end => // r2.
by apply: sim_ok.
Qed.

Lemma one_end (a : arr) (c : bool) (r : R) :
  sim h0 ((if c then a <~~ load_arr (size h0 + 0) ;; new_arr (scal r a)
           else rlift (Ok (View (size h0 + 0) VWhole))) (h0 ++ one a))
   (Ok (if c then scal r a else a)) (fresh_view h0).
Proof.
case: c.
  rewrite (@rb_load R _ _ _ _ _ a) //.
  by have [h' [w [-> Hw]]] := new_arrE h0 (one a) (scal r a); apply: sim_ok.
apply: sim_ok; split; last by eexists.
- by rewrite /vread [v_addr _]/= getidx_catr.
- exact: leq_addr.
Qed.

Lemma em_oc_sim oov oo omv om : vread h0 oov = Ok oo -> vread h0 omv = Ok om ->
  sim h0 (em_observation_covariance_h x s T k oov omv h0) (em_observation_covariance zs ss oo om)
    (fresh_view h0).
Proof.
move=> Hoo Hom; rewrite /em_observation_covariance_h /em_observation_covariance -{2}[h0]cats0.
rewrite (rb_eq _ (alloc_cat _ _ _)).
apply: (sim_bind (@for_count_sim R _ h0 one _ _ _ (zeros2 k k, 0%N) _)); last first.
  by move=> [a i] h' j [-> ->]; exact: one_end.
move=> t [a i]; rewrite mem_iota => /andP[_ Ht].
have [z Hz] := getidx_some Ht; have [r Hr] := ss_some Ht.
rewrite (rb_eq _ (obs_atE Hx HX _ Hz)) [projT2 _]/= Hz bOk.
case: (missing z); rewrite [~~ _]/=; lazy iota; first by apply: sim_ok.
rewrite (rb_eq _ (vloadE _ Hom)); apply: sim_step => C _.
rewrite (rb_eq _ (vloadE _ Hoo)); apply: sim_step => d _.
rewrite (sm_get _ _ Hr) Hr bOk.
apply: sim_step => y _; apply: sim_step => e1 _; apply: sim_step => e _.
apply: sim_step => ee _; apply: sim_step => Ct _.
rewrite (sc_get _ _ Hr).
apply: sim_step => c1 _; apply: sim_step => c2 _; apply: sim_step => y' _.
by apply: sim_iadd => // r1; apply: sim_ok.
Qed.

Lemma em_oo_sim omv om : vread h0 omv = Ok om ->
  sim h0 (em_observation_offset_h x s T k omv h0) (em_observation_offset zs ss om)
    (fresh_view h0).
Proof.
move=> Hom; rewrite /em_observation_offset_h /em_observation_offset -{2}[h0]cats0.
rewrite (rb_eq _ (alloc_cat _ _ _)).
apply: (sim_bind (@for_count_sim R _ h0 one _ _ _ (zeros1 k, 0%N) _)); last first.
  by move=> [a i] h' j [-> ->]; exact: one_end.
move=> t [a i]; rewrite mem_iota => /andP[_ Ht].
have [z Hz] := getidx_some Ht; have [r Hr] := ss_some Ht.
rewrite (rb_eq _ (obs_atE Hx HX _ Hz)) [projT2 _]/= Hz bOk.
case: (missing z); rewrite [~~ _]/=; lazy iota; first by apply: sim_ok.
rewrite (rb_eq _ (vloadE _ Hom)); apply: sim_step => C _.
rewrite (sm_get _ _ Hr) Hr bOk.
apply: sim_step => y _; apply: sim_step => e _.
by apply: sim_iadd => // r1; apply: sim_ok.
Qed.

Lemma em_tm_sim tov to : vread h0 tov = Ok to ->
  sim h0 (em_transition_matrix_h s pwa T n tov h0) (em_transition_matrix n ss pw to) (fresh_view h0).
Proof.
move=> Hto; rewrite /em_transition_matrix_h /em_transition_matrix -{2}[h0]cats0.
do 2 rewrite (rb_eq _ (alloc_cat _ _ _)).
rewrite Hsz.
apply: (sim_bind (@for_in_sim R _ h0 two _ _ _ (zeros2 n n, zeros2 n n) _)); last first.
  by move=> [a1 a2] h' [] ->; exact: (two_end (a1, a2)).
move=> [|t] a; first by rewrite mem_iota.
rewrite mem_iota add1n ltnS => /andP[_ Ht].
have HtT : (t.+1 < T)%N by move: Ht; rewrite /T; case: (size zs).
have [pt Hpt] : exists pt, getidx pw t.+1 = Ok pt by apply: getidx_some; rewrite Hpsz.
have [r Hr] := ss_some HtT; have [r' Hr'] := ss_some (ltnW HtT).
rewrite (rb_eq _ (vloadE _ Hto)); apply: sim_step => b _.
rewrite (rb_getp _ _ Hpw Hpt) (sm_get _ _ Hr) (sm_get _ _ Hr') Hpt Hr Hr' !bOk.
apply: sim_step => x1 _; apply: sim_step => x2 _; apply: sim_step => x3 _; apply: sim_step => x4 _.
apply: sim_iadd => // r1.
rewrite (sc_get _ _ Hr').
apply: sim_step => y1 _; apply: sim_step => y2 _; apply: sim_iadd_end => // r2.
by apply: sim_ok.
Qed.

Lemma em_tc_sim tmv tm tov to : vread h0 tmv = Ok tm -> vread h0 tov = Ok to ->
  sim h0 (em_transition_covariance_h s pwa T n tmv tov h0)
    (em_transition_covariance n ss pw tm to) (fresh_view h0).
Proof.
move=> Htm Hto; rewrite /em_transition_covariance_h /em_transition_covariance -{2}[h0]cats0.
rewrite (rb_eq _ (alloc_cat _ _ _)) Hsz.
apply: (sim_bind (@for_in_sim R _ h0 one _ _ _ (zeros2 n n) _)); last first.
  by move=> a h' [] ->; exact: one_end.
move=> t a; rewrite mem_iota add0n => /andP[_ Ht].
have HtT : (t.+1 < T)%N by move: Ht; rewrite /T; case: (size zs).
have [pt Hpt] : exists pt, getidx pw t.+1 = Ok pt by apply: getidx_some; rewrite Hpsz.
have [r' Hr'] := ss_some HtT; have [r Hr] := ss_some (ltnW HtT).
rewrite (rb_eq _ (vloadE _ Htm)); apply: sim_step => A _.
rewrite (rb_eq _ (vloadE _ Hto)); apply: sim_step => b _.
rewrite (sm_get _ _ Hr) (sm_get _ _ Hr') Hr Hr' !bOk.
apply: sim_step => y _; apply: sim_step => e1 _; apply: sim_step => e _.
rewrite (rb_getp _ _ Hpw Hpt) Hpt bOk.
apply: sim_step => At _; apply: sim_step => V _; apply: sim_step => ee _.
rewrite (sc_get _ _ Hr).
apply: sim_step => c1 _; apply: sim_step => c2 _; apply: sim_step => x1 _.
rewrite (sc_get _ _ Hr').
apply: sim_step => x2 _; apply: sim_step => x3 _; apply: sim_step => Vt _; apply: sim_step => x4 _.
case E: (iadd a x4) => [w|e0].
- by rewrite (@iadd_atE R h0 (one a) 0 a x4 w erefl E); apply: sim_ok.
- by rewrite (@iadd_at_err R h0 (one a) 0 a x4 e0 erefl E); eexists.
Qed.

Lemma em_to_sim tmv tm : vread h0 tmv = Ok tm ->
  sim h0 (em_transition_offset_h s T n tmv h0) (em_transition_offset n ss tm) (fresh_view h0).
Proof.
move=> Htm; rewrite /em_transition_offset_h /em_transition_offset -{2}[h0]cats0.
rewrite (rb_eq _ (alloc_cat _ _ _)) Hsz.
apply: (sim_bind (@for_in_sim R _ h0 one _ _ _ (zeros1 n) _)); last first.
  move=> a h' [] ->; rewrite -/T; case: (1 < T)%N.
    rewrite (@rb_load R _ _ _ _ _ a) //.
    by have [h2 [w [-> Hw]]] := new_arrE h0 (one a) (scal (1 / (T.-1)%:R) a); apply: sim_ok.
  by have [h2 [w [-> Hw]]] := new_arrE h0 (one a) (zeros1 n); apply: sim_ok.
move=> [|t] a; first by rewrite mem_iota.
rewrite mem_iota add1n ltnS => /andP[_ Ht].
have HtT : (t.+1 < T)%N by move: Ht; rewrite /T; case: (size zs).
have [r Hr] := ss_some HtT; have [r' Hr'] := ss_some (ltnW HtT).
rewrite (rb_eq _ (vloadE _ Htm)); apply: sim_step => A _.
rewrite (sm_get _ _ Hr) (sm_get _ _ Hr') Hr Hr' !bOk.
apply: sim_step => y _; apply: sim_step => e _.
case E: (iadd a e) => [w|e0].
- by rewrite (@iadd_atE R h0 (one a) 0 a e w erefl E); apply: sim_ok.
- by rewrite (@iadd_at_err R h0 (one a) 0 a e e0 erefl E); eexists.
Qed.

(** a reference that shows the value, to a buffer not below [lo], in memory extending [h0] *)
Definition some_view (lo : nat) (a : arr) (h' : heap) (v : view) : Prop :=
  [/\ vread h' v = Ok a, (lo <= v_addr v)%N & exists tl, h' = h0 ++ tl].

Lemma em_im_sim lo : (lo <= b_sm s)%N ->
  sim h0 (em_initial_state_mean_h s h0) (em_initial_state_mean ss) (some_view lo).
Proof.
move=> Hlo.
rewrite /em_initial_state_mean_h /em_initial_state_mean.
case E: (getidx ss 0) => [r|e].
  rewrite bOk -{2}[h0]cats0 (sm_get _ _ E); apply: sim_ok; split=> //; last by eexists.
  by rewrite cats0 /vread /= Hsm bOk getidx_map E.
exists [::]; rewrite cats0; apply: rb_err.
by rewrite /get_row /rbind /load Hsm /rlift getidx_map E.
Qed.

Lemma em_ic_sim imv im : vread h0 imv = Ok im -> (0 < T)%N ->
  sim h0 (em_initial_state_covariance_h s imv h0) (em_initial_state_covariance ss im) (fresh_view h0).
Proof.
move=> Him HT; have [r Hr] := ss_some HT.
rewrite /em_initial_state_covariance_h /em_initial_state_covariance -{2}[h0]cats0.
rewrite (rb_eq _ (vloadE _ Him)) (sm_get _ _ Hr) (sc_get _ _ Hr) Hr bOk.
apply: sim_step => o1 _; apply: sim_step => x00 _; apply: sim_step => o2 _; apply: sim_step => y1 _.
apply: sim_step => o3 _; apply: sim_step => y2 _; apply: sim_step => o4 _; apply: sim_step_last => v _.
by have [h2 [w [-> Hw]]] := new_arrE h0 [::] v; apply: sim_ok.
Qed.
End EM.

Section Body.
Variable R : rcfType.
Notation arr := (arr R).
Notation heap := (heap R).

Lemma fresh_some (h0 : heap) lo a h' v : (lo <= size h0)%N -> fresh_view h0 a h' v -> some_view h0 lo a h' v.
Proof. by move=> Hlo [? H ?]; split=> //; exact: leq_trans H. Qed.

(** the two dictionaries have the same names and the references show the values *)
Definition greads (h : heap) (g : seq (string * view)) (g' : given_t R) : Prop :=
  forall name, match dget g name, dget g' name with
               | Some v, Some a => vread h v = Ok a
               | None, None => True
               | _, _ => False
               end.
Lemma greads_cat h tl g g' : greads h g g' -> greads (h ++ tl) g g'.
Proof. by move=> H nm; have := H nm; do 2 case: dget => //; move=> ? ? /vread_cat. Qed.

Lemma given_sim (h0 tl : heap) lo g g' name (P : prog R view) F :
  greads h0 g g' -> sim (h0 ++ tl) (P (h0 ++ tl)) F (some_view (h0 ++ tl) lo) ->
  sim h0 (given_or_h g name P (h0 ++ tl)) (given_or g' name F)
    (fun a h' v => exists tl', [/\ h' = h0 ++ tl ++ tl', vread h' v = Ok a &
       match dget g name with None => (lo <= v_addr v)%N | Some w => v = w end]).
Proof.
move=> Hg HP; rewrite /given_or_h /given_or; have := Hg name.
case: (dget g name) => [v|]; case: (dget g' name) => [a|] //.
- move=> Hv; apply: sim_ok; exists [::]; split=> //; first by rewrite cats0.
  exact: vread_cat.
- move=> _; apply: sim_weak HP _ => w h b [H1 Hlo [tl' H2]]; exists tl'; split=> //.
  by rewrite H2 -catA.
Qed.

Variables (h0 : heap) (x : nat) (X : obs R) (k n : nat) (zs : seq (orow R k)).
Variables (s : sbufs) (pwa : nat) (ss : seq (srow R)) (pw : seq arr).
Hypothesis Hx : getidx h0 x = Ok (CObs X).
Hypothesis HX : parse_observations X = existT _ k zs.
Hypothesis Hsm : getidx h0 (b_sm s) = Ok (CRows (map (@s_m R) ss)).
Hypothesis Hsc : getidx h0 (b_sc s) = Ok (CRows (map (@s_c R) ss)).
Hypothesis Hpw : getidx h0 pwa = Ok (CRows pw).
Hypothesis Hsz : size ss = size zs.
Hypothesis Hpsz : size pw = size zs.
Hypothesis Hpos : (0 < size zs)%N.

(** every parameter is the one given or a new array *)
Definition given_or_new lo (g : seq (string * view)) (p : hparams) : Prop :=
  let ok name v := match dget g name with None => (lo <= v_addr v)%N | Some w => v = w end in
  [/\ [/\ ok "transition_matrices" (q_tm p), ok "transition_offsets" (q_to p),
          ok "transition_covariance" (q_tc p) & ok "observation_matrices" (q_om p)] &
      [/\ ok "observation_offsets" (q_oo p), ok "observation_covariance" (q_oc p),
          ok "initial_state_mean" (q_im p) & ok "initial_state_covariance" (q_ic p)]]%string.

Lemma em_body_sim lo tov to oov oo g g' : vread h0 tov = Ok to -> vread h0 oov = Ok oo ->
  greads h0 g g' -> (lo <= size h0)%N -> (lo <= b_sm s)%N ->
  sim h0 (em_body_h x s pwa (size zs) n k tov oov g h0) (em_ n zs ss pw to oo g')
    (fun q h' p => [/\ reads h' p q, given_or_new lo g p & exists tl, h' = h0 ++ tl]).
Proof.
move=> Hto Hoo Hg Hlo Hlo'; rewrite /em_body_h /em_ -{2}[h0]cats0.
have Hx' tl := getidx_catl tl Hx; have Hsm' tl := getidx_catl tl Hsm.
have Hsc' tl := getidx_catl tl Hsc; have Hpw' tl := getidx_catl tl Hpw.
have Hto' tl := vread_cat tl Hto; have Hoo' tl := vread_cat tl Hoo.
have fs tl y F : sim (h0 ++ tl) y F (fresh_view (h0 ++ tl)) -> sim (h0 ++ tl) y F (some_view (h0 ++ tl) lo).
  move=> H; apply: sim_post H _ => w h1 b; apply: fresh_some.
  by rewrite size_cat; apply: leq_trans Hlo _; exact: leq_addr.
have up v (a : arr) tl tl' : vread (h0 ++ tl) v = Ok a -> vread (h0 ++ tl ++ tl') v = Ok a.
  by move=> H; rewrite catA; exact: vread_cat.
apply: sim_bind (given_sim _ Hg (fs _ _ _ (em_om_sim _ (Hx' _) HX (Hsm' _) (Hsc' _) Hsz (Hoo' _)))) _.
move=> v_om h_om w_om [tl_om [-> Hom Lom]].
apply: sim_bind (given_sim _ Hg (fs _ _ _ (em_oc_sim (Hx' _) HX (Hsm' _) (Hsc' _) Hsz (Hoo' _) Hom))) _.
move=> v_oc h_oc w_oc [tl_oc [-> Hoc Loc]].
have {}Hom := up _ _ _ tl_oc Hom.
apply: sim_bind (given_sim _ Hg (fs _ _ _ (em_tm_sim _ (Hsm' _) (Hsc' _) (Hpw' _) Hsz Hpsz (Hto' _)))) _.
move=> v_tm h_tm w_tm [tl_tm [-> Htm Ltm]].
have {}Hom := up _ _ _ tl_tm Hom.
have {}Hoc := up _ _ _ tl_tm Hoc.
apply: sim_bind (given_sim _ Hg (fs _ _ _ (em_tc_sim _ (Hsm' _) (Hsc' _) (Hpw' _) Hsz Hpsz Htm (Hto' _)))) _.
move=> v_tc h_tc w_tc [tl_tc [-> Htc Ltc]].
have {}Hom := up _ _ _ tl_tc Hom.
have {}Hoc := up _ _ _ tl_tc Hoc.
have {}Htm := up _ _ _ tl_tc Htm.
apply: sim_bind (given_sim _ Hg (em_im_sim (Hsm' _) Hlo')) _.
move=> v_im h_im w_im [tl_im [-> Him Lim]].
have {}Hom := up _ _ _ tl_im Hom.
have {}Hoc := up _ _ _ tl_im Hoc.
have {}Htm := up _ _ _ tl_im Htm.
have {}Htc := up _ _ _ tl_im Htc.
apply: sim_bind (given_sim _ Hg (fs _ _ _ (em_ic_sim (Hsm' _) (Hsc' _) Hsz Him Hpos))) _.
move=> v_ic h_ic w_ic [tl_ic [-> Hic Lic]].
have {}Hom := up _ _ _ tl_ic Hom.
have {}Hoc := up _ _ _ tl_ic Hoc.
have {}Htm := up _ _ _ tl_ic Htm.
have {}Htc := up _ _ _ tl_ic Htc.
have {}Him := up _ _ _ tl_ic Him.
apply: sim_bind (given_sim _ Hg (fs _ _ _ (em_to_sim _ (Hsm' _) Hsz Htm))) _.
move=> v_to h_to w_to [tl_to [-> Hto2 Lto]].
have {}Hom := up _ _ _ tl_to Hom.
have {}Hoc := up _ _ _ tl_to Hoc.
have {}Htm := up _ _ _ tl_to Htm.
have {}Htc := up _ _ _ tl_to Htc.
have {}Him := up _ _ _ tl_to Him.
have {}Hic := up _ _ _ tl_to Hic.
apply: sim_bind (given_sim _ Hg (fs _ _ _ (em_oo_sim (Hx' _) HX (Hsm' _) Hsz Hom))) _.
move=> v_oo h_oo w_oo [tl_oo [-> Hoo2 Loo]].
have {}Hom := up _ _ _ tl_oo Hom.
have {}Hoc := up _ _ _ tl_oo Hoc.
have {}Htm := up _ _ _ tl_oo Htm.
have {}Htc := up _ _ _ tl_oo Htc.
have {}Him := up _ _ _ tl_oo Him.
have {}Hic := up _ _ _ tl_oo Hic.
have {}Hto2 := up _ _ _ tl_oo Hto2.
by apply: sim_ok; split; last (by eexists); split; split.
Qed.
End Body.
