(** Functions that work in place: proofs for C65. *)
From Coq Require Import String List.
From mathcomp Require Import all_ssreflect all_algebra.
From mathcomp Require Import ring.
From Verif Require Import Prelude Zmod LinAlg Numpy NumpyFacts Sklearn Standard Model StandardInit Rng Unscented
  UscSpec UscFacts UscRefine UscLoop UscInit UscProps InPlace InPlaceSpec.
Import GRing.Theory Num.Theory Order.Theory.

Set Implicit Arguments.
Unset Strict Implicit.
Unset Printing Implicit Defensive.
Local Open Scope ring_scope.

Section Facts.
Variable R : rcfType.
Notation arr := (arr R).

Lemma bindA A B C (x : res A) (f : A -> res B) (g : B -> res C) :
  bind (bind x f) g = bind x (fun a => bind (f a) g).
Proof. by case: x. Qed.
Lemma mapr_fst X A B (h : X -> res (A * B)) l :
  mapr (fun x => r <-- h x ;; Ok r.1) l = (rs <-- mapr h l ;; Ok (map fst rs)).
Proof.
elim: l => [//|x l IH]; rewrite !mapr_cons IH !bindA; apply: bind_ext => r.
by rewrite [LHS]/= !bindA; apply: bind_ext => rs.
Qed.

(** the transform depends on the returned values only *)
Lemma transform_value (pts : sigma_points R) f pn N :
  unscented_transform pts (Some (value_of f)) pn N = ('(pp, ms, _) <-- transform_ip pts f pn N ;; Ok (pp, ms)).
Proof.
rewrite /unscented_transform /transform_ip !bindA; apply: bind_ext => k.
have E : mapr (fun i => x <-- idx0 (sp_points pts) i ;;
           match pn with None => value_of f [:: x] | Some pn => w <-- idx0 (sp_points pn) i ;; value_of f [:: x; w] end) (iota 0 k) =
    (rs <-- mapr (fun i => x <-- idx0 (sp_points pts) i ;;
           match pn with None => f [:: x] | Some pn => w <-- idx0 (sp_points pn) i ;; f [:: x; w] end) (iota 0 k) ;; Ok (map fst rs)).
  rewrite -mapr_fst; apply: mapr_ext => i _; rewrite bindA; apply: bind_ext => x.
  by case: pn => [pn|//]; rewrite bindA.
rewrite E !bindA; apply: bind_ext => rs; rewrite [LHS]/= !bindA; apply: bind_ext => pred.
by rewrite !bindA; apply: bind_ext => ms.
Qed.

Lemma overwrite_same (pts : arr) k l : shape0 pts = Ok k -> size l = k ->
  (forall i, (i < k)%N -> idx0 pts i = Ok (nth (A0 0) l i)) -> overwrite pts l = pts.
Proof.
case: pts => // m n M [<-] Hs H; congr A2; apply/matrixP=> i j; rewrite mxE.
have := H i (ltn_ord i); rewrite idx02 => [] [<-].
by rewrite (mgetE _ j ord0) !mxE.
Qed.

Lemma mapr_nth X Y (h : X -> res Y) l rs x0 y0 i : mapr h l = Ok rs -> (i < size l)%N -> h (nth x0 l i) = Ok (nth y0 rs i).
Proof.
elim: l rs i => [//|x l IH] rs i; rewrite mapr_cons.
case E: (h x) => [y|//]; rewrite bO; case E2: (mapr h l) => [ys|//]; rewrite bO => [] [<-].
by case: i => [|i] //=; rewrite ltnS; exact: IH.
Qed.
(** nothing is overwritten by a quiet function *)
Lemma transform_quiet (pts : sigma_points R) f pn N pp ms pts' : quiet f -> transform_ip pts f pn N = Ok (pp, ms, pts') -> pts' = pts.
Proof.
move=> Hf; rewrite /transform_ip; case Es: (shape0 _) => [k|//]; rewrite bO.
set h := (X in mapr X); case E: (mapr h _) => [l|//]; rewrite bO.
case: (vstack _) => [pred|//]; rewrite bO; case: (points2moments _ _) => [ms'|//]; rewrite bO => [] [_ _ <-].
rewrite (@overwrite_same _ k) ?size_map ?(mapr_ok_size E) ?size_iota //; first by case: (pts).
move=> i ik; rewrite (nth_map (A0 0, [::])) ?(mapr_ok_size E) ?size_iota //.
have := mapr_nth 0%N (A0 0, [::]) E (i := i); rewrite size_iota => /(_ ik); rewrite nth_iota // add0n /h.
case: (idx0 (sp_points pts) i) => [x|//]; rewrite bO; case: pn {E h} => [pn|].
  by case: (idx0 (sp_points pn) i) => [w|//]; rewrite bO => /Hf ->.
by move=> /Hf ->.
Qed.
Lemma transform_quietE (pts : sigma_points R) f pn N : quiet f ->
  transform_ip pts f pn N = ('(pp, ms) <-- unscented_transform pts (Some (value_of f)) pn N ;; Ok (pp, ms, pts)).
Proof.
move=> Hf; rewrite transform_value; case E: (transform_ip _ _ _ _) => [[[pp ms] pts']|//].
by rewrite (transform_quiet Hf E).
Qed.
Lemma correct_quiet (g : ipfun R) mp pp z po N : quiet g ->
  correct_ip g mp pp z po N = unscented_filter_correct (value_of g) mp pp z po N.
Proof.
move=> Hg; rewrite /correct_ip /unscented_filter_correct transform_quietE // bindA.
by apply: bind_ext => [] [opts om].
Qed.

(** function arrays *)
Lemma getidx_mapf X Y (f : X -> Y) s i : getidx (map f s) i = (x <-- getidx s i ;; Ok (f x)).
Proof. by elim: s i => [|x s IH] [|i] //=; exact: IH. Qed.
Lemma jvalues_1d (j : ipcont R) : farray1d (jvalues j) = jvalues (jarray1d j).
Proof. by case: j. Qed.
Lemma fun_at_jvalues (j : ipcont R) t : fun_at (jvalues j) t = (f <-- jat j t ;; Ok (value_of f)).
Proof.
case: j => [//|s|rows] /=; first exact: getidx_mapf.
rewrite getidx_mapf !bindA; apply: bind_ext => r /=; exact: getidx_mapf.
Qed.
Lemma getidx_In X (s : seq X) i x : getidx s i = Ok x -> In x s.
Proof.
elim: s i => [|y s IH] [|i] //; first by case=> ->; left.
by rewrite -[getidx _ _]/(getidx s i) => /IH; right.
Qed.
Lemma jat_quiet (j : ipcont R) t f : all_quiet j -> jat (jarray1d j) t = Ok f -> quiet f.
Proof.
case: j => [g|s|rows] /=; first by move=> Hg [<-].
  by move=> H E; apply: H; exact: getidx_In E.
move=> H; case E: (getidx rows t) => [r|//]; rewrite bO => E2; apply: H (getidx_In E) (getidx_In E2).
Qed.

#[local] Opaque points2moments moments2points transform_ip augmented_unscented_filter_points augmented_points2 correct_ip unscented_filter_correct.
Section Filters.
Variables (jf jg : ipcont R) (p : uparams R).
Hypotheses (Ef : u_f p = jvalues (jarray1d jf)) (Eg : u_g p = jvalues (jarray1d jg)) (Qg : all_quiet jg).

Lemma jcorrect t mp pp z po N :
  (g <-- jat (jarray1d jg) t ;; correct_ip g mp pp z po N) =
  (g <-- fun_at (u_g p) t ;; unscented_filter_correct g mp pp z po N).
Proof.
rewrite Eg fun_at_jvalues bindA; case E: (jat _ _) => [g|//]; rewrite ?bO.
by apply: correct_quiet; apply: jat_quiet E.
Qed.
Lemma add_step_value n t prev z : add_step_ip (jarray1d jf) (jarray1d jg) p n t prev z = add_step p n t prev z.
Proof.
rewrite /add_step_ip /add_step; case: (if prev is Some s then s else _) => mu sigma.
apply: bind_ext => ps.
have E2 (pp : sigma_points R) (mp : moments R) :
    (g <-- jat (jarray1d jg) t ;; '(m, c) <-- correct_ip g mp pp z None (Some (u_oc p)) ;;
     fm <-- assign1 n m ;; fc <-- assign2 n n c ;; Ok (fm, fc)) =
    (g <-- fun_at (u_g p) t ;; '(m, c) <-- unscented_filter_correct g mp pp z None (Some (u_oc p)) ;;
     fm <-- assign1 n m ;; fc <-- assign2 n n c ;; Ok (fm, fc)).
  by have := f_equal (fun r => '(m, c) <-- r ;; fm <-- assign1 n m ;; fc <-- assign2 n n c ;; Ok (fm, fc))
     (jcorrect t mp pp z None (Some (u_oc p))); rewrite !bindA.
case: prev => [s|]; last by case: (points2moments ps None) => [mp|//]; rewrite !bO; exact: (E2 ps mp).
rewrite Ef fun_at_jvalues; case: (jat _ _) => [f|//]; rewrite !bO /unscented_filter_predict transform_value.
case: (transform_ip _ _ _ _) => [[[pp mp] pts']|//]; rewrite !bO.
by case: (moments2points mp _ _ _) => [pp'|//]; rewrite !bO; exact: (E2 pp' mp).
Qed.
Lemma aug_step_value n t prev z : aug_step_ip (jarray1d jf) (jarray1d jg) p n t prev z = aug_step p n t prev z.
Proof.
rewrite /aug_step_ip /aug_step; case: (if prev is Some s then s else _) => mu sigma.
apply: bind_ext => [] [[ps pt] po].
have E2 (pp : sigma_points R) (mp : moments R) :
    (g <-- jat (jarray1d jg) t ;; '(m, c) <-- correct_ip g mp pp z (Some po) None ;;
     fm <-- assign1 n m ;; fc <-- assign2 n n c ;; Ok (fm, fc)) =
    (g <-- fun_at (u_g p) t ;; '(m, c) <-- unscented_filter_correct g mp pp z (Some po) None ;;
     fm <-- assign1 n m ;; fc <-- assign2 n n c ;; Ok (fm, fc)).
  by have := f_equal (fun r => '(m, c) <-- r ;; fm <-- assign1 n m ;; fc <-- assign2 n n c ;; Ok (fm, fc))
     (jcorrect t mp pp z (Some po) None); rewrite !bindA.
case: prev => [s|]; last by case: (points2moments ps None) => [mp|//]; rewrite !bO; exact: (E2 ps mp).
rewrite Ef fun_at_jvalues; case: (jat _ _) => [f|//]; rewrite !bO /unscented_filter_predict transform_value.
by case: (transform_ip _ _ _ _) => [[[pp mp] pts']|//]; rewrite !bO; exact: (E2 pp mp).
Qed.
Hypothesis Qf : all_quiet jf.
Lemma add_back_value n t f s : add_back_ip (jarray1d jf) p n t f s = add_back p n t f s.
Proof.
rewrite /add_back_ip /add_back; apply: bind_ext => ps; rewrite Ef fun_at_jvalues bindA.
case E: (jat _ _) => [h|//]; rewrite ?bO transform_quietE; last exact: jat_quiet E.
by case: (unscented_transform _ _ _ _) => [[pp mp]|].
Qed.
Lemma aug_back_value n t f s : aug_back_ip (jarray1d jf) p n t f s = aug_back p n t f s.
Proof.
rewrite /aug_back_ip /aug_back; apply: bind_ext => [] [ps pt]; rewrite Ef fun_at_jvalues bindA.
case E: (jat _ _) => [h|//]; rewrite ?bO transform_quietE; last exact: jat_quiet E.
by case: (unscented_transform _ _ _ _) => [[pp mp]|].
Qed.
End Filters.

Lemma uloop_ext2 (st st' : ustep R) p n k (zs : seq (orow R k)) :
  (forall t prev z, st p n t prev z = st' p n t prev z) ->
  forall t prev, ufilter_loop st p n t prev zs = ufilter_loop st' p n t prev zs.
Proof.
move=> H; elim: zs => [//|z zs IH] t prev; rewrite !uloop_cons H.
by case: (st' p _ _ _ _) => [r|//]; rewrite ?bO IH.
Qed.
Lemma usmooth_ext2 (bk bk' : uback R) p n :
  (forall t f s, bk p n t f s = bk' p n t f s) ->
  forall rows t, usmooth_loop bk p n t rows = usmooth_loop bk' p n t rows.
Proof.
move=> H; elim=> [//|r rows IH] t; case: rows IH => [//|r' rows] IH.
by rewrite -[LHS]/(bind (usmooth_loop bk p n t.+1 (r' :: rows)) _) IH; apply: bind_ext => ss; case: ss => [|s ss] //=; rewrite H.
Qed.

Section Class.
Variables (o : ukf R) (jf jg : ipcont R).
Hypotheses (Hs : seed_ok (o_rs o)) (Qg : all_quiet jg).
Lemma ip_params dflt : let p := uinit_value dflt (with_functions o jf jg) in
  [/\ uinitialize dflt (with_functions o jf jg) = Ok p, u_f p = jvalues (jarray1d jf) & u_g p = jvalues (jarray1d jg)].
Proof. by split; [exact: uinitializeE | rewrite -jvalues_1d | rewrite -jvalues_1d]. Qed.

Lemma filter_values X :
  aukf_filter_ip o jf jg X = aukf_filter (with_functions o jf jg) X /\
  ukf_filter_ip o jf jg X = ukf_filter (with_functions o jf jg) X.
Proof.
split; rewrite /aukf_filter_ip /ukf_filter_ip /ufilter_ip /aukf_filter /ukf_filter /ufilter_with.
- have [E Ef Eg] := ip_params (@add_default R); case: (parse_observations X) => k zs; rewrite E !bO /unscented_filter.
  by apply: bind_ext => n; apply: uloop_ext2 => t prev z; exact: add_step_value.
- have [E Ef Eg] := ip_params (@aug_default R); case: (parse_observations X) => k zs; rewrite E !bO /unscented_filter.
  by apply: bind_ext => n; apply: uloop_ext2 => t prev z; exact: aug_step_value.
Qed.
Lemma smooth_values X : all_quiet jf ->
  aukf_smooth_ip o jf jg X = aukf_smooth (with_functions o jf jg) X /\
  ukf_smooth_ip o jf jg X = ukf_smooth (with_functions o jf jg) X.
Proof.
move=> Qf; split; rewrite /aukf_smooth_ip /ukf_smooth_ip /aukf_smooth /ukf_smooth.
- have [E Ef Eg] := ip_params (@add_default R); rewrite E !bO (proj1 (filter_values X)).
  by apply: bind_ext => rows; apply: bind_ext => n; apply: usmooth_ext2 => t f s; exact: add_back_value.
- have [E Ef Eg] := ip_params (@aug_default R); case: (parse_observations X) => k zs; rewrite E !bO (proj2 (filter_values _)).
  by apply: bind_ext => rows; apply: bind_ext => n; apply: usmooth_ext2 => t f s; exact: aug_back_value.
Qed.
End Class.

Lemma update_values (o : ukf R) fm fc z f tc g oc : quiet g ->
  aukf_filter_update_ip o fm fc z f tc g oc = aukf_filter_update o fm fc z (Some (value_of f)) tc (Some (value_of g)) oc /\
  ukf_filter_update_ip o fm fc z f tc g oc = ukf_filter_update o fm fc z (Some (value_of f)) tc (Some (value_of g)) oc.
Proof.
move=> Qg; split; rewrite /aukf_filter_update_ip /ukf_filter_update_ip /aukf_filter_update /ukf_filter_update;
  apply: bind_ext => p; rewrite [in RHS]/default_function !bO; apply: bind_ext => Q; apply: bind_ext => Rc; apply: bind_ext => za.
- apply: bind_ext => ps; rewrite /unscented_filter_predict transform_value.
  case: (transform_ip _ _ _ _) => [[[pp mp] pts']|//]; rewrite !bO.
  by apply: bind_ext => pp'; exact: correct_quiet.
- apply: bind_ext => [] [[ps pt] po]; rewrite /unscented_filter_predict transform_value.
  by case: (transform_ip _ _ _ _) => [[[pp mp] pts']|//]; rewrite !bO; exact: correct_quiet.
Qed.
End Facts.
