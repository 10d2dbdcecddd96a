(** Structural facts about em: which attributes change, composition, failure. *)
From Coq Require Import String List.
From mathcomp Require Import all_ssreflect all_algebra.
From Verif Require Import Prelude Zmod LinAlg Numpy NumpyFacts Sklearn SklearnFacts Standard Model KfSpec StandardInit StandardFacts.
Import GRing.Theory Num.Theory Order.Theory.

Set Implicit Arguments.
Unset Strict Implicit.
Unset Printing Implicit Defensive.
Local Open Scope ring_scope.

Section Em.
Variable R : rcfType.

Lemma initial_valueE (o : kf R) x : initial_value o x = field (init_value o) x.
Proof.
have e2 a : as_mat a = @array2d R a by case: a.
have e1 a : as_vec a = @array1d R a by case: a.
by case: x; rewrite /initial_value /init_value /= ?e1 ?e2.
Qed.

Lemma has_In (s : string) l : has (String.eqb s) l <-> In s l.
Proof.
elim: l => //= a l IH; split.
- case/orP => [/String.eqb_eq ->|/IH]; by [left|right].
- by case=> [->|/IH ->]; rewrite ?String.eqb_refl ?orbT.
Qed.
Lemma str_has_char_name s x : str_has_char s (name_of x) = false.
Proof.
elim: s => [|c s IH] //; rewrite [str_has_char _ _]/= IH orbF.
by case: x {IH}; case: String.eqb_spec.
Qed.

(** what the dictionary of fixed parameters says about each name *)
Lemma dget_filter T (P : string -> bool) (l : seq (string * T)) k :
  dget [seq kv <- l | P kv.1] k = if P k then dget l k else None.
Proof.
elim: l => [|[k' v] l IH] /=; first by case: ifP.
case Pk': (P k'); rewrite ?[dget (_ :: _) _]/= IH; case: String.eqb_spec => [->|_] //; by rewrite Pk'.
Qed.
Lemma given_field (p : kfparams R) e x :
  dget (mk_given p e) (name_of x) =
  if em_is_all e || em_mem e (name_of x) then None else Some (field p x).
Proof.
rewrite /mk_given; case: (em_is_all e) => [//|].
rewrite (dget_filter (fun k => ~~ em_mem e k)) orFb if_neg.
by have -> : dget (given_all p) (name_of x) = Some (field p x) by case: x.
Qed.
Lemma not_selected e x : ~ selects e x -> em_is_all e || em_mem e (name_of x) = false.
Proof.
case: e => [l|s] /= H; first by apply/negP => /has_In.
rewrite str_has_char_name orbF; apply/negP => /String.eqb_eq E; exact: H.
Qed.
Lemma is_selected e x : selects e x -> em_is_all e || em_mem e (name_of x) = true.
Proof. by case: e => [l|s] /=; [move=> /has_In|move=> ->]. Qed.

Ltac ok := match goal with
  | |- bind ?c _ = Ok _ -> _ => let E := fresh "E" in case E: c => [?|?] //=
  | |- (if ?c then _ else _) = Ok _ -> _ => case: c => //=
  end.

Lemma given_or_some g nm c a v : given_or g nm c = Ok a -> dget g nm = Some v -> a = v :> arr R.
Proof. by rewrite /given_or => E H; move: E; rewrite H; case. Qed.
Lemma em_given n k (zs : seq (orow R k)) ss pw to oo g p' x v :
  em_ n zs ss pw to oo g = Ok p' -> dget g (name_of x) = Some v -> field p' x = v.
Proof.
rewrite /em_; do 8 ok; case=> <-.
case: x => H; [exact: given_or_some E1 H|exact: given_or_some E5 H|exact: given_or_some E2 H|exact: given_or_some E H
  |exact: given_or_some E6 H|exact: given_or_some E0 H|exact: given_or_some E3 H|exact: given_or_some E4 H].
Qed.

Lemma em_iter_given flt k (zs : seq (orow R k)) g p p' x v :
  em_iter flt zs g p = Ok p' -> dget g (name_of x) = Some v -> field p' x = v.
Proof.
rewrite /em_iter; case: (flt p k zs) => //= rows; case: (np_len _) => //= n.
by case: (smooth_ _ _ _) => //= -[ss gs]; case: (smooth_pair _ _ _) => //= pw; exact: em_given.
Qed.

Lemma em_loop_given flt k (zs : seq (orow R k)) g i p x :
  (forall v, dget g (name_of x) = Some v -> field p x = v) ->
  forall v, dget g (name_of x) = Some v -> field (em_loop flt zs g i p).1 x = v.
Proof.
elim: i p => [|i IH] p //= Hp; case E: (em_iter flt zs g p) => [p'|] //=.
by apply: IH => v; exact: em_iter_given E.
Qed.

Lemma attribute_set (o : kf R) p x : attribute (set_params o p) x = Some (field p x).
Proof. by case: x. Qed.

(** ** C19 *)
Lemma em_only_selected flt e (o : kf R) X i x : seed_ok (k_rs o) -> ~ selects e x ->
  attribute (em_with flt (Some e) o X i).1 x = Some (initial_value o x).
Proof.
move=> Hs Hx; rewrite /em_with; case: (parse_observations X) => k zs.
rewrite (initialize_parametersE Hs); set p := init_value o.
case E: (em_loop flt zs (mk_given p e) i p) => [p' r] /=.
rewrite attribute_set initial_valueE -/p; congr Some.
have := @em_loop_given flt k zs (mk_given p e) i p x; rewrite E /=; apply.
  by move=> v; rewrite given_field not_selected // => -[].
by rewrite given_field not_selected.
Qed.

Lemma em_other flt ev (o : kf R) X i : let o' := (em_with flt ev o X i).1 in
  [/\ k_n o' = k_n o, k_m o' = k_m o, k_em o' = k_em o, k_em_ o' = k_em_ o & k_rs o' = k_rs o].
Proof.
rewrite /em_with; case: (parse_observations X) => k zs.
case: (initialize_parameters o) => [p|] //=; case: ev => [e|] //=.
by case: (em_loop _ _ _ _ _).
Qed.

Lemma given_or_ext g g' x c : dget g (name_of x) = dget g' (name_of x) ->
  given_or g (name_of x) c = @given_or R g' (name_of x) c.
Proof. by rewrite /given_or => ->. Qed.

Lemma em_ext n k (zs : seq (orow R k)) ss pw to oo g g' :
  (forall x, dget g (name_of x) = dget g' (name_of x)) ->
  em_ n zs ss pw to oo g = em_ n zs ss pw to oo g'.
Proof.
move=> H; rewrite /em_ (given_or_ext _ (H Om')); apply: bind_ext => ?.
rewrite (given_or_ext _ (H Oc)); apply: bind_ext => ?.
rewrite (given_or_ext _ (H Tm)); apply: bind_ext => ?.
rewrite (given_or_ext _ (H Tc)); apply: bind_ext => ?.
rewrite (given_or_ext _ (H Ism)); apply: bind_ext => ?.
rewrite (given_or_ext _ (H Isc)); apply: bind_ext => ?.
rewrite (given_or_ext _ (H To)); apply: bind_ext => ?.
by rewrite (given_or_ext _ (H Oo)).
Qed.
Lemma em_loop_ext flt k (zs : seq (orow R k)) g g' i p :
  (forall x, dget g (name_of x) = dget g' (name_of x)) ->
  em_loop flt zs g i p = em_loop flt zs g' i p.
Proof.
move=> H; elim: i p => [|i IH] p //=.
have -> : em_iter flt zs g p = em_iter flt zs g' p.
  by rewrite /em_iter; do 2 (apply: bind_ext => ?); apply: bind_ext => -[? ?]; apply: bind_ext => ?; exact: em_ext.
by case: (em_iter _ _ _ _).
Qed.

(** only the set of requested names matters *)
Lemma em_same_selection flt e e' (o : kf R) X i : (forall x, selects e x <-> selects e' x) ->
  em_with flt (Some e) o X i = em_with flt (Some e') o X i.
Proof.
move=> H; rewrite /em_with; case: (parse_observations X) => k zs.
case: (initialize_parameters o) => //= p; rewrite (@em_loop_ext _ _ _ _ (mk_given p e')) // => x.
rewrite !given_field.
have D : selects e x \/ ~ selects e x.
  case: {H} e => [l|s] /=.
    have [H1 H2] := has_In (name_of x) l; case E: (has (String.eqb (name_of x)) l); first by left; exact: H1.
    by right=> /H2; rewrite E.
  by case: (String.eqb_spec s "all"); [left|right].
case: D => D; first by rewrite (is_selected D) (is_selected ((H x).1 D)).
by rewrite (not_selected D) (@not_selected e' x) // => /H.
Qed.

(** ** C24 *)
Lemma em_loop_fail flt k (zs : seq (orow R k)) g N p p' e :
  em_loop flt zs g N p = (p', Err e) ->
  exists i, [/\ (i < N)%N, em_loop flt zs g i p = (p', Ok tt) & em_loop flt zs g i.+1 p = (p', Err e)].
Proof.
elim: N p => [|N IH] p //=.
case E: (em_iter flt zs g p) => [q|x]; last first.
  by case=> <- <-; exists 0%N; split.
by move=> /IH[i [iN H1 H2]]; exists i.+1; split=> //=; rewrite E.
Qed.

Lemma em_fail flt e (o : kf R) X N o' x : seed_ok (k_rs o) ->
  em_with flt (Some e) o X N = (o', Err x) ->
  exists i, [/\ (i < N)%N, em_with flt (Some e) o X i = (o', Ok tt) & em_with flt (Some e) o X i.+1 = (o', Err x)].
Proof.
move=> Hs; rewrite /em_with; case: (parse_observations X) => k zs.
rewrite (initialize_parametersE Hs); set p := init_value o.
case E: (em_loop flt zs (mk_given p e) N p) => [p' r] [<- Hr]; rewrite Hr in E.
have [i [iN H1 H2]] := em_loop_fail E; exists i; split=> //; first by rewrite H1.
by rewrite H2.
Qed.

Lemma pp_fail V (conv : seq (string * (V -> res V))) l1 l2 k v c e result :
  dget conv k = Some c -> c v = Err e -> dget result k = None -> ~ In k (keys l1) ->
  exists e', pp_argset conv (l1 ++ (k, Some v) :: l2) result = Err e'.
Proof.
move=> Hc Hv; elim: l1 result => [|[k' v'] l1 IH] result Hr Hk.
  by rewrite /= Hc /dhas Hr Hv; exists e.
have Hk' : k <> k' by move=> E; apply: Hk; left.
have Hk1 : ~ In k (keys l1) by move=> E; apply: Hk; right.
rewrite /=; case: (dget conv k') => [c'|]; last by exists ValueError.
case: v' Hk => [v'|] Hk; last exact: IH.
case: (dhas result k'); first exact: IH.
case: (c' v') => [w|e'] /=; last by exists e'.
apply: IH => //; rewrite dget_rcons Hr.
by case: String.eqb_spec.
Qed.

Lemma em_init_fail flt ev (o : kf R) X N : ~ seed_ok (k_rs o) -> exists e, em_with flt ev o X N = (o, Err e).
Proof.
move=> Hs; rewrite /em_with; case: (parse_observations X) => k zs.
have [r Er [e He]] : exists2 r, k_rs o = Some r & exists e, check_random_state (Some r) = Err e.
  move: Hs; case: (k_rs o) => [[|z|j|]|] //= Hs.
    by exists (RsSeed z) => //=; case: ifP Hs => // _ _; exists ValueError.
  by exists RsOther => //; exists AttributeError.
have [e' H] : exists e', initialize_parameters o = Err e'.
  rewrite /initialize_parameters /preprocess_arguments /pp_argsets.
  have [||||e' E] := @pp_fail _ (kf_converters R) (take 8 (get_params o)) (drop 9 (get_params o))
    "random_state"%string (PRs R r) (@conv_rs R) e [::] => //.
  - by rewrite /conv_rs He.
  - by move=> /=; intuition discriminate.
  have G : get_params o = take 8 (get_params o) ++ ("random_state"%string, Some (PRs R r)) :: drop 9 (get_params o).
    by rewrite /get_params Er.
  by exists e'; rewrite {1}G E.
by exists e'; rewrite H.
Qed.

(** ** C20 *)
(** results of an M-step have the right number of dimensions *)
Definition is1 (a : arr R) : Prop := exists n (v : 'cV[R]_n), a = A1 v.
Definition is2 (a : arr R) : Prop := exists m n (M : 'M[R]_(m, n)), a = A2 M.
Definition promoted (p : kfparams R) : Prop :=
  [/\ array2d (p_tm p) = p_tm p, array1d (p_to p) = p_to p, array2d (p_tc p) = p_tc p & array2d (p_om p) = p_om p] /\
  [/\ array1d (p_oo p) = p_oo p, array2d (p_oc p) = p_oc p, array1d (p_im p) = p_im p & array2d (p_ic p) = p_ic p].

Lemma init_promoted o : promoted (init_value o).
Proof.
have e2 (a : arr R) : array2d (array2d a) = array2d a by case: a.
have e1 (a : arr R) : array1d (array1d a) = array1d a by case: a.
by split; split; rewrite /init_value /= ?e1 ?e2.
Qed.
Lemma init_set o p : promoted p -> init_value (set_params o p) = p.
Proof.
case: p => tm to tc om oo oc im ic [[/= H1 H2 H3 H4] [H5 H6 H7 H8]].
by rewrite /init_value /= H1 H2 H3 H4 H5 H6 H7 H8.
Qed.

Lemma is2_array a : is2 a -> array2d a = a. Proof. by case=> m [n [M ->]]. Qed.
Lemma is1_array a : is1 a -> array1d a = a. Proof. by case=> n [M ->]. Qed.
Lemma shape_is2 (a b : arr R) : is2 a -> shape b = shape a -> is2 b.
Proof. by case=> m [n [M ->]]; case: b => //= p q N _; exists p, q, N. Qed.
Lemma shape_is1 (a b : arr R) : is1 a -> shape b = shape a -> is1 b.
Proof. by case=> n [M ->]; case: b => //= p N _; exists p, N. Qed.
Lemma iadd_shape (a b c : arr R) : iadd a b = Ok c -> shape c = shape a.
Proof. by rewrite /iadd; case: (add a b) => //= r; case: eqP => //= <- [->]. Qed.
Lemma iadd_is2 (a b c : arr R) : iadd a b = Ok c -> is2 a -> is2 c.
Proof. by move=> /iadd_shape H /shape_is2; apply. Qed.
Lemma iadd_is1 (a b c : arr R) : iadd a b = Ok c -> is1 a -> is1 c.
Proof. by move=> /iadd_shape H /shape_is1; apply. Qed.
Lemma bop_is2 op (a b c : arr R) : bop op a b = Ok c -> is2 a -> is2 b -> is2 c.
Proof.
move=> H [m [n [M E]]] [p [q [N E']]]; move: H; rewrite {}E {}E' /= /bop2.
by case: (bdim m p) => // r; case: (bdim n q) => // s [<-]; do 3 eexists.
Qed.
Lemma outer_is2 (a b c : arr R) : outer a b = Ok c -> is2 c.
Proof. by case: a => // n u; case: b => // m v [<-]; do 3 eexists. Qed.
Lemma pinv_is2 (a b : arr R) : np_pinv a = Ok b -> is2 b.
Proof. by case: a => // m n M [<-]; do 3 eexists. Qed.
Lemma dot_is2 (a b c : arr R) : dot a b = Ok c -> is2 a -> is2 b -> is2 c.
Proof.
move=> H [m [n [M E]]] [p [q [N E']]]; move: H; rewrite {}E {}E' /dot /=.
by case: (mulr_dyn _ _) => // r [<-]; do 3 eexists.
Qed.
Lemma scal_is2 c (a : arr R) : is2 a -> is2 (scal c a).
Proof. by case=> m [n [M ->]]; do 3 eexists. Qed.
Lemma scal_is1 c (a : arr R) : is1 a -> is1 (scal c a).
Proof. by case=> n [M ->]; do 2 eexists. Qed.
Lemma assign1_is1 n (a b : arr R) : assign1 n a = Ok b -> is1 b.
Proof.
case: a => [x|p v|p q M|p q s] //=.
- by case=> <-; do 2 eexists.
- by rewrite /assign1; case: ifP => _; [|case: ifP => // _]; case=> <-; do 2 eexists.
- by rewrite /assign1; case: ifP => // _ [<-]; do 2 eexists.
Qed.
Lemma assign2_mx_is2 m n p q (M : 'M[R]_(p, q)) b : assign2_mx m n M = Ok b -> is2 b.
Proof. by rewrite /assign2_mx; case: ifP => _; [|case: ifP => // _]; case=> <-; do 3 eexists. Qed.
Lemma assign2_is2 m n (a b : arr R) : assign2 m n a = Ok b -> is2 b.
Proof.
case: a => [x|p v|p q M|p q s]; rewrite /assign2.
- by case=> <-; do 3 eexists.
- exact: assign2_mx_is2.
- exact: assign2_mx_is2.
- by case: s => [|M []] // ; exact: assign2_mx_is2.
Qed.

Lemma foldr_inv T U (P : U -> Prop) (f : U -> T -> res U) acc s r :
  foldr_res f acc s = Ok r -> P acc -> (forall a x b, f a x = Ok b -> P a -> P b) -> P r.
Proof.
move=> H Pa Hf; elim: s acc H Pa => [|x s IH] acc /=; first by case=> <-.
by case E: (f acc x) => [b|] //= /IH H Pa; apply: H; exact: Hf E Pa.
Qed.

Definition frow_ok (r : frow R) := is1 (f_fm r) /\ is2 (f_fc r).
Definition flt_ok (flt : filter_fun R) : Prop :=
  forall p k (zs : seq (orow R k)) rows, flt p k zs = Ok rows -> List.Forall frow_ok rows.

Lemma filter_step_shape p n k t prev (z : orow R k) r : filter_step p n t prev z = Ok r -> frow_ok r.
Proof.
rewrite /filter_step; case: (X in bind X _) => //= -[pm pc]; do 3 ok; case: (filter_correct _ _ _ _ _ _ _) => //= -[[K m] c].
do 3 ok; case=> <-; split; [exact: assign1_is1 E3|exact: assign2_is2 E4].
Qed.
Lemma filter_flt_ok : flt_ok (@filter_ R).
Proof.
move=> p k zs rows; rewrite /filter_; case: (np_len _) => //= n.
move: 0%N None; elim: zs rows => [|z zs IH] rows t prev /=; first by case=> <-.
case E: (filter_step _ _ _ _ _) => [r|] //=; case E2: (filter_loop _ _ _ _ _) => [rs|] //= [<-].
by constructor; [exact: filter_step_shape E|exact: IH E2].
Qed.

Definition srow_ok (s : srow R) := is1 (s_m s) /\ is2 (s_c s).
Lemma smooth_shape tm n t rows ss gs : smooth_loop tm n t rows = Ok (ss, gs) ->
  List.Forall frow_ok rows -> List.Forall srow_ok ss.
Proof.
elim: rows t ss gs => [|r [|r' rows] IH] t ss gs //.
  by case=> <- _ H; inversion H; subst; constructor.
rewrite [smooth_loop _ _ _ _]/= -/(smooth_loop tm n t.+1 (r' :: rows)).
case E: (smooth_loop tm n t.+1 (r' :: rows)) => [[ss' gs']|] //=.
case: ss' E => [|s' ss'] E //; ok; case: (smooth_update _ _ _ _ _ _ _) => //= -[[m c] L].
do 3 ok; case=> <- _ H; inversion H; subst; constructor; last exact: IH E _.
by split; [exact: assign1_is1 E1|exact: assign2_is2 E2].
Qed.

Section MStep.
Variables (n k : nat) (zs : seq (orow R k)) (ss : seq (srow R)) (pw : seq (arr R)).
Hypothesis Hss : List.Forall srow_ok ss.

Lemma get_srow t s : getidx ss t = Ok s -> srow_ok s.
Proof.
rewrite /getidx; case E: (List.nth_error ss t) => [s'|] // [<-].
by move/List.Forall_forall: Hss; apply; exact: List.nth_error_In E.
Qed.
Lemma zeros2_is2 a b : is2 (zeros2 a b). Proof. by do 3 eexists. Qed.
Lemma zeros1_is1 a : is1 (zeros1 a). Proof. by do 2 eexists. Qed.

Lemma em_om_shape oo a : em_observation_matrix n zs ss oo = Ok a -> is2 a.
Proof.
rewrite /em_observation_matrix; case E: (foldr_res _ _ _) => [[r1 r2]|] //=; ok => H.
apply: (dot_is2 H); last exact: pinv_is2 E0.
have := foldr_inv (P := fun u => is2 u.1) E; apply; first exact: zeros2_is2.
move=> [a1 a2] t [b1 b2] /=; ok; ok; last by case=> <- _.
do 8 ok; case=> <- _ ?; eapply iadd_is2; eassumption.
Qed.
Lemma em_oc_shape oo om a : em_observation_covariance zs ss oo om = Ok a -> is2 a.
Proof.
rewrite /em_observation_covariance; case E: (foldr_res _ _ _) => [[r c]|] //= [<-].
have H : is2 r.
  have := foldr_inv (P := fun u => is2 u.1) E; apply; first exact: zeros2_is2.
  move=> [a1 a2] t [b1 b2] /=; ok; ok; last by case=> <- _.
  do 12 ok; case=> <- _ ?; eapply iadd_is2; eassumption.
by case: ifP => _ //; exact: scal_is2.
Qed.
Lemma em_tm_shape to a : em_transition_matrix n ss pw to = Ok a -> is2 a.
Proof.
rewrite /em_transition_matrix; case E: (foldr_res _ _ _) => [[r1 r2]|] //=; ok => H.
apply: (dot_is2 H); last exact: pinv_is2 E0.
have := foldr_inv (P := fun u => is2 u.1) E; apply; first exact: zeros2_is2.
move=> [a1 a2] t [b1 b2] /=; do 12 ok; case=> <- _ ?; eapply iadd_is2; eassumption.
Qed.
Lemma em_tc_shape tm to a : em_transition_covariance n ss pw tm to = Ok a -> is2 a.
Proof.
rewrite /em_transition_covariance; case E: (foldr_res _ _ _) => [r|] //= [<-].
have H : is2 r.
  have := foldr_inv (P := is2) E; apply; first exact: zeros2_is2.
  move=> a1 t b1 /=; do 18 ok; exact: iadd_is2.
by case: ifP => _ //; exact: scal_is2.
Qed.
Lemma em_im_shape a : em_initial_state_mean ss = Ok a -> is1 a.
Proof. by rewrite /em_initial_state_mean; ok; case=> <-; case: (get_srow E). Qed.
Lemma em_ic_shape im a : em_initial_state_covariance ss im = Ok a -> is2 a.
Proof.
rewrite /em_initial_state_covariance; do 8 ok; move=> H.
have [_ H2] := get_srow E.
have := bop_is2 E1 H2 (outer_is2 E0) => H3.
have := bop_is2 E3 H3 (outer_is2 E2) => H4.
have := bop_is2 E5 H4 (outer_is2 E4) => H5.
exact: bop_is2 H H5 (outer_is2 E6).
Qed.
Lemma em_to_shape tm a : em_transition_offset n ss tm = Ok a -> is1 a.
Proof.
rewrite /em_transition_offset; case E: (foldr_res _ _ _) => [r|] //= [<-].
have H : is1 r.
  have := foldr_inv (P := is1) E; apply; first exact: zeros1_is1.
  move=> a1 t b1 /=; do 5 ok; exact: iadd_is1.
by case: ifP => _ //; [exact: scal_is1|exact: zeros1_is1].
Qed.
Lemma em_oo_shape om a : em_observation_offset zs ss om = Ok a -> is1 a.
Proof.
rewrite /em_observation_offset; case E: (foldr_res _ _ _) => [[r c]|] //= [<-].
have H : is1 r.
  have := foldr_inv (P := fun u => is1 u.1) E; apply; first exact: zeros1_is1.
  move=> [a1 a2] t [b1 b2] /=; ok; ok; last by case=> <- _.
  do 5 ok; case=> <- _ ?; eapply iadd_is1; eassumption.
by case: ifP => _ //; exact: scal_is1.
Qed.

Lemma given_or_prom g x c a (f : arr R -> arr R) :
  given_or g (name_of x) c = Ok a -> (forall v, dget g (name_of x) = Some v -> f v = v) ->
  (forall v, c = Ok v -> f v = v) -> f a = a.
Proof. by rewrite /given_or; case: (dget g _) => [v [->] H _|H _ H2]; [exact: H|exact: H2]. Qed.

Definition conv_of (x : pname) : arr R -> arr R :=
  match x with To | Oo | Ism => @array1d R | _ => @array2d R end.

Lemma em_promoted to oo g p' : (forall x v, dget g (name_of x) = Some v -> conv_of x v = v) ->
  em_ n zs ss pw to oo g = Ok p' -> promoted p'.
Proof.
move=> Hg; rewrite /em_; do 8 ok; case=> <-; split; split=> /=.
- by apply: (given_or_prom (x := Tm) E1 (Hg Tm)) => v /em_tm_shape/is2_array.
- by apply: (given_or_prom (x := To) E5 (Hg To)) => v /em_to_shape/is1_array.
- by apply: (given_or_prom (x := Tc) E2 (Hg Tc)) => v /em_tc_shape/is2_array.
- by apply: (given_or_prom (x := Om') E (Hg Om')) => v /em_om_shape/is2_array.
- by apply: (given_or_prom (x := Oo) E6 (Hg Oo)) => v /em_oo_shape/is1_array.
- by apply: (given_or_prom (x := Oc) E0 (Hg Oc)) => v /em_oc_shape/is2_array.
- by apply: (given_or_prom (x := Ism) E3 (Hg Ism)) => v /em_im_shape/is1_array.
- by apply: (given_or_prom (x := Isc) E4 (Hg Isc)) => v /em_ic_shape/is2_array.
Qed.
End MStep.

Lemma promoted_conv p x : promoted p -> conv_of x (field p x) = field p x.
Proof. by case=> [[? ? ? ?] [? ? ? ?]]; case: x. Qed.

Lemma em_iter_promoted flt k (zs : seq (orow R k)) p0 e p p' : flt_ok flt -> promoted p0 ->
  em_iter flt zs (mk_given p0 e) p = Ok p' -> promoted p'.
Proof.
move=> Hf H0; rewrite /em_iter; case E: (flt p k zs) => [rows|] //=; ok.
case E1: (smooth_ _ _ _) => [[ss gs]|] //=; ok => H.
apply: em_promoted H; first exact: smooth_shape E1 (Hf _ _ _ _ E).
by move=> x v; rewrite given_field; case: ifP => // _ [<-]; exact: promoted_conv.
Qed.

Lemma em_loop_add flt k (zs : seq (orow R k)) g a b p p1 :
  em_loop flt zs g a p = (p1, Ok tt) -> em_loop flt zs g (a + b) p = em_loop flt zs g b p1.
Proof.
elim: a p => [|a IH] p /=; first by case=> <-.
by case: (em_iter flt zs g p) => // p' /IH.
Qed.
Lemma em_loop_stuck flt k (zs : seq (orow R k)) g a b p p1 e :
  em_loop flt zs g a p = (p1, Err e) -> em_loop flt zs g (a + b) p = (p1, Err e).
Proof.
elim: a p => [|a IH] p //=.
by case: (em_iter flt zs g p) => // p' /IH.
Qed.
Lemma em_loop_promoted flt k (zs : seq (orow R k)) p0 e a p : flt_ok flt -> promoted p0 -> promoted p ->
  promoted (em_loop flt zs (mk_given p0 e) a p).1.
Proof.
move=> Hf H0; elim: a p => [|a IH] p Hp //=; case E: (em_iter _ _ _ _) => [p'|] //=.
by apply: IH; exact: em_iter_promoted E.
Qed.

Lemma em_compose flt e (o : kf R) X a b o1 : flt_ok flt -> seed_ok (k_rs o) ->
  em_with flt (Some e) o X a = (o1, Ok tt) ->
  em_with flt (Some e) o1 X b = em_with flt (Some e) o X (a + b).
Proof.
move=> Hf Hs; rewrite /em_with; case: (parse_observations X) => k zs.
rewrite (initialize_parametersE Hs); set p := init_value o.
case E: (em_loop flt zs (mk_given p e) a p) => [p1 r] [<- Hr]; rewrite {}Hr in E.
rewrite (em_loop_add _ E) initialize_parametersE //.
have Hp1 : promoted p1.
  have := em_loop_promoted zs e a Hf (init_promoted o) (init_promoted o).
  by rewrite -/p E.
rewrite init_set // (@em_loop_ext _ _ _ (mk_given p1 e) (mk_given p e)).
  by case: (em_loop _ _ _ _ _).
move=> x; rewrite !given_field; case: ifP => // Hx; congr Some.
have := @em_loop_given flt k zs (mk_given p e) a p x; rewrite E /=; apply.
  by move=> v; rewrite given_field Hx => -[].
by rewrite given_field Hx.
Qed.
Lemma em_stuck flt e (o : kf R) X a b o1 x : seed_ok (k_rs o) ->
  em_with flt (Some e) o X a = (o1, Err x) -> em_with flt (Some e) o X (a + b) = (o1, Err x).
Proof.
move=> Hs; rewrite /em_with; case: (parse_observations X) => k zs.
rewrite (initialize_parametersE Hs); set p := init_value o.
case E: (em_loop flt zs (mk_given p e) a p) => [p1 r] [<- Hr]; rewrite {}Hr in E.
by rewrite (em_loop_stuck _ E).
Qed.
Lemma em_zero flt e (o : kf R) X : seed_ok (k_rs o) ->
  (em_with flt (Some e) o X 0).2 = Ok tt /\
  forall x, attribute (em_with flt (Some e) o X 0).1 x = Some (initial_value o x).
Proof.
move=> Hs; rewrite /em_with; case: (parse_observations X) => k zs.
rewrite (initialize_parametersE Hs) /=; split=> // x.
by rewrite attribute_set initial_valueE.
Qed.
End Em.
