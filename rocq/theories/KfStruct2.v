(** More structural facts: time-varying parameters, constructor, filter_update. *)
From Coq Require Import String List.
From mathcomp Require Import all_ssreflect all_algebra.
From Verif Require Import Prelude LinAlg Numpy NumpyFacts Sklearn SklearnFacts Standard Model KfSpec StandardInit StandardFacts KfStruct.
Import GRing.Theory Num.Theory.

Set Implicit Arguments.
Unset Strict Implicit.
Unset Printing Implicit Defensive.
Local Open Scope ring_scope.

(** ** dependence on the parameter stacks *)
Section TimeVarying.
Variable R : rcfType.

(** [X] and [X'] give the same slices at the times [t < L] *)
Definition same_slices (nd L : nat) (X X' : arr R) : Prop :=
  forall t, (t < L)%N -> last_dims X t nd = last_dims X' t nd.

Record same_params (T : nat) (p p' : kfparams R) : Prop := SameParams {
  sp_tm : same_slices 2 T.-1 (p_tm p) (p_tm p');
  sp_to : same_slices 1 T.-1 (p_to p) (p_to p');
  sp_tc : same_slices 2 T.-1 (p_tc p) (p_tc p');
  sp_om : same_slices 2 T (p_om p) (p_om p');
  sp_oo : same_slices 1 T (p_oo p) (p_oo p');
  sp_oc : same_slices 2 T (p_oc p) (p_oc p');
  sp_im : p_im p = p_im p';
  sp_ic : p_ic p = p_ic p'
}.

Variables (T : nat) (p p' : kfparams R).
Hypothesis H : same_params T p p'.

Lemma filter_step_same n k t prev (z : orow R k) : (t < T)%N ->
  (prev = None <-> t = 0%N) ->
  filter_step p n t prev z = filter_step p' n t prev z.
Proof.
move=> tT Hprev; rewrite /filter_step (sp_om H tT) (sp_oo H tT) (sp_oc H tT) (sp_im H) (sp_ic H).
case: prev Hprev => [r|] Hprev //.
case: t tT Hprev => [|t] tT [Hp Hp']; first by have := Hp' erefl.
have tT' : (t < T.-1)%N by rewrite -ltnS prednK //; apply: leq_ltn_trans tT.
by rewrite (sp_tm H tT') (sp_to H tT') (sp_tc H tT').
Qed.
Lemma filter_loop_same n k t prev (zs : seq (orow R k)) : (t + size zs <= T)%N ->
  (prev = None <-> t = 0%N) ->
  filter_loop p n t prev zs = filter_loop p' n t prev zs.
Proof.
elim: zs t prev => [|z zs IH] t prev //= Hs Hprev.
rewrite filter_step_same //; last by apply: leq_trans Hs; rewrite addnS ltnS leq_addr.
by apply: bind_ext => r; rewrite IH // addSnnS.
Qed.
Lemma filter_same k (zs : seq (orow R k)) : size zs = T -> filter_ p zs = filter_ p' zs.
Proof.
move=> Hs; rewrite /filter_ (sp_im H); apply: bind_ext => n.
by apply: filter_loop_same; rewrite ?add0n ?Hs.
Qed.
Lemma smooth_loop_same n t rows : (t + size rows <= T)%N ->
  smooth_loop (p_tm p) n t rows = smooth_loop (p_tm p') n t rows.
Proof.
elim: rows t => [|r [|r' rows] IH] t //= Hs.
rewrite -/(smooth_loop (p_tm p) n t.+1 (r' :: rows)) -/(smooth_loop (p_tm p') n t.+1 (r' :: rows)).
rewrite IH /= ?addSnnS //; apply: bind_ext => -[[|s ss] gs] //.
have tT' : (t < T.-1)%N.
  rewrite -ltnS prednK; last by apply: leq_trans Hs; rewrite addnS.
  by apply: leq_trans Hs; rewrite !addnS !ltnS leq_addr.
by rewrite (sp_tm H tT').
Qed.
Lemma smooth_same n rows : size rows = T ->
  smooth_ (p_tm p) n rows = smooth_ (p_tm p') n rows.
Proof. by move=> Hs; apply: smooth_loop_same; rewrite add0n Hs. Qed.
End TimeVarying.

Section Stacked.
Variable R : rcfType.

Lemma stacked2_same L (a a' : option (arr R)) d : stacked2 L a a' ->
  same_slices 2 L (array2d (odflt d a)) (array2d (odflt d a')).
Proof.
case=> [-> //|[X [m [n [M [k [-> HX -> Lk]]]]]]] t tL /=.
have -> : array2d X = A2 M by rewrite -HX; case: X {HX}.
rewrite /last_dims /= (getidx_nth 0) ?size_nseq; last exact: leq_trans Lk.
by rewrite /= nth_nseq (leq_trans tL Lk).
Qed.
Lemma stacked1_same L (a a' : option (arr R)) d : stacked1 L a a' ->
  same_slices 1 L (array1d (odflt d a)) (array1d (odflt d a')).
Proof.
case=> [-> //|[X [n [v [k [-> HX -> Lk]]]]]] t tL /=.
have -> : array1d X = A1 v by rewrite -HX; case: X {HX}.
rewrite /last_dims /=.
have tk : (t < k)%N by exact: leq_trans Lk.
rewrite insubT; congr (Ok (A1 _)); apply/matrixP=> i j; by rewrite !mxE (ord1 j).
Qed.

Variables (T : nat) (o o' : kf R).
Hypothesis H : stacked T o o'.
Hypothesis Hrs : seed_ok (k_rs o).

Lemma stacked_params : same_params T (init_value o) (init_value o').
Proof.
case: H => Htm Hto Htc Hom Hoo Hoc Him Hic Hrs' Hn Hm; split; rewrite /init_value; cbn [p_tm p_to p_tc p_om p_oo p_oc p_im p_ic].
- by rewrite Hn; exact: stacked2_same.
- by rewrite Hn; exact: stacked1_same.
- by rewrite Hn; exact: stacked2_same.
- by rewrite Hn Hm; exact: stacked2_same.
- by rewrite Hm; exact: stacked1_same.
- by rewrite Hm; exact: stacked2_same.
- by rewrite Hn Him.
- by rewrite Hn Hic.
Qed.

Variables (k : nat) (zs : seq (orow R k)).
Hypotheses (Hs : size zs = T) (Hk : keeps zs).

Lemma stacked_filter : kf_filter o' (O2 k zs) = kf_filter o (O2 k zs).
Proof.
rewrite /kf_filter /filter_with (parse_keep Hk) !initialize_parametersE ?(st_rs H) //.
rewrite /bind.
by rewrite (filter_same stacked_params Hs).
Qed.
Lemma stacked_smooth : kf_smooth o' (O2 k zs) = kf_smooth o (O2 k zs).
Proof.
rewrite /kf_smooth /smooth_with (parse_keep Hk) !initialize_parametersE ?(st_rs H) //.
rewrite /bind.
rewrite (filter_same stacked_params Hs) -(sp_im stacked_params).
case E: (filter_ _ zs) => [rows|] //=.
have Hr : size rows = T.
  by move: E; rewrite /filter_; case: (np_len _) => //= ns /filter_loop_size ->.
case: (np_len _) => //= ns.
by rewrite (smooth_same stacked_params).
Qed.
End Stacked.

(** ** constructor *)
Section Ctor.
Variable R : rcfType.

Lemma shape_m2E (X : arr R) : shape_m2 (array2d X) = Ok (spec_rows X).
Proof. by case: X. Qed.
Lemma shape_m1E (X : arr R) : shape_m1 (array2d X) = Ok (spec_cols X).
Proof. by case: X. Qed.
Lemma shape_m1E' (X : arr R) : shape_m1 (array1d X) = Ok (spec_len X).
Proof. by case: X. Qed.

Definition dd_pick (cs : seq nat) : res nat :=
  match cs with [::] => Ok 1%N | c :: _ => if all (eq_op^~ c) cs then Ok c else Err ValueError end.

Lemma dd_spec (vars : seq (option (arr R) * (arr R -> res nat))) (g : seq (arr R -> nat)) d :
  size g = size vars ->
  (forall i v, (i < size vars)%N -> (nth (None, fun _ => Ok 0%N) vars i).2 v = Ok (nth (fun=> 0%N) g i v)) ->
  determine_dimensionality vars d =
  dd_pick (claims (rcons [seq omap x.2 x.1.1 | x <- zip vars g] d)).
Proof.
rewrite /determine_dimensionality => Hs Hf.
have -> : dd_candidates vars = Ok (claims [seq omap x.2 x.1.1 | x <- zip vars g]).
  elim: vars g Hs Hf => [|[[v|] f] vars IH] [|h g] //= [Hs] Hf.
    have /= -> := Hf 0%N v erefl.
    rewrite (IH g) //= => i w Hi; exact: (Hf i.+1 w).
  by rewrite (IH g) //= => i w Hi; exact: (Hf i.+1 w).
rewrite /= -cats1 /claims pmap_cat /dd_pick.
by case: d.
Qed.

Lemma agree_dec cs : 
  (exists2 d, agreed cs d & dd_pick cs = Ok d)
  \/ (forall d, ~ agreed cs d) /\ dd_pick cs = Err ValueError.
Proof.
case: cs => [|c cs]; first by left; exists 1%N.
rewrite /dd_pick; case: ifP => Ha.
  left; exists c => //; split=> // x xin; apply/eqP; exact: (allP Ha).
right; split=> // d [Hd _]; move/negP: Ha; apply; apply/allP => x xin.
by rewrite (Hd _ xin) (Hd c) ?eqxx // mem_head.
Qed.

Lemma kf_init_spec (a : kfargs R) :
  (exists o, [/\ kf_init a = Ok o, agreed (state_claims a) (k_n o) & agreed (obs_claims a) (k_m o)]) \/
  (((forall d, ~ agreed (state_claims a) d) \/ (forall d, ~ agreed (obs_claims a) d)) /\
    kf_init a = Err ValueError).
Proof.
rewrite /kf_init.
rewrite (dd_spec (g := [:: @spec_rows R; @spec_len R; @spec_rows R; @spec_len R; @spec_rows R; @spec_cols R])); first last.
- by case=> [|[|[|[|[|[|i]]]]]] v //= _; rewrite ?shape_m2E ?shape_m1E ?shape_m1E'.
- by [].
rewrite (dd_spec (g := [:: @spec_rows R; @spec_len R; @spec_rows R])); first last.
- by case=> [|[|[|i]]] v //= _; rewrite ?shape_m2E ?shape_m1E ?shape_m1E'.
- by [].
have -> : forall A B (k : nat -> nat -> res (kf R)), A = state_claims a -> B = obs_claims a ->
   (n <-- dd_pick A ;; m <-- dd_pick B ;; k n m) = (n <-- dd_pick (state_claims a) ;; m <-- dd_pick (obs_claims a) ;; k n m) by move=> ? ? ? -> ->.
case: (agree_dec (state_claims a)) => [[d1 H1 ->]|[H1 ->]]; last by right; split=> //; left.
case: (agree_dec (obs_claims a)) => [[d2 H2 ->]|[H2 ->]]; last by right; split=> //; right.
- by left; eexists; split.
- by [].
- by [].
Qed.

Lemma agreed_uniq cs d d' : agreed cs d -> agreed cs d' -> d = d'.
Proof.
case=> H1 H2 [H3 H4]; case: cs H1 H2 H3 H4 => [|c cs] H1 H2 H3 H4; first by rewrite H2 // H4.
by rewrite -(H1 c) ?mem_head // -(H3 c) ?mem_head.
Qed.

Lemma kf_init_iff (a : kfargs R) n m :
  (exists o, [/\ kf_init a = Ok o, k_n o = n & k_m o = m]) <->
  agreed (state_claims a) n /\ agreed (obs_claims a) m.
Proof.
case: (kf_init_spec a) => [[o [-> H1 H2]]|[H ->]]; split.
- by case=> _ [[<-] <- <-].
- case=> H3 H4; exists o; split=> //; [exact: agreed_uniq H3|exact: agreed_uniq H4].
- by case=> ? [].
- by case=> H3 H4; case: H => H5; [case: (H5 n)|case: (H5 m)].
Qed.
Lemma kf_init_error (a : kfargs R) :
  (forall n m, ~ (agreed (state_claims a) n /\ agreed (obs_claims a) m)) -> kf_init a = Err ValueError.
Proof.
by case: (kf_init_spec a) => [[o [_ H1 H2]] H|[]] //; case: (H (k_n o) (k_m o)).
Qed.
(** the attributes are the arguments *)
Lemma kf_init_attrs (a : kfargs R) o : kf_init a = Ok o ->
  [/\ (k_tm o, k_om o, k_tc o, k_oc o) = (a_tm a, a_om a, a_tc a, a_oc a),
      (k_to o, k_oo o, k_im o, k_ic o) = (a_to a, a_oo a, a_im a, a_ic a),
      (k_rs o, k_em o) = (a_rs a, a_em a) &
      k_em_ o = odflt (EmNames default_em_vars) (a_em a)].
Proof.
rewrite /kf_init; case: (determine_dimensionality _ _) => //= n.
by case: (determine_dimensionality _ _) => //= m [<-]; split=> //=; case: (a_em a).
Qed.
End Ctor.

(** ** filter_update argument handling *)
Section Update.
Variable R : rcfType.

Lemma update_time_varying (o : kf R) fm fc z tm to tc om oo oc :
  seed_ok (k_rs o) ->
  let p := init_value o in
  [|| too_big to (p_to p) 1, too_big oo (p_oo p) 1, too_big tm (p_tm p) 2,
      too_big om (p_om p) 2, too_big tc (p_tc p) 2 | too_big oc (p_oc p) 2] ->
  kf_filter_update o fm fc z tm to tc om oo oc = Err ValueError.
Proof.
move=> Hs p; rewrite /kf_filter_update (initialize_parametersE Hs) -/p /bind /arg_or_default.
have tb arg d dim : too_big arg d dim -> (dim < ndim (if arg is Some a then a else d))%N by case: arg.
case: ifP => // c1; case: ifP => // c2; case: ifP => // c3.
case: ifP => // c4; case: ifP => // c5; case: ifP => // c6.
by case/or3P=> [/tb|/tb|/or4P[] /tb]; rewrite ?c1 ?c2 ?c3 ?c4 ?c5 ?c6.
Qed.

(** with all six arguments given, the object's own values do not matter *)
Lemma update_explicit (o o' : kf R) fm fc z tm to tc om oo oc :
  seed_ok (k_rs o) -> seed_ok (k_rs o') ->
  kf_filter_update o fm fc z (Some tm) (Some to) (Some tc) (Some om) (Some oo) (Some oc) =
  kf_filter_update o' fm fc z (Some tm) (Some to) (Some tc) (Some om) (Some oo) (Some oc).
Proof. by move=> H H'; rewrite /kf_filter_update (initialize_parametersE H) (initialize_parametersE H'). Qed.

Lemma update_precedence (o : kf R) fm fc z tm to tc om oo oc :
  seed_ok (k_rs o) ->
  nd_ok 2 tm -> nd_ok 1 to -> nd_ok 2 tc -> nd_ok 2 om -> nd_ok 1 oo -> nd_ok 2 oc ->
  kf_filter_update o fm fc z tm to tc om oo oc =
  kf_filter_update (with_args o tm to tc om oo oc) fm fc z None None None None None None.
Proof.
move=> Hs H1 H2 H3 H4 H5 H6.
rewrite /kf_filter_update (initialize_parametersE Hs).
rewrite (initialize_parametersE (o := with_args _ _ _ _ _ _ _)) // /bind /init_value.
cbn [p_tm p_to p_tc p_om p_oo p_oc k_tm k_to k_tc k_om k_oo k_oc k_n k_m with_args].
have e2 (x y : option (arr R)) d : nd_ok 2 x -> arg_or_default x (array2d (odflt d y)) 2 = arg_or_default None (array2d (odflt d (override x y))) 2.
  by case: x => [[]|].
have e1 (x y : option (arr R)) d : nd_ok 1 x -> arg_or_default x (array1d (odflt d y)) 1 = arg_or_default None (array1d (odflt d (override x y))) 1.
  by case: x => [[]|].
by rewrite (e1 to) // (e1 oo) // (e2 tm) // (e2 om) // (e2 tc) // (e2 oc).
Qed.
End Update.

(** ** parsing *)
Section Parse.
Variable R : rcfType.
Lemma scalar_entries (x : R * bool) : row_entries (scalar_row x) = [:: x].
Proof. by rewrite /row_entries enum_ordSl enum_ord0 /= !mxE; case: x. Qed.
Lemma transpose_entries k (r : orow R k) :
  flatten [seq row_entries x | x <- transpose_row r] = row_entries r.
Proof.
rewrite /transpose_row {2}/row_entries -map_comp.
by elim: (enum 'I_k) => [|i s IH] //=; rewrite scalar_entries /= IH.
Qed.
Lemma row_of_seq_entries (s : seq (R * bool)) : row_entries (row_of_seq s) = s.
Proof.
rewrite /row_entries -[RHS](mkseq_nth (0, false)) /mkseq -val_enum_ord -[RHS]map_comp.
by apply: eq_map => i /=; rewrite !mxE; case: (nth _ _ _).
Qed.

Lemma parse_entries (X : obs R) : entries (as_obs (parse_observations X)) = entries X.
Proof.
case: X => [x b|s|k rows] /=.
- by rewrite scalar_entries.
- case: ifP => _ /=; first by rewrite transpose_entries row_of_seq_entries.
  by rewrite row_of_seq_entries cats0.
- case: rows => [|r [|r' rows]] //=; case: ifP => _ //=.
  by rewrite transpose_entries cats0.
Qed.
Lemma parse_idem (X : obs R) : parse_observations (as_obs (parse_observations X)) = parse_observations X.
Proof.
case: X => [x b|s|k rows] //=.
- case: ifP => H /=; last by rewrite H.
  by case: (transpose_row _) => [|? []].
- case: rows => [|r [|r' rows]] //=; case: ifP => H //=; last by rewrite H.
  by case: (transpose_row _) => [|? []].
Qed.
Lemma parse_long (k : nat) (rows : seq (orow R k)) : (1 < size rows)%N ->
  parse_observations (O2 k rows) = existT _ k rows.
Proof. by case: rows => [|r [|r' rows]]. Qed.
End Parse.
