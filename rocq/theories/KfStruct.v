(** Structural facts about KalmanFilter methods for arbitrary objects. *)
From Coq Require Import String List.
From mathcomp Require Import all_ssreflect all_algebra.
From Verif Require Import Prelude LinAlg Numpy NumpyFacts Sklearn SklearnFacts Standard Model KfSpec StandardInit StandardFacts.
Import GRing.Theory Num.Theory.

Set Implicit Arguments.
Unset Strict Implicit.
Unset Printing Implicit Defensive.
Local Open Scope ring_scope.

Section Causal.
Variable R : rcfType.
Variables (p : kfparams R) (k : nat).

Lemma filter_loop_take n t prev (zs : seq (orow R k)) rows j :
  filter_loop p n t prev zs = Ok rows ->
  filter_loop p n t prev (take j zs) = Ok (take j rows).
Proof.
elim: zs t prev rows j => [|z zs IH] t prev rows j /=.
  by case=> <-; case: j.
case E: (filter_step p n t prev z) => [r|] //=.
case E2: (filter_loop p n t.+1 (Some r) zs) => [rs|] //= [<-].
by case: j => [|j] //=; rewrite E /= (IH _ _ _ _ E2).
Qed.

Lemma filter_take (zs : seq (orow R k)) rows j :
  filter_ p zs = Ok rows -> filter_ p (take j zs) = Ok (take j rows).
Proof. by rewrite /filter_; case: (np_len _) => //= ns; exact: filter_loop_take. Qed.

Lemma filter_loop_size n t prev (zs : seq (orow R k)) rows :
  filter_loop p n t prev zs = Ok rows -> size rows = size zs.
Proof.
elim: zs t prev rows => [|z zs IH] t prev rows /=; first by case=> <-.
case E: (filter_step p n t prev z) => [r|] //=.
by case E2: (filter_loop p n t.+1 (Some r) zs) => [rs|] //= [<-] /=; rewrite (IH _ _ _ E2).
Qed.
End Causal.

Section CausalApi.
Variable R : rcfType.
Lemma kf_filter_take (o : kf R) k (zs : seq (orow R k)) rows j :
  keeps zs -> keeps (take j zs) ->
  kf_filter o (O2 k zs) = Ok rows -> kf_filter o (O2 k (take j zs)) = Ok (take j rows).
Proof.
move=> H1 H2; rewrite /kf_filter /filter_with !parse_keep //.
case: (initialize_parameters o) => //= p.
case E: (filter_ p zs) => [rs|] //= [<-].
by rewrite (filter_take j E) /= map_take.
Qed.
End CausalApi.

(** ** masked data *)
Section Mask.
Variable R : rcfType.

Lemma sv_missing k (r r' : orow R k) : same_visible r r' -> missing r = missing r'.
Proof. by case: r r' => a b [a' b'] [/= -> _]. Qed.

Lemma filter_correct_miss (C Rc d mu P z z' : arr R) :
  filter_correct C Rc d mu P z true = filter_correct C Rc d mu P z' true.
Proof. by []. Qed.

Lemma filter_step_sv p n k t prev (z z' : orow R k) : same_visible z z' ->
  filter_step p n t prev z = filter_step p n t prev z'.
Proof.
move=> H; rewrite /filter_step -(sv_missing H); case Hm: (missing z).
  by apply: bind_ext => -[pm pc]; do 3 (apply: bind_ext => ?); rewrite (filter_correct_miss _ _ _ _ _ _ (A1 z'.1)).
by have -> : z.1 = z'.1; [case: H => _ /(_ Hm)|exact: erefl].
Qed.
Lemma filter_loop_sv p n k t prev (zs zs' : seq (orow R k)) : same_visible_rows zs zs' ->
  filter_loop p n t prev zs = filter_loop p n t prev zs'.
Proof.
move=> H; elim: H t prev => [|z z' l l' Hz Hl IH] t prev //=.
rewrite (filter_step_sv _ _ _ _ Hz); apply: bind_ext => r.
by rewrite IH.
Qed.
Lemma filter_sv p k (zs zs' : seq (orow R k)) : same_visible_rows zs zs' -> filter_ p zs = filter_ p zs'.
Proof. by move=> H; rewrite /filter_; apply: bind_ext => n; exact: filter_loop_sv. Qed.

Lemma loglik_loop_sv ln l2 (p : kfparams R) k t rows (zs zs' : seq (orow R k)) : same_visible_rows zs zs' ->
  loglik_loop ln l2 p t rows zs = loglik_loop ln l2 p t rows zs'.
Proof.
move=> H; elim: H t rows => [|z z' l l' Hz Hl IH] t [|r rows] //=.
have -> : loglik_step ln l2 p t r z = loglik_step ln l2 p t r z'.
  rewrite /loglik_step -(sv_missing Hz); case Hm: (missing z); first exact: erefl.
  by have -> : z.1 = z'.1; [case: Hz => _ /(_ Hm)|exact: erefl].
by apply: bind_ext => x; rewrite IH.
Qed.

Lemma sv_size k (zs zs' : seq (orow R k)) : same_visible_rows zs zs' -> size zs = size zs'.
Proof. by elim=> //= ? ? ? ? _ _ ->. Qed.
Lemma sv_nth k (zs zs' : seq (orow R k)) t : same_visible_rows zs zs' ->
  match getidx zs t, getidx zs' t with
  | Ok z, Ok z' => same_visible z z'
  | Err e, Err e' => e = e'
  | _, _ => False
  end.
Proof.
rewrite /getidx => H; elim: H t => [|z z1 l l1 Hz Hl IH] t; first by case: t.
case: t => [|t]; [exact: Hz|exact: IH].
Qed.

Lemma foldr_res_ext (T U : Type) (f g : U -> T -> res U) acc s :
  (forall a x, f a x = g a x) -> foldr_res f acc s = foldr_res g acc s.
Proof. by move=> H; elim: s acc => [|x s IH] acc //=; rewrite H; apply: bind_ext. Qed.

Lemma sv_bind k (zs zs' : seq (orow R k)) t (U : Type) (f : orow R k -> res U) :
  same_visible_rows zs zs' -> (forall z z', same_visible z z' -> f z = f z') ->
  bind (getidx zs t) f = bind (getidx zs' t) f.
Proof.
move=> H Hf; move: (sv_nth t H); case: (getidx zs t) => [z|e]; case: (getidx zs' t) => [z'|e'] //=.
  by move=> /Hf.
by move=> ->.
Qed.

Lemma em_sv n k (zs zs' : seq (orow R k)) ss pw to oo g : same_visible_rows zs zs' ->
  em_ n zs ss pw to oo g = em_ n zs' ss pw to oo g.
Proof.
move=> H.
have E1 : em_observation_matrix n zs ss oo = em_observation_matrix n zs' ss oo.
  rewrite /em_observation_matrix -(sv_size H); congr bind.
  apply: foldr_res_ext => a t; apply: (sv_bind _ H) => z z' Hz; rewrite -(sv_missing Hz).
  by case Hm: (missing z) => //=; case: Hz => _ /(_ Hm) ->.
have E2 om : em_observation_covariance zs ss oo om = em_observation_covariance zs' ss oo om.
  rewrite /em_observation_covariance -(sv_size H); congr bind.
  apply: foldr_res_ext => a t; apply: (sv_bind _ H) => z z' Hz; rewrite -(sv_missing Hz).
  by case Hm: (missing z) => //=; case: Hz => _ /(_ Hm) ->.
have E3 om : em_observation_offset zs ss om = em_observation_offset zs' ss om.
  rewrite /em_observation_offset -(sv_size H); congr bind.
  apply: foldr_res_ext => a t; apply: (sv_bind _ H) => z z' Hz; rewrite -(sv_missing Hz).
  by case Hm: (missing z) => //=; case: Hz => _ /(_ Hm) ->.
rewrite /em_ E1; apply: bind_ext => om; rewrite E2; apply: bind_ext => oc.
do 5 (apply: bind_ext => ?); by rewrite E3.
Qed.

Definition flt_sv (flt : filter_fun R) : Prop :=
  forall p k (zs zs' : seq (orow R k)), same_visible_rows zs zs' -> flt p k zs = flt p k zs'.

Lemma em_loop_sv flt k (zs zs' : seq (orow R k)) g i p : flt_sv flt -> same_visible_rows zs zs' ->
  em_loop flt zs g i p = em_loop flt zs' g i p.
Proof.
move=> Hf H; elim: i p => [|i IH] p //=.
have -> : em_iter flt zs g p = em_iter flt zs' g p.
  rewrite /em_iter (Hf _ _ _ _ H); do 2 (apply: bind_ext => ?).
  apply: bind_ext => -[ss gs]; apply: bind_ext => pw; exact: em_sv.
by case: (em_iter _ _ _ _).
Qed.

Section Api.
Variables (flt : filter_fun R) (o : kf R) (k : nat) (zs zs' : seq (orow R k)).
Hypotheses (Hf : flt_sv flt) (H : same_visible_rows zs zs') (Hk : keeps zs).
Lemma sv_keeps : keeps zs'. Proof. by rewrite /keeps -(sv_size H). Qed.

Lemma filter_with_sv : filter_with flt o (O2 k zs) = filter_with flt o (O2 k zs').
Proof.
rewrite /filter_with (parse_keep Hk) (parse_keep sv_keeps); apply: bind_ext => p.
by rewrite (Hf _ H).
Qed.
Lemma smooth_with_sv : smooth_with flt o (O2 k zs) = smooth_with flt o (O2 k zs').
Proof.
rewrite /smooth_with (parse_keep Hk) (parse_keep sv_keeps); apply: bind_ext => p.
by rewrite (Hf _ H).
Qed.
Lemma loglik_with_sv ln l2 : loglikelihood_with flt ln l2 o (O2 k zs) = loglikelihood_with flt ln l2 o (O2 k zs').
Proof.
rewrite /loglikelihood_with (parse_keep Hk) (parse_keep sv_keeps); apply: bind_ext => p.
by rewrite (Hf _ H); apply: bind_ext => rows; rewrite (loglik_loop_sv _ _ _ _ _ H).
Qed.
Lemma em_with_sv ev i : em_with flt ev o (O2 k zs) i = em_with flt ev o (O2 k zs') i.
Proof.
rewrite /em_with (parse_keep Hk) (parse_keep sv_keeps); case: (initialize_parameters o) => // p.
by case: ev => // e; rewrite (em_loop_sv _ _ _ Hf H).
Qed.
End Api.

(** one-dimensional series *)
Lemma missing_scalar (x : R * bool) : missing (scalar_row x) = x.2.
Proof.
rewrite /missing /scalar_row /=; apply/existsP/idP => [[i]|H]; first by rewrite mxE.
by exists 0; rewrite mxE.
Qed.
Lemma sv_scalar (s s' : seq (R * bool)) : List.Forall2 (@same_visible1 R) s s' ->
  same_visible_rows [seq scalar_row x | x <- s] [seq scalar_row x | x <- s'].
Proof.
elim=> [|x y l l' [H1 H2] _ IH] /=; first by constructor.
constructor=> //; split; first by rewrite /scalar_row /= H1.
by rewrite missing_scalar => /H2 E; rewrite /scalar_row /= E.
Qed.

Lemma transpose_row_of_seq (s : seq (R * bool)) :
  transpose_row (row_of_seq s) = [seq scalar_row x | x <- s].
Proof.
rewrite /transpose_row -[in RHS](mkseq_nth (0, false) s) /mkseq -val_enum_ord -!map_comp.
by apply: eq_map => i /=; rewrite !mxE; case: (nth _ _ _).
Qed.
Lemma parse_O1 (s : seq (R * bool)) : s <> [::] ->
  parse_observations (O1 s) = parse_observations (O2 1 [seq scalar_row x | x <- s]).
Proof.
case: s => [|x [|y s]] // _.
  rewrite /= ; congr existT; congr cons; rewrite /row_of_seq /scalar_row.
  by congr pair; apply/matrixP=> i j; rewrite !mxE (ord1 i).
have -> : parse_observations (O1 [:: x, y & s]) = existT _ 1%N (transpose_row (row_of_seq [:: x, y & s])) by [].
by rewrite transpose_row_of_seq parse_keep.
Qed.
End Mask.
