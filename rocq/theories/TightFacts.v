(** Constructor, defaults and masked rows of the unscented classes; em in call sequences. *)
From Coq Require Import String List.
From mathcomp Require Import all_ssreflect all_algebra.
From Verif Require Import Prelude LinAlg Numpy NumpyFacts Sklearn SklearnFacts Standard Rng Sample Client Unscented Sqrt SqrtUnscented Model KfSpec
  StandardInit KfStruct2 KfGlue UscSpec UscInit UscMain Exists TightSpec.
Import GRing.Theory Num.Theory.

Set Implicit Arguments.
Unset Strict Implicit.
Unset Printing Implicit Defensive.
Local Open Scope ring_scope.

Section Ctor.
Variable R : rcfType.
Implicit Types (a : ukfargs R) (o : ukf R).

Lemma ukf_init_spec a :
  (exists o, [/\ ukf_init a = Ok o, agreed (u_state_claims a) (o_n o) & agreed (u_obs_claims a) (o_m o)]) \/
  (((forall d, ~ agreed (u_state_claims a) d) \/ (forall d, ~ agreed (u_obs_claims a) d)) /\
    ukf_init a = Err ValueError).
Proof.
rewrite /ukf_init.
rewrite (dd_spec (g := [:: @spec_rows R; @spec_rows R; @spec_len R])); first last.
- by case=> [|[|[|i]]] v //= _; rewrite ?shape_m2E ?shape_m1E'.
- by [].
rewrite (dd_spec (g := [:: @spec_rows R])); first last.
- by case=> [|i] v //= _; rewrite ?shape_m2E.
- by [].
have -> : forall A B (k : nat -> nat -> res (ukf R)), A = u_state_claims a -> B = u_obs_claims a ->
   (n <-- dd_pick A ;; m <-- dd_pick B ;; k n m) = (n <-- dd_pick (u_state_claims a) ;; m <-- dd_pick (u_obs_claims a) ;; k n m) by move=> ? ? ? -> ->.
case: (agree_dec (u_state_claims a)) => [[d1 H1 ->]|[H1 ->]]; last by right; split=> //; left.
case: (agree_dec (u_obs_claims a)) => [[d2 H2 ->]|[H2 ->]]; last by right; split=> //; right.
- by left; eexists; split.
- by [].
- by [].
Qed.

Lemma ukf_init_iff a n m :
  (exists o, [/\ ukf_init a = Ok o, o_n o = n & o_m o = m]) <->
  agreed (u_state_claims a) n /\ agreed (u_obs_claims a) m.
Proof.
case: (ukf_init_spec a) => [[o [-> H1 H2]]|[H ->]]; split.
- by case=> _ [[<-] <- <-].
- case=> H3 H4; exists o; split=> //; [exact: agreed_uniq H3|exact: agreed_uniq H4].
- by case=> ? [].
- by case=> H3 H4; case: H => H5; [case: (H5 n)|case: (H5 m)].
Qed.
Lemma ukf_init_error a :
  (forall n m, ~ (agreed (u_state_claims a) n /\ agreed (u_obs_claims a) m)) -> ukf_init a = Err ValueError.
Proof.
by case: (ukf_init_spec a) => [[o [_ H1 H2]] H|[]] //; case: (H (o_n o) (o_m o)).
Qed.
Lemma ukf_init_attrs a o : ukf_init a = Ok o ->
  [/\ (o_f o, o_g o) = (b_f a, b_g a), (o_tc o, o_oc o) = (b_tc a, b_oc a),
      (o_im o, o_ic o) = (b_im a, b_ic a) & o_rs o = b_rs a].
Proof.
rewrite /ukf_init; case: (determine_dimensionality _ _) => //= n.
by case: (determine_dimensionality _ _) => //= m [<-].
Qed.

Lemma spelled_init f o : seed_ok (o_rs o) -> uinitialize f (spelled_out f o) = uinitialize f o.
Proof.
move=> Hs; rewrite !uinitializeE //; congr Ok.
by rewrite /uinit_value /= !eye2E.
Qed.

Section All.
Variable o : ukf R.
Hypothesis Hs : seed_ok (o_rs o).
Lemma spelled_aukf X : let o' := spelled_out (@ident R) o in
  aukf_filter o' X = aukf_filter o X /\ aukf_smooth o' X = aukf_smooth o X.
Proof. by move=> o'; rewrite /aukf_filter /aukf_smooth /aukf_filter /ufilter_with (spelled_init (@ident R) Hs). Qed.
Lemma spelled_aukf_update fm fc z f tc g oc :
  aukf_filter_update (spelled_out (@ident R) o) fm fc z f tc g oc = aukf_filter_update o fm fc z f tc g oc.
Proof. by rewrite /aukf_filter_update (spelled_init (@ident R) Hs). Qed.
Lemma spelled_ukf X : let o' := spelled_out (@plus R) o in
  ukf_filter o' X = ukf_filter o X /\ ukf_smooth o' X = ukf_smooth o X.
Proof. by move=> o'; rewrite /ukf_smooth /ukf_filter /ufilter_with (spelled_init (@plus R) Hs). Qed.
Lemma spelled_ukf_update fm fc z f tc g oc :
  ukf_filter_update (spelled_out (@plus R) o) fm fc z f tc g oc = ukf_filter_update o fm fc z f tc g oc.
Proof. by rewrite /ukf_filter_update (spelled_init (@plus R) Hs). Qed.
Lemma spelled_sample G (rl : rng_lib R G) T x0 rs w :
  aukf_sample rl (spelled_out (@ident R) o) T x0 rs w = aukf_sample rl o T x0 rs w /\
  ukf_sample rl (spelled_out (@plus R) o) T x0 rs w = ukf_sample rl o T x0 rs w.
Proof. by rewrite /aukf_sample /ukf_sample /usample (spelled_init (@ident R) Hs) (spelled_init (@plus R) Hs). Qed.
Lemma spelled_sukf (qr : qr_fun R) X : let o' := spelled_out (@ident R) o in
  sukf_filter qr o' X = sukf_filter qr o X /\ sukf_smooth qr o' X = sukf_smooth qr o X.
Proof. by move=> o'; rewrite /sukf_smooth /sukf_filter (spelled_init (@ident R) Hs). Qed.
Lemma spelled_sukf_update (qr : qr_fun R) fm fc z f tc g oc :
  sukf_filter_update qr (spelled_out (@ident R) o) fm fc z f tc g oc = sukf_filter_update qr o fm fc z f tc g oc.
Proof. by rewrite /sukf_filter_update (spelled_init (@ident R) Hs). Qed.
End All.
End Ctor.

(** ** em in call sequences *)
Lemma run_em (R : rcfType) G (rl : rng_lib R G) ln ln2pi (o : kf R) w X a b ev o1 : seed_ok (k_rs o) ->
  kf_em o X a ev = (o1, Ok tt) ->
  (run rl ln ln2pi (o, w) [:: CEm X a ev; CEm X b ev]).1 = (run rl ln ln2pi (o, w) [:: CEm X (a + b) ev]).1.
Proof.
move=> Hs E; rewrite /run /step E -(kf_em_compose b Hs E).
case: (kf_em o1 X b ev) => o2 r.
exact: erefl.
Qed.

Lemma run_em_both (R : rcfType) G (rl : rng_lib R G) ln ln2pi (o : kf R) w X a b ev o1 : seed_ok (k_rs o) ->
  kf_em o X a ev = (o1, Ok tt) ->
  (run rl ln ln2pi (o, w) [:: CEm X a ev; CEm X b ev]).1 = (run rl ln ln2pi (o, w) [:: CEm X (a + b) ev]).1 /\
  (run rl ln ln2pi (o, w) [:: CEm X a ev]).1 = (o1, w).
Proof. by move=> Hs E; split; [exact: (run_em rl ln ln2pi w b Hs E)|rewrite /run /step E]. Qed.

(** ** masked rows *)
Section Masked.
Variables (R : rcfType) (n m : nat) (T : nat) (Q : 'M[R]_n) (Rn : 'M[R]_m) (mu0 : 'cV[R]_n) (P0 : 'M[R]_n) (zs : seq (orow R m)).
Hypothesis Hsz : size zs = T.
Hypothesis Hk : keeps zs.

Lemma ufold_obs S (first first' : option 'cV[R]_m -> option S) (next next' : nat -> S -> option 'cV[R]_m -> option S) :
  first None = first' None -> (forall t s, next t s None = next' t s None) ->
  (forall r, List.nth_error zs 0 = Some r -> ~~ missing r -> first =1 first') ->
  (forall t r, List.nth_error zs t.+1 = Some r -> ~~ missing r -> forall s, next t s =1 next' t s) ->
  forall t, ufold first next (stream zs) t = ufold first' next' (stream zs) t.
Proof.
move=> F0 N0 F1 N1; elim=> [|t IH] /=.
  rewrite /stream; case E: (List.nth_error zs 0) => [r|] //; case: (boolP (missing r)) => // Hr.
  exact: (F1 r E Hr).
rewrite IH; case: (ufold _ _ _ _) => //= s.
rewrite /stream; case E: (List.nth_error zs t.+1) => [r|] //; case: (boolP (missing r)) => // Hr.
exact: (N1 t r E Hr).
Qed.

Lemma masked_rows_ok (x x' : nat -> option ('cV[R]_n * 'M[R]_n)) : x =1 x' ->
  mapr (fun t => lift_o (x t)) (iota 0 T) = mapr (fun t => lift_o (x' t)) (iota 0 T).
Proof. by move=> E; apply: mapr_ext => t _; rewrite E. Qed.

Section Add.
Variables (o o' : ukf R) (f : nat -> 'cV[R]_n -> 'cV[R]_n) (g g' : nat -> 'cV[R]_n -> 'cV[R]_m).
Hypothesis Ho : aukf_model o T f g Q Rn mu0 P0.
Hypothesis Ho' : aukf_model o' T f g' Q Rn mu0 P0.
Hypothesis Hg : forall t r, List.nth_error zs t = Some r -> ~~ missing r -> g t = g' t.
Lemma add_filt_obs t : add_filt Q Rn mu0 P0 f g (stream zs) t = add_filt Q Rn mu0 P0 f g' (stream zs) t.
Proof.
by apply: ufold_obs => // [r E Hr z|k r E Hr s z]; rewrite ?/add_next /add_first /add_corr (Hg E Hr).
Qed.
Lemma aukf_masked_obs : aukf_filter o (O2 m zs) = aukf_filter o' (O2 m zs).
Proof. by rewrite (aukf_filterE Ho Hsz Hk) (aukf_filterE Ho' Hsz Hk); apply: masked_rows_ok add_filt_obs. Qed.
End Add.

Section Aug.
Variables (o o' : ukf R) (f : nat -> 'cV[R]_n -> 'cV[R]_n -> 'cV[R]_n) (g g' : nat -> 'cV[R]_n -> 'cV[R]_m -> 'cV[R]_m).
Hypothesis Ho : ukf_model o T f g Q Rn mu0 P0.
Hypothesis Ho' : ukf_model o' T f g' Q Rn mu0 P0.
Hypothesis Hg : forall t r, List.nth_error zs t = Some r -> ~~ missing r -> g t = g' t.
Lemma aug_filt_obs t : aug_filt Q Rn mu0 P0 f g (stream zs) t = aug_filt Q Rn mu0 P0 f g' (stream zs) t.
Proof.
by apply: ufold_obs => // [r E Hr z|k r E Hr s z]; rewrite ?/aug_next ?/aug_first /aug_corr (Hg E Hr).
Qed.
Lemma ukf_masked_obs : ukf_filter o (O2 m zs) = ukf_filter o' (O2 m zs).
Proof. by rewrite (ukf_filterE Ho Hsz Hk) (ukf_filterE Ho' Hsz Hk); apply: masked_rows_ok aug_filt_obs. Qed.
End Aug.
End Masked.
