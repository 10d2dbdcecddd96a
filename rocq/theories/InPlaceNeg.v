(** Refutations for C65: functions that work in place. *)
From Coq Require Import String List.
From mathcomp Require Import all_ssreflect all_algebra.
From mathcomp Require Import ring.
From Verif Require Import Prelude Zmod LinAlg Numpy NumpyFacts Sklearn Standard Model StandardInit Rng Unscented
  UscSpec UscFacts UscRefine UscLoop UscInit UscProps InPlace InPlaceSpec InPlaceFacts InPlaceSample.
Import GRing.Theory Num.Theory Order.Theory.

Set Implicit Arguments.
Unset Strict Implicit.
Unset Printing Implicit Defensive.
Local Open Scope ring_scope.

Section Gen.
Variable R : rcfType.
Notation arr := (arr R).
(** [F] computes [h] and leaves [h'] in its argument *)
Definition leaves n p (F : ipfun R) (h : 'cV[R]_n -> 'cV[R]_p) (h' : 'cV[R]_n -> 'cV[R]_n) :=
  forall x : 'cV[R]_n, F [:: A1 x] = Ok (A1 (h x), [:: A1 (h' x)]).
Lemma calm_leaves n p (h : 'cV[R]_n -> 'cV[R]_p) : leaves (calm h) h id.
Proof. by move=> x; rewrite /calm; case: eqP => // E; rewrite castmx_id. Qed.
Lemma in_place_leaves n (h : 'cV[R]_n -> 'cV[R]_n) : leaves (in_place h) h h.
Proof. by move=> x; rewrite /in_place; case: eqP => // E; rewrite castmx_id. Qed.
Lemma same_value n (h : 'cV[R]_n -> 'cV[R]_n) args : value_of (in_place h) args = value_of (calm h) args.
Proof.
rewrite /value_of /in_place /calm; case: args => [//|[x|k x|k l M|s] [|? ?]] //.
by case: eqP.
Qed.
Lemma quiet_calm n p (h : 'cV[R]_n -> 'cV[R]_p) : quiet (calm h).
Proof.
move=> args r; rewrite /calm; case: args => [//|[x|k x|k l M|s] [|? ?]] //.
by case: eqP => // E [<-].
Qed.

Lemma fmap_id k n (P : 'M[R]_(k, n)) : fmap id P = P.
Proof. by apply/matrixP=> i j; rewrite !mxE. Qed.

Lemma transform_leaves k n p (P : 'M[R]_(k.+1, n)) wm wc F (h : 'cV[R]_n -> 'cV[R]_p) h' (N : option 'M[R]_p) : leaves F h h' ->
  transform_ip (SigmaPoints (A2 P) (A1 wm) (A1 wc)) F None (omap (fun M : 'M_p => A2 M) N) =
  Ok (SigmaPoints (A2 (fmap h P)) (A1 wm) (A1 wc), (A1 (wmean (fmap h P) wm), A2 (wcov (fmap h P) wm wc + onoise N)),
      SigmaPoints (A2 (fmap h' P)) (A1 wm) (A1 wc)).
Proof.
move=> HF.
have HV : fun1 (value_of F) h by move=> x; rewrite /value_of HF.
have := ut1E P wm wc N HV; rewrite transform_value.
rewrite /transform_ip [shape0 _]/= bO; set hh := (X in mapr X).
case E: (mapr hh _) => [l|//]; rewrite bO; case: (vstack _) => [pred|//]; rewrite bO.
case: (points2moments _ _) => [ms|//]; rewrite bO [bind _ _]/= => [] [-> ->].
do 2!apply: f_equal; congr (SigmaPoints (A2 _) _ _); apply/matrixP=> i j; rewrite !mxE.
have ik := ltn_ord i.
rewrite (nth_map (A0 0, [::])) ?(mapr_ok_size E) ?size_iota //.
have := mapr_nth 0%N (A0 0, [::]) E (i := i); rewrite size_iota => /(_ ik); rewrite nth_iota // add0n /hh.
rewrite idx02 bO HF => [] [<-] /=; exact: (mgetE (h' (row i P)^T) j ord0).
Qed.

Lemma correct_leaves k n m (P : 'M[R]_(k.+1, n)) w G (g : 'cV[R]_n -> 'cV[R]_m) h' (mp : 'cV[R]_n * 'M[R]_n) (Rn : 'M[R]_m) (z : 'cV[R]_m) b :
  leaves G g h' ->
  correct_ip G (lift_s mp) (SigmaPoints (A2 P) (A1 w) (A1 w)) (A1 z, b) None (Some (A2 Rn)) =
  Ok (lift_s (ucorr w (fmap h' P) (fmap g P) Rn mp (if b then None else Some z))).
Proof.
move=> HG; rewrite /correct_ip (transform_leaves _ _ _ (Some Rn) HG) [bind (Ok _) _]/=.
by rewrite sub_row [bind (Ok _) _]/=; np; rewrite sub_row [bind (Ok _) _]/= npE [bind (Ok _) _]/= ucorrectE.
Qed.
End Gen.

Section Unit.
Variable R : rcfType.
Notation scl := (@times R).
Lemma fmap_scl k (P : 'M[R]_(k, 1)) c : fmap (scl c) P = aff_rows P c%:M 0.
Proof.
rewrite -fmap_affine; apply/matrixP=> i j; rewrite !mxE /times big_ord1 !mxE addr0.
by rewrite (ord1 j) !eqxx mulr1n.
Qed.
Lemma pinv_s (a : R) : a != 0 -> pinv (a%:M : 'M[R]_1) = a^-1%:M.
Proof. by move=> H; rewrite pinv_unit ?invmx_scalar // unitmxE det_scalar expr1 unitfE. Qed.

Section Pts.
Variables (k : nat) (P : 'M[R]_(k, 1)) (w : 'cV[R]_k) (mu s : R).
Hypothesis HS : is_sigma P w w mu%:M s%:M.
Lemma scl_sigma c : is_sigma (fmap (scl c) P) w w (c * mu)%:M (c * s * c)%:M.
Proof.
rewrite fmap_scl; have := aff_sigma c%:M 0 HS; rewrite addr0.
by rewrite tr_scalar_mx -!scalar_mxM.
Qed.
Lemma scl_cross a b : wcross w (cen (fmap (scl a) P) (a * mu)%:M) (cen (fmap (scl b) P) (b * mu)%:M) = (a * s * b)%:M.
Proof.
have E c : cen (fmap (scl c) P) (c * mu)%:M = cen P mu%:M *m c%:M.
  by rewrite fmap_scl -[(c * mu)%:M]addr0 scalar_mxM aff_cen tr_scalar_mx.
by rewrite !E wcross_mul (sg_covm HS) tr_scalar_mx -!scalar_mxM.
Qed.
Lemma fmap_scl1 : fmap (scl 1) P = P.
Proof. by apply/matrixP=> i j; rewrite !mxE mul1r. Qed.
End Pts.

Lemma sc0 : 0 = 0%:M :> 'M[R]_1.
Proof. by rewrite raddf0. Qed.
Lemma one_sigma (s : R) : 0 < s -> exists2 P, spts (0 : 'cV[R]_1) s%:M = Some P & is_sigma P (wdef R 1) (wdef R 1) 0%:M s%:M.
Proof.
move=> s0; have H : pd (s%:M : 'M[R]_1) by rewrite -scalemx1; apply: pdZ => //; exact: pd1.
have [P EP] := spts_pd (0 : 'cV[R]_1) H; exists P => //.
by rewrite -sc0; exact: spts_sigma (pd_sym H) EP.
Qed.

(** correction at a prediction with mean 0 and variance [s] by an observation
    function which multiplies by [c] and leaves [a] times its argument behind *)
Lemma corr0 k (P : 'M[R]_(k, 1)) w (s a c N z : R) : is_sigma P w w 0%:M s%:M -> c * s * c + N != 0 ->
  ucorr w (fmap (scl a) P) (fmap (scl c) P) N%:M (0, s%:M) (Some z%:M) =
  ((a * s * c / (c * s * c + N) * z)%:M, (s - a * s * c / (c * s * c + N) * (a * s * c))%:M).
Proof.
move=> HS nz; rewrite /ucorr /=.
have E1 := sg_mean (scl_sigma HS c); have E2 := sg_covm (scl_sigma HS c).
rewrite /wcov E1 E2 -raddfD /= pinv_s //.
have E3 := scl_cross HS a c; rewrite !mulr0 in E3 *; rewrite -sc0 in E3 *; rewrite E3.
by rewrite tr_scalar_mx -!scalar_mxM subr0 add0r -scalar_mxM raddfB.
Qed.
(** smoothing step at a filtered mean 0 and variance [s], transition function
    multiplying by [c] and leaving [a] times its argument behind *)
Lemma back0 k (P : 'M[R]_(k, 1)) w (s a c Q m' s' : R) : is_sigma P w w 0%:M s%:M -> c * s * c + Q != 0 ->
  (uback1 w (fmap (scl a) P) (fmap (scl c) P) Q%:M (0, s%:M) (m'%:M, s'%:M)).1 = (c * s * a / (c * s * c + Q) * m')%:M.
Proof.
move=> HS nz; rewrite /uback1 /=.
have E1 := sg_mean (scl_sigma HS c); have E2 := sg_covm (scl_sigma HS c).
rewrite /wcov E1 E2 -raddfD /= pinv_s //.
have E3 := scl_cross HS c a; rewrite !mulr0 in E3 *; rewrite -sc0 in E3 *; rewrite E3.
by rewrite tr_scalar_mx -!scalar_mxM subr0 add0r -scalar_mxM.
Qed.
End Unit.

Section Object.
Variable R : rcfType.
Notation scl := (@times R).
Notation u := (unit_object R).
Variables (f g : ipfun R).
Definition up : uparams R := uinit_value (@add_default R) (with_functions u (J0 f) (J0 g)).
Lemma upE : uinitialize (@add_default R) (with_functions u (J0 f) (J0 g)) = Ok up.
Proof. exact: uinitializeE. Qed.
Notation sc x := (x%:M : 'M[R]_1).

Variables (c a : R).
Hypothesis Hg : leaves g (scl c) (scl a).
Lemma first_step (z : R) : c * 1 * c + 1 != 0 ->
  add_step_ip (J1 [:: f]) (J1 [:: g]) up 1 0 None (A1 (sc z), false) =
  Ok (lift_s (sc (a * 1 * c / (c * 1 * c + 1) * z), sc (1 - a * 1 * c / (c * 1 * c + 1) * (a * 1 * c)))).
Proof.
move=> nz; have [P EP HS] := one_sigma (ltr01 : 0 < 1 :> R).
rewrite /add_step_ip.
have -> : (u_im up, u_ic up) = (A1 (0 : 'cV[R]_1), A2 (sc 1)) by [].
rewrite m2p_defE EP bO (p2mE _ _ _ None) !bO; lazy beta iota.
have -> : u_oc up = A2 (sc 1) by [].
rewrite (sg_mean HS) /wcov (sg_mean HS) (sg_covm HS) /onoise addr0 -sc0.
rewrite (correct_leaves _ _ (0, sc 1) _ _ _ Hg) (corr0 _ _ HS nz); exact: asg.
Qed.
Variables (d b : R).
Hypothesis Hf : leaves f (scl d) (scl b).
Lemma next_step (s z : R) t : 0 < s -> 0 < d * s * d + 1 -> c * (d * s * d + 1) * c + 1 != 0 ->
  add_step_ip (J1 [:: f]) (J1 [:: g]) up 1 t.+1 (Some (lift_s (0, sc s))) (A1 (sc z), false) =
  let v := d * s * d + 1 in
  Ok (lift_s (sc (a * v * c / (c * v * c + 1) * z), sc (v - a * v * c / (c * v * c + 1) * (a * v * c)))).
Proof.
set v := d * s * d + 1 => s0 v0 nz; rewrite [X in _ = X]/=; have [P EP HS] := one_sigma s0.
rewrite /add_step_ip -[lift_s (0, _)]/(A1 (0 : 'cV[R]_1), A2 (sc s)); lazy beta iota; rewrite m2p_defE EP bO -[jat (J1 [:: f]) t]/(Ok f) bO.
have -> : u_tc up = A2 (sc 1) by [].
have -> : u_oc up = A2 (sc 1) by [].
rewrite (transform_leaves _ _ _ (Some (sc 1)) Hf).
have H2 := scl_sigma HS d; rewrite mulr0 in H2; have E1 := sg_mean H2.
rewrite /wcov E1 (sg_covm H2) -sc0 /onoise [odflt _ _]/= -raddfD -/v.
have [P2 EP2 HS2] := one_sigma v0.
rewrite bO; lazy beta iota; rewrite m2p_defE EP2 !bO; lazy beta iota.
rewrite (correct_leaves _ _ (0, sc v) _ _ _ Hg) (corr0 _ _ HS2 nz); exact: asg.
Qed.
Lemma back_step (s m' s' : R) t : 0 < s -> d * s * d + 1 != 0 -> exists V,
  add_back_ip (J1 [:: f]) up 1 t (lift_s (0, sc s)) (lift_s (sc m', sc s')) = Ok (lift_s (sc (d * s * b / (d * s * d + 1) * m'), V)).
Proof.
move=> s0 nz; have [P EP HS] := one_sigma s0.
rewrite /add_back_ip [lift_s (0, _)]/= m2p_defE EP bO -[jat (J1 [:: f]) t]/(Ok f) bO.
have -> : u_tc up = A2 (sc 1) by [].
rewrite (transform_leaves _ _ _ (Some (sc 1)) Hf) bO.
exists (uback1 (wdef R 1) (fmap (scl b) P) (fmap (scl d) P) (sc 1) (0, sc s) (sc m', sc s')).2.
rewrite (usmooth_updateE _ _ _ _ (0, sc s) (sc m', sc s')).
by rewrite -(back0 b m' s' HS nz); exact: erefl.
Qed.
End Object.

Section Runs.
Variable R : rcfType.
Notation scl := (@times R).
Notation u := (unit_object R).
Notation sc x := (x%:M : 'M[R]_1).
Lemma const1 (z : R) : const_mx z = sc z.
Proof. by apply/matrixP=> i j; rewrite !mxE (ord1 i) (ord1 j) eqxx mulr1n. Qed.
Lemma reading_step (stp : ustep R) p n t prev z zs :
  ufilter_loop stp p n t prev ((const_mx z, const_mx false) :: zs : seq (orow R 1)) =
  (r <-- stp p n t prev (A1 (sc z), false) ;; rs <-- ufilter_loop stp p n t.+1 (Some r) zs ;; Ok (r :: rs)).
Proof.
have E : missing ((const_mx z, const_mx false) : orow R 1) = false by apply/negbTE/existsPn => i; rewrite mxE.
by rewrite uloop_cons E -const1.
Qed.
Lemma usmooth_two (bck : uback R) p n t r s : usmooth_loop bck p n t [:: r; s] = (r' <-- bck p n t r s ;; Ok [:: r'; s]).
Proof. by []. Qed.
Lemma filter1 (f g : ipfun R) c a z : leaves g (scl c) (scl a) -> c * 1 * c + 1 != 0 ->
  aukf_filter_ip u (J0 f) (J0 g) (readings [:: z]) =
  Ok [:: lift_s (sc (a * 1 * c / (c * 1 * c + 1) * z), sc (1 - a * 1 * c / (c * 1 * c + 1) * (a * 1 * c)))].
Proof.
move=> Hg nz; rewrite /aukf_filter_ip /ufilter_ip [parse_observations _]/= upE bO.
rewrite /unscented_filter -[shape_m1 _]/(Ok 1%N) bO reading_step [jarray1d (J0 f)]/= [jarray1d (J0 g)]/=.
by rewrite (first_step f Hg z nz).
Qed.
Lemma smooth2 (f g : ipfun R) d b z : leaves g (scl 1) (scl 1) -> leaves f (scl d) (scl b) -> 0 < d * d ->
  exists V rest, aukf_smooth_ip u (J0 f) (J0 g) (readings [:: 0; z]) =
  Ok [:: lift_s (sc (d * b / (d * d + 2%:R) * ((d * d + 2%:R) / (d * d + 4%:R) * z)), V); rest].
Proof.
move=> Hg Hf d0.
have d2 : 0 < d * d + 2%:R by rewrite addr_gt0 // ltr0n.
have d4 : 0 < d * d + 4%:R by rewrite addr_gt0 // ltr0n.
have n11 : 1 * 1 * 1 + 1 != 0 :> R by rewrite !mul1r -(natrD _ 1 1) pnatr_eq0.
have t0 : (2%:R : R) != 0 by rewrite pnatr_eq0.
pose s : R := 2%:R^-1.
have s0 : 0 < s by rewrite invr_gt0 ltr0n.
have Ev : d * s * d + 1 = (d * d + 2%:R) / 2%:R by rewrite /s; field.
have v0 : 0 < d * s * d + 1 by rewrite Ev divr_gt0 ?ltr0n.
have Ew : 1 * (d * s * d + 1) * 1 + 1 = (d * d + 4%:R) / 2%:R by rewrite Ev; field.
have w0 : 1 * (d * s * d + 1) * 1 + 1 != 0 by rewrite Ew gt_eqF // divr_gt0 ?ltr0n.
have [V EV] := back_step g Hf (1 * (d * s * d + 1) * 1 / (1 * (d * s * d + 1) * 1 + 1) * z)
  ((d * s * d + 1) - 1 * (d * s * d + 1) * 1 / (1 * (d * s * d + 1) * 1 + 1) * (1 * (d * s * d + 1) * 1)) 0 s0 (lt0r_neq0 v0).
have E : d * s * b / (d * s * d + 1) * (1 * (d * s * d + 1) * 1 / (1 * (d * s * d + 1) * 1 + 1) * z) =
    d * b / (d * d + 2%:R) * ((d * d + 2%:R) / (d * d + 4%:R) * z).
  by rewrite /s; field; rewrite ?t0 ?(lt0r_neq0 d2) ?(lt0r_neq0 d4).
rewrite E in EV.
exists V; eexists.
rewrite /aukf_smooth_ip upE bO /aukf_filter_ip /ufilter_ip [parse_observations _]/= upE bO.
rewrite /unscented_filter -[shape_m1 _]/(Ok 1%N) !bO reading_step [jarray1d (J0 f)]/= [jarray1d (J0 g)]/=.
rewrite (first_step f Hg 0 n11) bO mulr0.
have -> : 1 - 1 * 1 * 1 / (1 * 1 * 1 + 1) * (1 * 1 * 1) = s by rewrite /s; field; rewrite ?t0.
rewrite -(sc0 R) reading_step (next_step Hg Hf _ 0 s0 v0 w0); lazy zeta.
rewrite !bO usmooth_two EV bO.
exact: erefl.
Qed.
End Runs.

Section Final.
Variable R : rcfType.
Notation scl := (@times R).
Notation u := (unit_object R).
Notation sc x := (x%:M : 'M[R]_1).
Lemma calm_scl c : leaves (calm (scl c)) (scl c) (scl (1 : R)).
Proof. by move=> x; rewrite calm_leaves /times scale1r. Qed.
Lemma sc_inj (x y : R) : sc x = sc y -> x = y.
Proof. by move/matrixP/(_ 0 0); rewrite !mxE. Qed.

Lemma filter_in_place : let h := scl (2%:R : R) in
  exists r r' : moments R, [/\ aukf_filter_ip u (J0 (calm (scl 1))) (J0 (in_place h)) (readings [:: 5%:R]) = Ok [:: r],
    aukf_filter_ip u (J0 (calm (scl 1))) (J0 (calm h)) (readings [:: 5%:R]) = Ok [:: r'],
    r.1 = A1 (sc 4%:R) & r'.1 = A1 (sc 2%:R)].
Proof.
move=> h; have n5 : (5%:R : R) != 0 by rewrite pnatr_eq0.
have E : 2%:R * 1 * 2%:R + 1 = 5%:R :> R by ring.
have nz : 2%:R * 1 * 2%:R + 1 != 0 :> R by rewrite E.
eexists; eexists; split.
- exact: (filter1 _ _ (in_place_leaves h) nz).
- exact: (filter1 _ _ (calm_scl 2%:R) nz).
- by rewrite /= E; congr (A1 _%:M); field.
- by rewrite /= E; congr (A1 _%:M); field.
Qed.
Lemma smooth_in_place : let h := scl (2%:R : R) in
  exists r s r' s' : moments R, [/\ aukf_smooth_ip u (J0 (in_place h)) (J0 (calm (scl 1))) (readings [:: 0; 4%:R]) = Ok [:: r; s],
    aukf_smooth_ip u (J0 (calm h)) (J0 (calm (scl 1))) (readings [:: 0; 4%:R]) = Ok [:: r'; s'],
    r.1 = A1 (sc 2%:R) & r'.1 = A1 (sc 1)].
Proof.
move=> h; have d0 : 0 < 2%:R * 2%:R :> R by rewrite -natrM ltr0n.
have [V [s E1]] := smooth2 4%:R (calm_scl 1) (in_place_leaves h) d0.
have [V' [s' E2]] := smooth2 4%:R (calm_scl 1) (calm_scl 2%:R) d0.
have n6 : (6%:R : R) != 0 by rewrite pnatr_eq0.
have n8 : (8%:R : R) != 0 by rewrite pnatr_eq0.
have e6 : 2%:R * 2%:R + 2%:R = 6%:R :> R by ring.
have e8 : 2%:R * 2%:R + 4%:R = 8%:R :> R by ring.
eexists; eexists; eexists; eexists; split; [exact: E1|exact: E2| |].
- by rewrite [LHS]/= e6 e8; congr (A1 _%:M); field; rewrite ?n6 ?n8.
- by rewrite [LHS]/= e6 e8; congr (A1 _%:M); field; rewrite ?n6 ?n8.
Qed.

Section Samples.
Variables (G : Type) (rl : rng_lib R G).
Lemma mvn1 (v : 'M[R]_1) g : exists x g', multivariate_normal rl (@zeros1 R 1) (A2 v) g = (g', Ok (A1 (x : 'cV[R]_1))).
Proof.
rewrite /multivariate_normal /=; case: eqP => // e.
by case: (mvn _ _ _ _) => x g'; exists x, g'.
Qed.
Lemma rb_ok T U (v : T) (k : T -> rnd G U) gs : rbind (rlift (Ok v)) k gs = k v gs.
Proof. by []. Qed.
Lemma rb_step T U (x : rnd G T) (k : T -> rnd G U) gs gs' v : x gs = (gs', Ok v) -> rbind x k gs = k v gs'.
Proof. by rewrite /rbind => ->. Qed.
Variable f : ipfun R.
Notation g := (calm (scl (1 : R))).
Notation p := (up f g).
Lemma observe x gs prev : exists gs' z,
  ((g0 <~~ rlift (jat (J1 [:: g]) 0) ;; v <~~ multivariate_normal rl (@zeros1 R 1) (u_oc p) ;;
     '(z, x') <~~ rlift (add_apply_ip g0 (A1 (x : 'cV[R]_1)) v) ;; z' <~~ rlift (assign1 1 z) ;;
     rlift (Ok (prev, x', z'))) gs) = (gs', Ok (prev : option (arr R), A1 x, z)).
Proof.
have -> : u_oc p = A2 (sc 1) by [].
have [v [gs' E]] := mvn1 (sc 1) gs.
rewrite -[jat _ _]/(Ok g) rb_ok (rb_step _ E).
rewrite /add_apply_ip calm_scl bO npE bO rb_ok assign1E rb_ok; exists gs'; eexists.
by rewrite /rlift /times !scale1r; exact: erefl.
Qed.
Lemma step0 x0 gs : exists gs' z, usample_step_ip rl (@add_apply_ip R) (J1 [:: f]) (J1 [:: g]) p 1 1 0 (A1 (sc x0)) None gs =
  (gs', Ok (None, A1 (sc x0), z)).
Proof.
rewrite /usample_step_ip (@rb_step _ _ _ _ _ gs (None, A1 (sc x0))); first exact: observe.
by rewrite assign1E.
Qed.
Variables d b : R.
Hypothesis Hf : leaves f (scl d) (scl b).
Lemma step1 x0 x gs : exists gs' x' z, usample_step_ip rl (@add_apply_ip R) (J1 [:: f]) (J1 [:: g]) p 1 1 1 (A1 (sc x0)) (Some (A1 (sc x))) gs =
  (gs', Ok (Some (A1 (sc (b * x))), A1 (x' : 'cV[R]_1), z)).
Proof.
have [v [gs' E0]] := mvn1 (sc 1) gs.
rewrite /usample_step_ip (@rb_step _ _ _ _ _ gs' (Some (A1 (scl b (sc x))), A1 (scl d (sc x) + v))); last first.
  have -> : u_tc p = A2 (sc 1) by [].
  by rewrite -[jat _ _]/(Ok f) rb_ok (rb_step _ E0) /add_apply_ip Hf bO npE bO rb_ok assign1E rb_ok.
have [gs2 [z E]] := observe (scl d (sc x) + v) gs' (Some (A1 (scl b (sc x)))).
exists gs2, (scl d (sc x) + v), z; rewrite E; do 2!apply: f_equal; do 2!apply: (f_equal (fun t => (t, _))).
by rewrite /times scale_scalar_mx.
Qed.
Lemma sample2 x0 w : exists z0 x1 z1,
  aukf_sample_ip rl u (J0 f) (J0 g) 2 (Some (A1 (sc x0))) None w =
  (w, Ok [:: (A1 (sc (b * x0)), z0); (x1, z1)]).
Proof.
rewrite /aukf_sample_ip /usample_ip upE.
have Et : shape_m1 (u_tc p) = Ok 1%N by [].
have Eo : shape_m1 (u_oc p) = Ok 1%N by [].
rewrite Et ?Eo.
rewrite -[check_random_state _]/(Ok (HFresh 0)); lazy iota.
rewrite /run_on rbind_rlift rbind_match [jarray1d (J0 f)]/= [jarray1d (J0 g)]/=.
have [gs1 [z0 E1]] := step0 x0 (seed_state rl 0).
have [gs2 [x1 [z1 E2]]] := step1 x0 x0 gs1.
exists z0, (A1 x1), z1.
rewrite -[usample_loop_ip _ _ _ _ _ _ _ _ 2 _ _ _]/(rbind (usample_step_ip rl (@add_apply_ip R) (J1 [:: f]) (J1 [:: g]) p 1 1 0 (A1 (sc x0)) None)
   (fun '(prev', x, z) => '(x', rest) <~~ usample_loop_ip rl (@add_apply_ip R) (J1 [:: f]) (J1 [:: g]) p 1 1 (A1 (sc x0)) 1 1 (Some x) ;;
      rlift (Ok (prev', (odflt x x', z) :: rest))) (seed_state rl 0)).
rewrite rbind_match E1 rbind_match.
rewrite -[usample_loop_ip _ _ _ _ _ _ _ _ 1 _ _ _]/(rbind (usample_step_ip rl (@add_apply_ip R) (J1 [:: f]) (J1 [:: g]) p 1 1 1 (A1 (sc x0)) (Some (A1 (sc x0))))
   (fun '(prev', x, z) => '(x', rest) <~~ usample_loop_ip rl (@add_apply_ip R) (J1 [:: f]) (J1 [:: g]) p 1 1 (A1 (sc x0)) 0 2 (Some x) ;;
      rlift (Ok (prev', (odflt x x', z) :: rest))) gs1).
by rewrite rbind_match E2.
Qed.
End Samples.
Lemma sample_in_place G (rl : rng_lib R G) w : let h := scl (2%:R : R) in
  exists z0 x1 z1 z0' x1' z1',
    [/\ aukf_sample_ip rl u (J0 (in_place h)) (J0 (calm (scl 1))) 2 (Some (A1 (sc 1))) None w = (w, Ok [:: (A1 (sc 2%:R), z0); (x1, z1)])
      & aukf_sample_ip rl u (J0 (calm h)) (J0 (calm (scl 1))) 2 (Some (A1 (sc 1))) None w = (w, Ok [:: (A1 (sc 1), z0'); (x1', z1')])].
Proof.
move=> h; have [z0 [x1 [z1 E]]] := sample2 rl (in_place_leaves h) 1 w.
have [z0' [x1' [z1' E']]] := sample2 rl (calm_scl 2%:R) 1 w.
exists z0, x1, z1, z0', x1', z1'; rewrite /h E E' mulr1 mul1r; split; exact: erefl.
Qed.
Lemma filter_observation_refuted : exists f g g' : ipfun R,
  [/\ forall args, value_of g args = value_of g' args, quiet f, quiet g' &
  exists r r' : moments R, [/\ aukf_filter_ip u (J0 f) (J0 g) (readings [:: 5%:R]) = Ok [:: r],
    aukf_filter_ip u (J0 f) (J0 g') (readings [:: 5%:R]) = Ok [:: r'], r.1 = A1 (sc 4%:R) & r'.1 = A1 (sc 2%:R)]].
Proof.
exists (calm (scl 1)), (in_place (scl 2%:R)), (calm (scl 2%:R)); split.
- exact: same_value.
- exact: quiet_calm.
- exact: quiet_calm.
- exact: filter_in_place.
Qed.
Lemma smooth_transition_refuted : exists f f' g : ipfun R,
  [/\ forall args, value_of f args = value_of f' args, quiet f', quiet g &
  exists r s r' s' : moments R, [/\ aukf_smooth_ip u (J0 f) (J0 g) (readings [:: 0; 4%:R]) = Ok [:: r; s],
    aukf_smooth_ip u (J0 f') (J0 g) (readings [:: 0; 4%:R]) = Ok [:: r'; s'], r.1 = A1 (sc 2%:R) & r'.1 = A1 (sc 1)]].
Proof.
exists (in_place (scl 2%:R)), (calm (scl 2%:R)), (calm (scl 1)); split.
- exact: same_value.
- exact: quiet_calm.
- exact: quiet_calm.
- exact: smooth_in_place.
Qed.
Lemma sample_transition_refuted : exists f f' g : ipfun R,
  [/\ forall args, value_of f args = value_of f' args, quiet f', quiet g &
  forall G (rl : rng_lib R G) w, exists z0 x1 z1 z0' x1' z1',
    [/\ aukf_sample_ip rl u (J0 f) (J0 g) 2 (Some (A1 (sc 1))) None w = (w, Ok [:: (A1 (sc 2%:R), z0); (x1, z1)])
      & aukf_sample_ip rl u (J0 f') (J0 g) 2 (Some (A1 (sc 1))) None w = (w, Ok [:: (A1 (sc 1), z0'); (x1', z1')])]].
Proof.
exists (in_place (scl 2%:R)), (calm (scl 2%:R)), (calm (scl 1)); split.
- exact: same_value.
- exact: quiet_calm.
- exact: quiet_calm.
- by move=> G rl w; exact: sample_in_place.
Qed.
Lemma usmooth_size (bk : uback R) p n rows t ss : usmooth_loop bk p n t rows = Ok ss -> size ss = size rows.
Proof.
elim: rows t ss => [//|r rows IH] t ss; case: rows IH => [_ [<-] //|r' rows] IH.
rewrite -[LHS]/(bind (usmooth_loop bk p n t.+1 (r' :: rows)) _); case E: (usmooth_loop _ _ _ _ _) => [ss'|//].
rewrite bO; case: ss' E => [//|s ss'] E; case: (bk _ _ _ _ _) => [r2|//]; rewrite bO => [] [<-].
by have := IH _ _ E => /= ->.
Qed.
Lemma in_place_not_quiet : ~ quiet (in_place (scl 2%:R)).
Proof.
move=> H; have := H _ _ (in_place_leaves (scl 2%:R) (sc 1)).
move=> /(congr1 (fun l => if l is [:: @A1 _ _ v] then mget v 0 0 else 0)).
have E (v : 'cV[R]_1) : mget v 0 0 = v 0 0 by exact: (mgetE v ord0 ord0).
rewrite /= !E /times !mxE mulr1n mulr1 => /eqP; by rewrite (eqr_nat R 2 1).
Qed.
Lemma hypotheses_met : let jf := J0 (in_place (scl 2%:R)) in let jg := J0 (calm (scl 1)) in
  [/\ seed_ok (o_rs u), all_quiet jg, ~ all_quiet jf & exists r s,
      aukf_filter_ip u jf jg (readings [:: 0; 4%:R]) = Ok [:: r; s]].
Proof.
split=> //; [exact: quiet_calm | exact: in_place_not_quiet |].
have [r [s [r' [s' [E _ _ _]]]]] := smooth_in_place.
move: E; rewrite /aukf_smooth_ip upE bO.
case: (aukf_filter_ip _ _ _ _) => [rows|//]; rewrite !bO.
case: rows => [|x [|y [|z rows]]] //; first by move=> _; exists x, y.
by move=> /usmooth_size.
Qed.
End Final.
