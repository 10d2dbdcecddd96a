(** Closed forms of the EM update of the model (KalmanFilter.em). *)
From Coq Require Import String List.
From mathcomp Require Import all_ssreflect all_algebra.
From mathcomp Require Import ring.
From Verif Require Import Prelude Zmod LinAlg Numpy NumpyFacts Sklearn SklearnFacts Standard Model KfSpec StandardInit StandardFacts KfOnline KfEm.
Import GRing.Theory Num.Theory.

Set Implicit Arguments.
Unset Strict Implicit.
Unset Printing Implicit Defensive.
Local Open Scope ring_scope.

Lemma fold_ok U (f : U -> nat -> res U) (G : nat -> U) a T :
  (forall t, (t < T)%N -> f (G t) (a + t)%N = Ok (G t.+1)) ->
  foldr_res f (G 0%N) (iota a T) = Ok (G T).
Proof.
move=> H; suff E : forall k j, (k + j = T)%N -> foldr_res f (G j) (iota (a + j) k) = Ok (G T).
  by have := E T 0%N; rewrite !addn0 => ->.
elim=> [|k IH] j; first by rewrite add0n => ->.
move=> kj; rewrite /= H /=; last by rewrite -kj addSn -addnS leq_addl.
by rewrite -addnS IH // addnS -addSn.
Qed.

Lemma sum_condS (V : zmodType) (P : ssrbool.pred nat) (F : nat -> V) t :
  \sum_(s < t.+1 | P s) F s = \sum_(s < t | P s) F s + (if P t then F t else 0).
Proof. by rewrite big_mkcond big_ord_recr -big_mkcond. Qed.

Lemma getidx_map U (f : nat -> U) T t : (t < T)%N -> getidx [seq f s | s <- iota 0 T] t = Ok (f t).
Proof.
move=> tT; rewrite (getidx_nth (f 0%N)) ?size_map ?size_iota //.
by rewrite (nth_map 0%N) ?size_iota // nth_iota.
Qed.

Section Forms.
Variables (R : rcfType) (n m T : nat).
Variables (xs : nat -> 'cV[R]_n) (Ps Lag : nat -> 'M[R]_n).
Variables (mis : nat -> bool) (y : nat -> 'cV[R]_m) (zs : seq (orow R m)).
Hypothesis Hrows : rows_of T mis y zs.
Let ss := [seq SRow (A1 (xs t)) (A2 (Ps t)) | t <- iota 0 T].
Let pw := [seq A2 (Lag t) | t <- iota 0 T].

Lemma row_at t : (t < T)%N -> exists2 r, getidx zs t = Ok r &
  missing r = mis t /\ (mis t = false -> r.1 = y t).
Proof.
case: Hrows => Hsz H tT; rewrite /getidx; case E: (List.nth_error zs t) => [r|].
  by exists r => //; exact: H.
by move/List.nth_error_None: E => /ssrnat.leP; rewrite -[List.length zs]/(size zs) Hsz leqNgt tT.
Qed.

Definition nobs : nat := \sum_(t < T) ~~ mis t.

Definition f_om (d : nat -> 'cV[R]_m) : 'M[R]_(m, n) :=
  (\sum_(t < T | ~~ mis t) (y t - d t) *m (xs t)^T) *m
  pinv (\sum_(t < T | ~~ mis t) (Ps t + xs t *m (xs t)^T)).
Definition f_oc (d : nat -> 'cV[R]_m) (C : nat -> 'M[R]_(m, n)) : 'M[R]_m :=
  nobs%:R^-1 *: \sum_(t < T | ~~ mis t)
    ((y t - C t *m xs t - d t) *m (y t - C t *m xs t - d t)^T + C t *m (Ps t *m (C t)^T)).
Definition f_tm (b : nat -> 'cV[R]_n) : 'M[R]_n :=
  (\sum_(t < T.-1) (Lag t.+1 + xs t.+1 *m (xs t)^T - b t *m (xs t)^T)) *m
  pinv (\sum_(t < T.-1) (Ps t + xs t *m (xs t)^T)).
Definition f_tc (A : nat -> 'M[R]_n) (b : nat -> 'cV[R]_n) : 'M[R]_n :=
  T.-1%:R^-1 *: \sum_(t < T.-1)
    ((xs t.+1 - A t *m xs t - b t) *m (xs t.+1 - A t *m xs t - b t)^T
     + A t *m (Ps t *m (A t)^T) + Ps t.+1 - Lag t.+1 *m (A t)^T - (Lag t.+1 *m (A t)^T)^T).
Definition f_ic (mu : 'cV[R]_n) : 'M[R]_n :=
  Ps 0%N + xs 0%N *m (xs 0%N)^T - mu *m (xs 0%N)^T - xs 0%N *m mu^T + mu *m mu^T.
Definition f_to (A : nat -> 'M[R]_n) : 'cV[R]_n :=
  T.-1%:R^-1 *: \sum_(t < T.-1) (xs t.+1 - A t *m xs t).
Definition f_oo (C : nat -> 'M[R]_(m, n)) : 'cV[R]_m :=
  nobs%:R^-1 *: \sum_(t < T | ~~ mis t) (y t - C t *m xs t).

Lemma nobsS t : (\sum_(s < t.+1) ~~ mis s = \sum_(s < t) ~~ mis s + ~~ mis t)%N.
Proof. by rewrite big_ord_recr. Qed.
Lemma sc_empty k l (X : 'M[R]_(k, l)) (N : nat) : (N = 0%N -> X = 0) ->
  (if (0 < N)%N then scal (1 / N%:R) (A2 X) else A2 X) = A2 (N%:R^-1 *: X).
Proof. by case: N => [|N] H //=; [rewrite H // scaler0|rewrite div1r]. Qed.
Lemma nobs0 (V : zmodType) (F : nat -> V) : nobs = 0%N -> \sum_(t < T | ~~ mis t) F t = 0.
Proof.
move/eqP; rewrite /nobs sum_nat_eq0 => /forallP /= H; apply: big_pred0 => t.
by have := H t; rewrite eqb0 => /negbTE.
Qed.

Lemma om_form oo d : rep1 oo T d -> em_observation_matrix n zs ss oo = Ok (A2 (f_om d)).
Proof.
move=> Ho; rewrite /em_observation_matrix.
pose F t := (y t - d t) *m (xs t)^T; pose F' t := Ps t + xs t *m (xs t)^T.
pose G t := (@A2 R m n (\sum_(s < t | ~~ mis s) F s), @A2 R n n (\sum_(s < t | ~~ mis s) F' s)).
have -> : (zeros2 m n, zeros2 n n) = G 0%N by rewrite /G !big_ord0.
case: (Hrows) => Hsz _; rewrite Hsz (@fold_ok _ _ G) => [|t tT].
  by rewrite /G /f_om /=; np.
rewrite add0n; have [r -> [Hm Hr]] := row_at tT; rewrite bindOk Hm /G (sum_condS (fun s => ~~ mis s) F) (sum_condS (fun s => ~~ mis s) F').
case E: (mis t); first by rewrite /= !addr0.
by rewrite (rep1_last_dims Ho tT) (getidx_map _ tT) Hr //=; np; rewrite /F /F'.
Qed.

Lemma oc_form oo d om C : rep1 oo T d -> rep2 om T C ->
  em_observation_covariance zs ss oo om = Ok (A2 (f_oc d C)).
Proof.
move=> Ho HC; rewrite /em_observation_covariance.
pose F t := (y t - C t *m xs t - d t) *m (y t - C t *m xs t - d t)^T + C t *m (Ps t *m (C t)^T).
pose G t := (@A2 R m m (\sum_(s < t | ~~ mis s) F s), (\sum_(s < t) ~~ mis s)%N).
have -> : (zeros2 m m, 0%N) = G 0%N by rewrite /G !big_ord0.
case: (Hrows) => Hsz _; rewrite Hsz (@fold_ok _ _ G) => [|t tT].
  by rewrite /G /= sc_empty //; exact: nobs0.
rewrite add0n; have [r -> [Hm Hr]] := row_at tT; rewrite bindOk Hm /G (sum_condS (fun s => ~~ mis s) F) nobsS.
case E: (mis t); first by rewrite /= !addr0 addn0.
by rewrite (rep1_last_dims Ho tT) (rep2_last_dims HC tT) (getidx_map _ tT) Hr //=; np; rewrite /F addn1.
Qed.

Lemma oo_form om C : rep2 om T C -> em_observation_offset zs ss om = Ok (A1 (f_oo C)).
Proof.
move=> HC; rewrite /em_observation_offset.
pose F t := y t - C t *m xs t.
pose G t := (@A1 R m (\sum_(s < t | ~~ mis s) F s), (\sum_(s < t) ~~ mis s)%N).
have -> : (zeros1 m, 0%N) = G 0%N by rewrite /G !big_ord0.
case: (Hrows) => Hsz _; rewrite Hsz (@fold_ok _ _ G) => [|t tT].
  rewrite /G /= -/nobs /f_oo; case E: nobs => [|k] /=; last by rewrite div1r.
  by rewrite nobs0 // scaler0.
rewrite add0n; have [r -> [Hm Hr]] := row_at tT; rewrite bindOk Hm /G (sum_condS (fun s => ~~ mis s) F) nobsS.
case E: (mis t); first by rewrite /= !addr0 addn0.
by rewrite (rep2_last_dims HC tT) (getidx_map _ tT) Hr //=; np; rewrite /F addn1.
Qed.

Lemma ltT t : (t < T.-1)%N -> (t < T)%N /\ (t.+1 < T)%N.
Proof. by case: T => // k /= H; split=> //; exact: ltnW. Qed.

Lemma tm_form to b : rep1 to T.-1 b -> em_transition_matrix n ss pw to = Ok (A2 (f_tm b)).
Proof.
move=> Hb; rewrite /em_transition_matrix size_map size_iota.
pose G t := (@A2 R n n (\sum_(s < t) (Lag s.+1 + xs s.+1 *m (xs s)^T - b s *m (xs s)^T)),
             @A2 R n n (\sum_(s < t) (Ps s + xs s *m (xs s)^T))).
have -> : (zeros2 n n, zeros2 n n) = G 0%N by rewrite /G !big_ord0.
rewrite (@fold_ok _ _ G) => [|t tT]; first by rewrite /G /f_tm /=; np.
have [t1 t2] := ltT tT.
rewrite add1n -pred_Sn (rep1_last_dims Hb tT) (getidx_map _ t1) !(getidx_map _ t2) /G !big_ord_recr /=.
by np.
Qed.

Lemma tc_form tm A to b : rep2 tm T.-1 A -> rep1 to T.-1 b ->
  em_transition_covariance n ss pw tm to = Ok (A2 (f_tc A b)).
Proof.
move=> HA Hb; rewrite /em_transition_covariance size_map size_iota.
pose F t := (xs t.+1 - A t *m xs t - b t) *m (xs t.+1 - A t *m xs t - b t)^T
     + A t *m (Ps t *m (A t)^T) + Ps t.+1 - Lag t.+1 *m (A t)^T - (Lag t.+1 *m (A t)^T)^T.
pose G t := @A2 R n n (\sum_(s < t) F s).
have -> : zeros2 n n = G 0%N by rewrite /G !big_ord0.
rewrite (@fold_ok _ _ G) => [|t tT].
  rewrite /G /f_tc /= -/(F _) -subn1 -subn_gt0 subn1 sc_empty // => ->; by rewrite big_ord0.
have [t1 t2] := ltT tT.
rewrite add0n (rep1_last_dims Hb tT) (rep2_last_dims HA tT) !(getidx_map _ t1) !(getidx_map _ t2) /G big_ord_recr /=.
by np.
Qed.

Lemma to_form tm A : rep2 tm T.-1 A -> em_transition_offset n ss tm = Ok (A1 (f_to A)).
Proof.
move=> HA; rewrite /em_transition_offset size_map size_iota.
pose G t := @A1 R n (\sum_(s < t) (xs s.+1 - A s *m xs s)).
have -> : zeros1 n = G 0%N by rewrite /G !big_ord0.
rewrite (@fold_ok _ _ G) => [|t tT].
  rewrite /G /f_to /= -subn1 -subn_gt0 subn1; case: (T.-1) => [|k] /=; last by rewrite div1r.
  by rewrite !big_ord0 scaler0.
have [t1 t2] := ltT tT.
rewrite add1n -pred_Sn (rep2_last_dims HA tT) !(getidx_map _ t1) !(getidx_map _ t2) /G big_ord_recr /=.
by np.
Qed.

Lemma im_form : (0 < T)%N -> em_initial_state_mean ss = Ok (A1 (xs 0%N)).
Proof. by move=> T0; rewrite /em_initial_state_mean (getidx_map _ T0). Qed.
Lemma ic_form mu : (0 < T)%N -> em_initial_state_covariance ss (A1 mu) = Ok (A2 (f_ic mu)).
Proof. by move=> T0; rewrite /em_initial_state_covariance (getidx_map _ T0) /=; np. Qed.

(** ** The whole update *)
Variables (p : kfparams R) (M : lgm R n m) (e : emspec).
Hypothesis Hp : params_model p T M.
Definition sel (x : pname) : bool := em_is_all e || em_mem e (name_of x).
Definition em_model : lgm R n m :=
  let C' := if sel Om' then fun _ => f_om (md M) else mC M in
  let A' := if sel Tm then fun _ => f_tm (mb M) else mA M in
  let mu' := if sel Ism then xs 0%N else mmu M in
  LGM A' (if sel To then fun _ => f_to A' else mb M) (if sel Tc then fun _ => f_tc A' (mb M) else mQ M)
      C' (if sel Oo then fun _ => f_oo C' else md M) (if sel Oc then fun _ => f_oc (md M) C' else mR M)
      mu' (if sel Isc then f_ic mu' else mP M).

(** [p] holds the values of the not estimated parameters *)
Lemma given_sel x c : given_or (mk_given p e) (name_of x) c = if sel x then c else Ok (field p x).
Proof. by rewrite /given_or given_field -/(sel x); case: (sel x). Qed.

Lemma em_form : (0 < T)%N -> exists p',
  [/\ em_ n zs ss pw (p_to p) (p_oo p) (mk_given p e) = Ok p', params_model p' T em_model &
      forall x, field p' x = if sel x then
        match x with
        | Tm => A2 (f_tm (mb M)) | To => A1 (f_to (mA em_model)) | Tc => A2 (f_tc (mA em_model) (mb M))
        | Om' => A2 (f_om (md M)) | Oo => A1 (f_oo (mC em_model)) | Oc => A2 (f_oc (md M) (mC em_model))
        | Ism => A1 (xs 0%N) | Isc => A2 (f_ic (mmu em_model)) end else field p x].
Proof.
move=> T0; rewrite /em_.
rewrite -[ "observation_matrices"%string ]/(name_of Om') given_sel.
pose om' := if sel Om' then A2 (f_om (md M)) else p_om p.
have -> : (if sel Om' then em_observation_matrix n zs ss (p_oo p) else Ok (field p Om')) = Ok om'.
  by rewrite /om'; case: (sel Om'); rewrite ?(om_form (pm_oo Hp)).
have Rom : rep2 om' T (mC em_model).
  by rewrite /om' /=; case: (sel Om'); [left; eexists|exact: pm_om Hp].
rewrite bindOk -[ "observation_covariance"%string ]/(name_of Oc) given_sel.
pose oc' := if sel Oc then A2 (f_oc (md M) (mC em_model)) else p_oc p.
have -> : (if sel Oc then em_observation_covariance zs ss (p_oo p) om' else Ok (field p Oc)) = Ok oc'.
  by rewrite /oc'; case: (sel Oc); rewrite ?(oc_form (pm_oo Hp) Rom).
rewrite bindOk -[ "transition_matrices"%string ]/(name_of Tm) given_sel.
pose tm' := if sel Tm then A2 (f_tm (mb M)) else p_tm p.
have -> : (if sel Tm then em_transition_matrix n ss pw (p_to p) else Ok (field p Tm)) = Ok tm'.
  by rewrite /tm'; case: (sel Tm); rewrite ?(tm_form (pm_to Hp)).
have Rtm : rep2 tm' T.-1 (mA em_model).
  by rewrite /tm' /=; case: (sel Tm); [left; eexists|exact: pm_tm Hp].
rewrite bindOk -[ "transition_covariance"%string ]/(name_of Tc) given_sel.
pose tc' := if sel Tc then A2 (f_tc (mA em_model) (mb M)) else p_tc p.
have -> : (if sel Tc then em_transition_covariance n ss pw tm' (p_to p) else Ok (field p Tc)) = Ok tc'.
  by rewrite /tc'; case: (sel Tc); rewrite ?(tc_form Rtm (pm_to Hp)).
rewrite bindOk -[ "initial_state_mean"%string ]/(name_of Ism) given_sel.
pose im' := if sel Ism then A1 (xs 0%N) else p_im p.
have -> : (if sel Ism then em_initial_state_mean ss else Ok (field p Ism)) = Ok im'.
  by rewrite /im'; case: (sel Ism); rewrite ?im_form.
have Eim : im' = A1 (mmu em_model) by rewrite /im' /=; case: (sel Ism); rewrite // (pm_im Hp).
rewrite bindOk -[ "initial_state_covariance"%string ]/(name_of Isc) given_sel.
pose ic' := if sel Isc then A2 (f_ic (mmu em_model)) else p_ic p.
have -> : (if sel Isc then em_initial_state_covariance ss im' else Ok (field p Isc)) = Ok ic'.
  by rewrite /ic'; case: (sel Isc); rewrite ?Eim ?ic_form.
rewrite bindOk -[ "transition_offsets"%string ]/(name_of To) given_sel.
pose to' := if sel To then A1 (f_to (mA em_model)) else p_to p.
have -> : (if sel To then em_transition_offset n ss tm' else Ok (field p To)) = Ok to'.
  by rewrite /to'; case: (sel To); rewrite ?(to_form Rtm).
rewrite bindOk -[ "observation_offsets"%string ]/(name_of Oo) given_sel.
pose oo' := if sel Oo then A1 (f_oo (mC em_model)) else p_oo p.
have -> : (if sel Oo then em_observation_offset zs ss om' else Ok (field p Oo)) = Ok oo'.
  by rewrite /oo'; case: (sel Oo); rewrite ?(oo_form Rom).
rewrite bindOk; eexists; split; [by []| |by case].
split=> //=.
- by rewrite /to'; case: (sel To); [left; eexists|exact: pm_to Hp].
- by rewrite /tc'; case: (sel Tc); [left; eexists|exact: pm_tc Hp].
- by rewrite /oo'; case: (sel Oo); [left; eexists|exact: pm_oo Hp].
- by rewrite /oc'; case: (sel Oc); [left; eexists|exact: pm_oc Hp].
- by rewrite /ic' /=; case: (sel Isc); rewrite // (pm_ic Hp).
Qed.
End Forms.
