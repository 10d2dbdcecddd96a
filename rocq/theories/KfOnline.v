(** filter_update versus filter; short stacks; wrong widths; single rows. *)
From Coq Require Import String List.
From mathcomp Require Import all_ssreflect all_algebra.
From Verif Require Import Prelude Zmod LinAlg Numpy NumpyFacts Sklearn SklearnFacts Standard Model KfSpec StandardInit StandardFacts
  KfStruct KfStruct2.
Import GRing.Theory Num.Theory Order.Theory.

Set Implicit Arguments.
Unset Strict Implicit.
Unset Printing Implicit Defensive.
Local Open Scope ring_scope.

Lemma bindOk X Y (v : X) (f : X -> res Y) : bind (Ok v) f = f v. Proof. by []. Qed.

(** ** C10 *)
Section Online.
Variables (R : rcfType).

Lemma rep2_arg n m X L t (F : nat -> 'M[R]_(n, m)) arg a p q (d : 'M[R]_(p, q)) :
  rep2 X L F -> (t < L)%N -> X = array2d (odflt (A2 d) a) -> gives2 a arg (F t) ->
  arg_or_default arg X 2 = Ok (A2 (F t)).
Proof.
move=> Hr tL HX [->|[-> Hc]] //; rewrite /arg_or_default.
have := rep2_last_dims Hr tL; rewrite /last_dims HX.
by case: a HX Hc => [[x|k1 v|k1 k2 N|k1 k2 l]|] //= -> _.
Qed.
Lemma rep1_arg n X L t (F : nat -> 'cV[R]_n) arg a p (d : 'cV[R]_p) :
  rep1 X L F -> (t < L)%N -> X = array1d (odflt (A1 d) a) -> gives1 a arg (F t) ->
  arg_or_default arg X 1 = Ok (A1 (F t)).
Proof.
move=> Hr tL HX [->|[-> Hc]] //; rewrite /arg_or_default.
have := rep1_last_dims Hr tL; rewrite /last_dims HX.
by case: a HX Hc => [[x|k1 v|k1 k2 N|k1 k2 l]|] //= -> _.
Qed.

Section M.
Variables (n m : nat) (o : kf R) (T : nat) (M : lgm R n m).
Hypothesis Ho : kf_model o T M.
Hypothesis m0 : (0 < m)%N.
Variable zs : seq (orow R m).
Hypothesis Hsz : size zs = T.
Let y := stream zs.

Lemma update_step t r u : (t.+1 < T)%N -> List.nth_error zs t.+1 = Some r ->
  step_args o M t r u ->
  update o (A1 (filt M y t).1, A2 (filt M y t).2) u = Ok (A1 (filt M y t.+1).1, A2 (filt M y t.+1).2).
Proof.
move=> tT Hr [Hz Htm Hto Htc Hom Hoo Hoc].
have tT' : (t < T.-1)%N by rewrite -ltnS prednK //; apply: leq_ltn_trans tT.
have [Ptm Pto Ptc Pom Poo Poc Pim Pic] := kf_model_params Ho.
rewrite /update /kf_filter_update (initialize_parametersE (km_rs Ho)) {1}/bind.
rewrite (rep1_arg (a := k_to o) (d := 0) Pto tT' erefl Hto) (rep1_arg (a := k_oo o) (d := 0) Poo tT erefl Hoo).
rewrite (rep2_arg (a := k_tm o) Ptm tT' erefl Htm) (rep2_arg (a := k_om o) Pom tT erefl Hom).
rewrite (rep2_arg (a := k_tc o) Ptc tT' erefl Htc) (rep2_arg (a := k_oc o) Poc tT erefl Hoc).
rewrite {1 2 3 4 5 6}/bind.
have Hy : y t.+1 = if missing r then None else Some r.1 by rewrite /y (stream_nth Hr).
have Hz' : exists za, (match u_z u with
    | None => no <-- shape0 (A2 (mR M t.+1)) ;; Ok (zeros1 no, (0 < no)%N)
    | Some zm => Ok zm end) = Ok (za, missing r) /\ (missing r = false -> za = A1 r.1).
  case: Hz => [->|[-> [->|[a ->]]]]; first by eexists.
    by rewrite /= m0; eexists.
  by eexists.
have [za [-> Hza]] := Hz'; rewrite {1}/bind /filter_predict; np.
rewrite /filter_correct.
have -> : filt M y t.+1 = correct M y t.+1 (predict M t (filt M y t)) by [].
rewrite /correct Hy; case: (missing r) Hza => [|/(_ erefl) ->] /=; first by [].
by np.
Qed.

Lemma updates_batch s us : (s < T)%N ->
  size us = (T - s.+1)%N ->
  (forall j u r, List.nth_error us j = Some u -> List.nth_error zs (s.+1 + j) = Some r ->
     step_args o M (s + j) r u) ->
  updates o (A1 (filt M y s).1, A2 (filt M y s).2) us =
  Ok [seq (A1 (filt M y t).1, A2 (filt M y t).2) | t <- iota s.+1 (T - s.+1)].
Proof.
elim: us s => [|u us IH] s sT Hus Hargs /=.
  by rewrite -Hus.
have sT1 : (s.+1 < T)%N by rewrite -subn_gt0 -Hus.
have [r Hr] : exists r, List.nth_error zs s.+1 = Some r.
  case E: (List.nth_error zs s.+1) => [r|]; first by exists r.
  by move/List.nth_error_None/ssrnat.leP: E; rewrite -[List.length _]/(size zs) Hsz leqNgt sT1.
rewrite (update_step sT1 Hr); last by have := Hargs 0%N u r erefl; rewrite !addn0 => /(_ Hr).
rewrite {1}/bind.
have E : (T - s.+1)%N = (T - s.+2).+1 by rewrite -subSn // subSS.
rewrite IH //; last 1 first.
- by move=> j u' r' Hj Hr'; have := Hargs j.+1 u' r' Hj; rewrite !addnS -addSn; apply.
- by rewrite E.
- by move: Hus; rewrite E /= => [[]].
Qed.
End M.
End Online.

(** ** C43: wrong number of columns *)
Section Width.
Variables (R : rcfType) (n m : nat) (o : kf R) (T : nat) (M : lgm R n m).
Hypothesis Ho : kf_model o T M.
Variables (k : nat).
Hypothesis km : k <> m.

Lemma assign_width p q (K : 'M[R]_(n, m)) : p = n -> q = k -> m != 1%N ->
  assign2 p q (A2 K) = Err ValueError.
Proof.
move=> -> -> m1; rewrite /assign2 /assign2_mx eqxx /=.
by case: eqP => [e|_]; [case: km|rewrite (negbTE m1)].
Qed.

Definition ok_prev (prev : option (frow R)) t : Prop :=
  match prev with None => t = 0%N | Some r => (0 < t)%N /\
    exists (mu : 'cV[R]_n) (P : 'M[R]_n), f_fm r = A1 mu /\ f_fc r = A2 P end.

Lemma step_width prev t (z : orow R k) : (t < T)%N -> ok_prev prev t ->
  if missing z && (m == 1%N)
  then exists2 r, filter_step (init_value o) n t prev z = Ok r & ok_prev (Some r) t.+1
  else filter_step (init_value o) n t prev z = Err ValueError.
Proof.
move=> tT Hprev.
have [Ptm Pto Ptc Pom Poo Poc Pim Pic] := kf_model_params Ho.
have [pm [pc E]] : exists (pm : 'cV[R]_n) (pc : 'M[R]_n), (match prev with
    | None => pm <-- assign1 n (p_im (init_value o)) ;; pc <-- assign2 n n (p_ic (init_value o)) ;; Ok (pm, pc)
    | Some r =>
        A <-- last_dims (p_tm (init_value o)) t.-1 2 ;;
        Q <-- last_dims (p_tc (init_value o)) t.-1 2 ;;
        b <-- last_dims (p_to (init_value o)) t.-1 1 ;;
        '(m, c) <-- filter_predict A Q b (f_fm r) (f_fc r) ;;
        pm <-- assign1 n m ;; pc <-- assign2 n n c ;; Ok (pm, pc)
    end) = Ok (A1 pm, A2 pc).
  case: prev Hprev => [r [t0 [mu [P [-> ->]]]]|_]; last by rewrite Pim Pic; np; do 2 eexists.
  have tT' : (t.-1 < T.-1)%N by case: t t0 tT => //= t _ tT; by case: (T) tT.
  rewrite (rep2_last_dims Ptm tT') (rep2_last_dims Ptc tT') (rep1_last_dims Pto tT') /filter_predict /=; np.
  by do 2 eexists.
rewrite /filter_step E {1}/bind (rep2_last_dims Pom tT) (rep2_last_dims Poc tT) (rep1_last_dims Poo tT).
rewrite {1 2 3}/bind /filter_correct; case Hm: (missing z) => /=.
  case: eqP => [m1|/eqP m1]; last first.
    by rewrite assign_width.
  rewrite /assign2 /assign2_mx /zeros2 eqxx m1 eqxx /=.
  case: eqP => [e|_]; first by case: km; rewrite -e m1.
  by rewrite orbT; np; eexists => //; split=> //; do 2 eexists.
np; rewrite /sub /bop /bdim.
case: eqP => [//|_]; case: eqP => [k1|_] /=.
  have m1 : m != 1%N by apply/eqP => m1; apply: km; rewrite k1 m1.
  by np; rewrite -/(sub _ _); np; rewrite assign_width.
case: eqP => [m1|//] /=.
by rewrite /dot /= mulr_dyn_err //; apply/eqP.
Qed.

Lemma loop_width prev t (zs : seq (orow R k)) : (t + size zs <= T)%N -> ok_prev prev t ->
  has (fun z => ~~ missing z) zs ->
  filter_loop (init_value o) n t prev zs = Err ValueError.
Proof.
elim: zs t prev => [|z zs IH] t prev //= Hs Hp Hh.
have tT : (t < T)%N by apply: leq_trans Hs; rewrite addnS ltnS leq_addr.
have := step_width z tT Hp; case: ifP => [/andP[Hm _] [r -> Hr]|_ -> //]; last first.
rewrite /bind IH ?addSnnS //.
by move: Hh; rewrite Hm.
Qed.

Lemma filter_width (zs : seq (orow R k)) : size zs = T -> keeps zs ->
  has (fun z => ~~ missing z) zs -> kf_filter o (O2 k zs) = Err ValueError.
Proof.
move=> Hs Hk Hh; rewrite /kf_filter /filter_with (parse_keep Hk).
rewrite (initialize_parametersE (km_rs Ho)) bindOk.
rewrite /filter_ (pm_im (kf_model_params Ho)) [np_len _]/= bindOk.
by rewrite loop_width ?add0n ?Hs.
Qed.
End Width.

(** ** C18: a single multi-dimensional observation *)
Section Single.
Variables (R : rcfType) (n m : nat) (o : kf R) (T : nat) (M : lgm R n m).
Hypothesis Ho : kf_model o T M.

Lemma single_row (r : orow R m) : (0 < T)%N -> (1 < m)%N -> kf_filter o (O2 m [:: r]) = Err ValueError.
Proof.
move=> T0 m1; rewrite /kf_filter /filter_with [parse_observations _]/= m1.
rewrite (initialize_parametersE (km_rs Ho)) bindOk.
rewrite /filter_ (pm_im (kf_model_params Ho)) [np_len _]/= bindOk.
have m1' : m <> 1%N by move=> e; rewrite e in m1.
case E: (transpose_row r) => [|z zs] /=.
  have := congr1 size E; rewrite size_map size_enum_ord => e; by rewrite e in m1.
have := step_width Ho (nesym m1') (prev := None) z T0 erefl.
by case: eqP => // _; rewrite andbF => ->.
Qed.
End Single.

(** ** C13: length of time-varying parameters *)
Section Short.
Variable R : rcfType.

Definition enough (len : option nat) (t : nat) : bool := if len is Some l then (t < l)%N else true.

Lemma shaped2_last n m X len t : shaped2 n m X len ->
  if enough len t then exists F : 'M[R]_(n, m), last_dims X t 2 = Ok (A2 F)
  else last_dims X t 2 = Err IndexError.
Proof.
case: X => [x|p v|p q N|p q s]; case: len => [l|] //=.
  by case=> ? ?; subst; exists N.
case=> ? ? <-; subst; rewrite /last_dims /=; case: ltnP => H.
  by rewrite (getidx_nth 0) //; eexists.
by rewrite getidx_oob.
Qed.
Lemma shaped1_last n X len t : shaped1 n X len ->
  if enough len t then exists F : 'cV[R]_n, last_dims X t 1 = Ok (A1 F)
  else last_dims X t 1 = Err IndexError.
Proof.
case: X => [x|p v|p q N|p q s]; case: len => [l|] //=.
  by move=> ?; subst; exists v.
case=> ? ?; subst; rewrite /last_dims /=; case: ltnP => H.
  by rewrite insubT; eexists.
by rewrite insubF // ltnNge H.
Qed.

Record shaped n m (p : kfparams R) (l : lens) : Prop := Shaped {
  sh_tm : shaped2 n n (p_tm p) (l_tm l); sh_to : shaped1 n (p_to p) (l_to l);
  sh_tc : shaped2 n n (p_tc p) (l_tc l); sh_om : shaped2 m n (p_om p) (l_om l);
  sh_oo : shaped1 m (p_oo p) (l_oo l); sh_oc : shaped2 m m (p_oc p) (l_oc l);
  sh_im : exists v : 'cV[R]_n, p_im p = A1 v; sh_ic : exists P : 'M[R]_n, p_ic p = A2 P }.

Definition trans_ok (l : lens) (t : nat) : bool :=
  [&& enough (l_tm l) t, enough (l_to l) t & enough (l_tc l) t].
Definition obs_ok (l : lens) (t : nat) : bool :=
  [&& enough (l_om l) t, enough (l_oo l) t & enough (l_oc l) t].

Section P.
Variables (n m : nat) (p : kfparams R) (l : lens).
Hypothesis Hp : shaped n m p l.

Definition ok_prev' (prev : option (frow R)) t : Prop :=
  match prev with None => t = 0%N | Some r => (0 < t)%N /\
    exists (mu : 'cV[R]_n) (P : 'M[R]_n), f_fm r = A1 mu /\ f_fc r = A2 P end.

Lemma step_short prev t (z : orow R m) : ok_prev' prev t ->
  if ((t == 0%N) || trans_ok l t.-1) && obs_ok l t
  then exists2 r, filter_step p n t prev z = Ok r & ok_prev' (Some r) t.+1
  else filter_step p n t prev z = Err IndexError.
Proof.
case: (Hp) => Htm Hto Htc Hom Hoo Hoc [im Him] [ic Hic] Hprev.
have := shaped2_last t Hom; have := shaped1_last t Hoo; have := shaped2_last t Hoc.
rewrite /obs_ok /filter_step.
set first := (X in bind X _).
have E : if (t == 0%N) || trans_ok l t.-1
   then exists (pm : 'cV[R]_n) (pc : 'M[R]_n), first = Ok (A1 pm, A2 pc) else first = Err IndexError.
  rewrite {}/first; case: prev Hprev => [r [t0 [mu [P [-> ->]]]]|->]; last by rewrite Him Hic; np; do 2 eexists.
  rewrite -[_ == _]negbK -lt0n t0 /= /trans_ok.
  have := shaped2_last t.-1 Htm; have := shaped1_last t.-1 Hto; have := shaped2_last t.-1 Htc.
  case: (enough (l_tm l) _) => H1 H2 H3; last by rewrite H3.
  case: H3 => A ->; rewrite bindOk; case: (enough (l_tc l) _) H1 => [[Q ->]|->]; last by rewrite andbF.
  rewrite {1}/bind andbT; case: (enough (l_to l) _) H2 => [[b ->]|->] //.
  by rewrite /filter_predict /=; np; do 2 eexists.
case: ((t == 0%N) || trans_ok l t.-1) E => [[pm [pc ->]]|->] //=.
case: (enough (l_om l) _) => H1 H2 H3 /=; last by rewrite H3.
case: H3 => C ->; rewrite {1}/bind.
case: (enough (l_oc l) _) H1 => [[Rc ->]|->]; last by rewrite andbF.
rewrite {1}/bind andbT; case: (enough (l_oo l) _) H2 => [[d ->]|->] //.
rewrite {1}/bind /filter_correct; case: (missing z) => /=; np; eexists => //; split=> //; by do 2 eexists.
Qed.

Lemma loop_short prev t (zs : seq (orow R m)) : ok_prev' prev t ->
  if all (fun s => ((s == 0%N) || trans_ok l s.-1) && obs_ok l s) (iota t (size zs))
  then exists rows, filter_loop p n t prev zs = Ok rows
  else filter_loop p n t prev zs = Err IndexError.
Proof.
elim: zs t prev => [|z zs IH] t prev Hprev; first by eexists.
rewrite [size _]/= [iota _ _]/= [all _ _]/=.
have := step_short z Hprev; case: ifP => H /=; last by move=> ->.
case=> r -> Hr; rewrite bindOk; have := IH t.+1 (Some r) Hr.
by case: ifP => _; [case=> rows ->; eexists|move=> ->].
Qed.
End P.

Lemma enough_long len T : all (enough len) (iota 0 T) = long len T.
Proof.
case: len => [l|] /=; last by apply/allP.
apply/allP/idP => [H|H t]; last by rewrite mem_iota add0n => tT; apply: leq_trans H.
by case: T H => [|T] // H; apply: (H T); rewrite mem_iota add0n leqnn.
Qed.
Lemma all_long l T :
  all (fun s => ((s == 0%N) || trans_ok l s.-1) && obs_ok l s) (iota 0 T) = long_enough l T.
Proof.
rewrite all_predI.
have -> : all (obs_ok l) (iota 0 T) = [&& long (l_om l) T, long (l_oo l) T & long (l_oc l) T].
  by rewrite -!enough_long -!all_predI; apply: eq_all.
have -> : all (fun s => (s == 0%N) || trans_ok l s.-1) (iota 0 T) = all (trans_ok l) (iota 0 T.-1).
  by case: T => [|T] //=; rewrite -[1%N]addn0 iotaDl all_map; apply: eq_all.
have -> : all (trans_ok l) (iota 0 T.-1) = [&& long (l_tm l) T.-1, long (l_to l) T.-1 & long (l_tc l) T.-1].
  by rewrite -!enough_long -!all_predI; apply: eq_all.
by rewrite /long_enough -!andbA.
Qed.

Lemma shaped_init n m o l : shaped_kf n m o l -> shaped n m (init_value o) l.
Proof.
case=> Hn Hm _ Htm Hto Htc Hom Hoo Hoc Him Hic.
have e2 a : as_mat a = array2d a by case: a.
have e1 a : as_vec a = array1d a by case: a.
rewrite /init_value Hn Hm; split=> /=.
- by case: (k_tm o) Htm => [X|->] //=; rewrite e2.
- by case: (k_to o) Hto => [X|->] //=; rewrite e1.
- by case: (k_tc o) Htc => [X|->] //=; rewrite e2.
- by case: (k_om o) Hom => [X|->] //=; rewrite e2.
- by case: (k_oo o) Hoo => [X|->] //=; rewrite e1.
- by case: (k_oc o) Hoc => [X|->] //=; rewrite e2.
- by case: (k_im o) Him => [X|_] /=; [rewrite e1|eexists].
- by case: (k_ic o) Hic => [X|_] /=; [rewrite e2|eexists].
Qed.

Lemma filter_lengths n m o l (zs : seq (orow R m)) : shaped_kf n m o l -> keeps zs ->
  if long_enough l (size zs) then exists rows, kf_filter o (O2 m zs) = Ok rows
  else kf_filter o (O2 m zs) = Err IndexError.
Proof.
move=> Ho Hk; rewrite /kf_filter /filter_with (parse_keep Hk).
rewrite (initialize_parametersE (so_rs Ho)).
have Hp := shaped_init Ho; have [im Him] := sh_im Hp.
rewrite bindOk /filter_ Him [np_len _]/=.
rewrite bindOk; have := loop_short Hp zs (erefl : ok_prev' n None 0%N).
rewrite all_long.
by case: ifP => _; [case=> rows ->; eexists|move=> ->].
Qed.
End Short.
