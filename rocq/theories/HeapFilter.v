(** [_filter], [_smooth], [_smooth_pair] and [_loglikelihoods] in memory compute
    what they compute on values. *)
From mathcomp Require Import all_ssreflect all_algebra.
From Coq Require Import String.
From Verif Require Import Prelude LinAlg Numpy Sklearn Standard Rng Heap HeapSpec HeapFacts.
Import GRing.Theory Num.Theory.

Set Implicit Arguments.
Unset Strict Implicit.
Unset Printing Implicit Defensive.
Local Open Scope ring_scope.

Section Filter.
Variable R : rcfType.
Notation arr := (arr R).
Notation heap := (heap R).
Notation frow := (frow R).
Implicit Types (h : heap) (v : view).

(** the references show the parameters *)
Definition reads h (p : hparams) (q : kfparams R) : Prop :=
  [/\ [/\ vread h (q_tm p) = Ok (p_tm q), vread h (q_to p) = Ok (p_to q),
          vread h (q_tc p) = Ok (p_tc q) & vread h (q_om p) = Ok (p_om q)] &
      [/\ vread h (q_oo p) = Ok (p_oo q), vread h (q_oc p) = Ok (p_oc q),
          vread h (q_im p) = Ok (p_im q) & vread h (q_ic p) = Ok (p_ic q)]].

Lemma reads_cat h tl p q : reads h p q -> reads (h ++ tl) p q.
Proof. by move=> [[? ? ? ?] [? ? ? ?]]; split; split; exact: vread_cat. Qed.

Lemma upd_mid T U (f : T -> U) (rs : seq T) z s w t : size rs = t ->
  upd_nth (map f rs ++ z :: s) t w = map f (rs) ++ w :: s.
Proof. by move=> <-; rewrite -(size_map f) upd_nth_catr0. Qed.
Lemma get_mid T U (f : T -> U) (rs : seq T) z s t : size rs = t ->
  getidx (map f rs ++ z :: s) t = Ok z.
Proof. by move=> <-; rewrite -(size_map f) getidx_catr0. Qed.
Lemma get_last T U (f : T -> U) (rs : seq T) r s t : size rs = t ->
  getidx (map f (rcons rs r) ++ s) t = Ok (f r).
Proof. by move=> Ht; rewrite map_rcons cat_rcons get_mid. Qed.
Lemma lt_mid T U (f : T -> U) (rs : seq T) z s t : size rs = t ->
  (t < size (map f rs ++ z :: s))%N.
Proof. by move=> <-; rewrite size_cat size_map addnS ltnS leq_addr. Qed.
Lemma mid_rcons T U (f : T -> U) (rs : seq T) r s :
  map f rs ++ f r :: s = map f (rcons rs r) ++ s.
Proof. by rewrite map_rcons cat_rcons. Qed.

Variables (h0 : heap) (p : hparams) (q : kfparams R) (x : nat) (X : obs R) (k : nat)
  (zs : seq (orow R k)).
Hypothesis Hp : reads h0 p q.
Hypothesis Hx : getidx h0 x = Ok (CObs X).
Hypothesis HX : parse_observations X = existT _ k zs.

Lemma obs_atE tl t z : getidx zs t = Ok z ->
  obs_at x t (h0 ++ tl) = (h0 ++ tl, Ok (existT (fun k => orow R k) k z)).
Proof. by move=> Hz; rewrite /obs_at /rbind /load (getidx_catl _ Hx) HX /rlift /bind Hz. Qed.
Lemma obs_shapeE tl : obs_shape x (h0 ++ tl) = (h0 ++ tl, Ok (size zs, k)).
Proof. by rewrite /obs_shape /rbind /load (getidx_catl _ Hx) HX. Qed.

Let a0 := size h0.
Let b := FBufs (a0 + 0)%N (a0 + 1)%N (a0 + 2)%N (a0 + 3)%N (a0 + 4)%N.

(** memory when the rows [rs] are filled in and [d] are left *)
Definition fcells (n : nat) (rs : seq frow) (d : nat) : heap :=
  [:: CRows (map (@f_pm R) rs ++ nseq d (@zeros1 R n));
      CRows (map (@f_pc R) rs ++ nseq d (@zeros2 R n n));
      CRows (map (@f_kg R) rs ++ nseq d (@zeros2 R n k));
      CRows (map (@f_fm R) rs ++ nseq d (@zeros1 R n));
      CRows (map (@f_fc R) rs ++ nseq d (@zeros2 R n n))].
(** the same after prediction *)
Definition pcells (n : nat) (rs : seq frow) (d : nat) (mc : arr * arr) : heap :=
  [:: CRows (map (@f_pm R) rs ++ mc.1 :: nseq d (@zeros1 R n));
      CRows (map (@f_pc R) rs ++ mc.2 :: nseq d (@zeros2 R n n));
      CRows (map (@f_kg R) rs ++ nseq d.+1 (@zeros2 R n k));
      CRows (map (@f_fm R) rs ++ nseq d.+1 (@zeros1 R n));
      CRows (map (@f_fc R) rs ++ nseq d.+1 (@zeros2 R n n))].

Definition olast (rs : seq frow) : option frow :=
  if rs is r :: rs' then Some (last r rs') else None.
Lemma olast_rcons rs r : olast (rcons rs r) = Some r.
Proof. by case: rs => //= a rs; rewrite last_rcons. Qed.

Lemma filter_step_sim n rs d z : getidx zs (size rs) = Ok z ->
  sim h0 (filter_step_h p x b n k (size rs) (h0 ++ fcells n rs d.+1))
         (filter_step q n (size rs) (olast rs) z)
         (fun r h' _ => h' = h0 ++ fcells n (rcons rs r) d).
Proof.
move=> Hz; have [[Htm Hto Htc Hom] [Hoo Hoc Him Hic]] := Hp.
rewrite /filter_step_h /filter_step.
apply: (@sim_bind _ _ _ _ _ _ _ _ _ _ _ (fun mc h' _ => h' = h0 ++ pcells n rs d mc)).
  case/lastP: rs Hz => [|rs r] Hz.
  - rewrite [size _]/= /olast.
    rewrite (rb_eq _ (vloadE _ Him)); apply: sim_step => pm _.
    rewrite rb_set //.
    rewrite (rb_eq _ (vloadE _ Hic)).
    case: (assign2 n n (p_ic q)) => [pc|e]; last by eexists.
    rewrite /rbind /rlift /bind set_rowE' //.
    by eexists; eexists; split; first exact: erefl.
  - rewrite size_rcons olast_rcons.
    rewrite (rb_eq _ (vloadE _ Htm)); apply: sim_step => A _.
    rewrite (rb_eq _ (vloadE _ Htc)); apply: sim_step => Q _.
    rewrite (rb_eq _ (vloadE _ Hto)); apply: sim_step => o _.
    rewrite (rb_get (w := f_fm r)); last exact: get_last.
    rewrite (rb_get (w := f_fc r)); last exact: get_last.
    apply: sim_step => -[m c] _.
    apply: sim_step => pm _.
    rewrite rb_set; last by apply: lt_mid; rewrite size_rcons.
    case: (assign2 n n c) => [pc|e]; last by eexists.
    rewrite /rbind /rlift /bind set_rowE'; last by apply: lt_mid; rewrite size_rcons.
    eexists; eexists; split; first exact: erefl.
    by rewrite /fcells /= !(put0, putS) !upd_mid ?size_rcons.
move=> [pm pc] h' [] ->.
set t := size rs.
rewrite (rb_eq _ (vloadE _ Hom)); apply: sim_step => C _.
rewrite (rb_eq _ (vloadE _ Hoc)); apply: sim_step => Rc _.
rewrite (rb_eq _ (vloadE _ Hoo)); apply: sim_step => o _.
rewrite (rb_get (w := pm)); last exact: get_mid.
rewrite (rb_get (w := pc)); last exact: get_mid.
rewrite (rb_eq _ (obs_atE _ Hz)).
apply: sim_step => -[[K m] c] _.
apply: sim_step => kg _.
rewrite rb_set; last exact: lt_mid.
apply: sim_step => fm _.
rewrite rb_set; last exact: lt_mid.
apply: sim_step => fc _.
rewrite set_rowE'; last exact: lt_mid.
eexists; eexists; split; first exact: erefl.
apply: f_equal.
by rewrite /fcells !map_rcons !cat_rcons /pcells /= !(put0, putS) !upd_mid.
Qed.

Lemma filter_for_sim n zs' rs : zs = take (size rs) zs ++ zs' -> (size rs <= size zs)%N ->
  sim h0 (for_in (iota (size rs) (size zs')) (filter_step_h p x b n k)
            (h0 ++ fcells n rs (size zs')))
         (filter_loop q n (size rs) (olast rs) zs')
         (fun rs' h' _ => h' = h0 ++ fcells n (rs ++ rs') 0).
Proof.
elim: zs' rs => [|z zs' IH] rs Hzs Hsz /=.
  by eexists; eexists; split; first exact: erefl; rewrite cats0.
have Hz : getidx zs (size rs) = Ok z.
  rewrite Hzs -{2}(size_takel Hsz); exact: getidx_catr0.
apply: sim_bind (filter_step_sim _ _ Hz) _ => r h' [] ->.
have Hsz' : (size (rcons rs r) <= size zs)%N by rewrite size_rcons; exact: getidx_ltn Hz.
have Hzs' : zs = take (size (rcons rs r)) zs ++ zs'.
  rewrite size_rcons {1}Hzs -cat_rcons; congr cat.
  rewrite {2}Hzs take_cat size_takel // ltnNge leqnSn /= subSnn /=.
  by rewrite take0 cats1.
have := IH _ Hzs' Hsz'; rewrite size_rcons olast_rcons.
case: filter_loop => [rs'|e] /=.
- by move=> [h'' [u [E Eh]]]; exists h'', u; split=> //; rewrite Eh cat_rcons.
- by [].
Qed.

Lemma filter_h_sim :
  sim h0 (filter_h p x h0) (filter_ q zs)
    (fun rs h' b' => b' = b /\ exists2 n, np_len (p_im q) = Ok n & h' = h0 ++ fcells n rs 0).
Proof.
rewrite /filter_h /filter_ -{2}[h0]cats0 (rb_eq _ (obs_shapeE _)).
have [_ [_ _ Him _]] := Hp.
rewrite (rb_eq _ (vloadE _ Him)).
apply: sim_step => n En.
do 5 rewrite (rb_eq _ (alloc_cat _ _ _)).
have Hz0 : zs = take (size (@nil frow)) zs ++ zs by rewrite take0.
have := filter_for_sim n Hz0 isT.
rewrite [size [::]]/= [olast _]/= /fcells.
case: filter_loop => [rs|e].
- move=> [h' [[] [E Eh]]].
  rewrite (rb_eq _ E) Eh.
  by eexists; eexists; split; first exact: erefl; split=> //; exists n.
- by move=> [tl E]; exists tl; rewrite (rb_err _ E).
Qed.
End Filter.

Section Smooth.
Variable R : rcfType.
Notation arr := (arr R).
Notation heap := (heap R).
Notation frow := (frow R).
Notation srow := (srow R).

Lemma filter_loop_len (q : kfparams R) n k t prev (zs : seq (orow R k)) rs :
  filter_loop q n t prev zs = Ok rs -> size rs = size zs.
Proof.
elim: zs t prev rs => [|z zs IH] t prev rs /=; first by case=> <-.
case: filter_step => //= r; case E: filter_loop => [rs'|] //= [<-] /=.
by rewrite (IH _ _ _ E).
Qed.
Lemma filter_len (q : kfparams R) k (zs : seq (orow R k)) rs :
  filter_ q zs = Ok rs -> size rs = size zs.
Proof. by rewrite /filter_; case: np_len => //= n; exact: filter_loop_len. Qed.

(** where the results of [_filter] are *)
Definition frows_at (h : heap) (b : fbufs) (rows : seq frow) : Prop :=
  [/\ getidx h (b_pm b) = Ok (CRows (map (@f_pm R) rows)),
      getidx h (b_pc b) = Ok (CRows (map (@f_pc R) rows)),
      getidx h (b_fm b) = Ok (CRows (map (@f_fm R) rows)) &
      getidx h (b_fc b) = Ok (CRows (map (@f_fc R) rows))].

Variables (h1 : heap) (tmv : view) (tm : arr) (b : fbufs) (n : nat).
Hypothesis Htm : vread h1 tmv = Ok tm.

Let a1 := size h1.
Let s := SBufs (a1 + 0)%N (a1 + 1)%N (a1 + 2)%N.
(** memory when the rows from [d] on are filled in *)
Definition scells d (ss : seq srow) (gs : seq arr) : heap :=
  [:: CRows (nseq d (@zeros1 R n) ++ map (@s_m R) ss);
      CRows (nseq d (@zeros2 R n n) ++ map (@s_c R) ss);
      CRows (nseq d (@zeros2 R n n) ++ gs)].

Lemma smooth_for_sim rl rows pre suf : frows_at h1 b rows ->
  rows = pre ++ suf -> suf <> [::] -> last rl suf = rl ->
  sim h1 (for_in (rev (iota (size pre) (size suf).-1)) (smooth_step_h tmv b s n)
            (h1 ++ scells (size pre + (size suf).-1) [:: SRow (f_fm rl) (f_fc rl)] [::]))
         (smooth_loop tm n (size pre) suf)
         (fun sg h' _ => [/\ h' = h1 ++ scells (size pre) sg.1 sg.2,
                             size sg.1 = size suf & size sg.2 = (size suf).-1]).
Proof.
move=> [Hpm Hpc Hfm Hfc]; elim: suf pre => [//|r [|r' rest] IH] pre Er _ El.
  move: El => /= ->; rewrite addn0.
  by eexists; eexists; split; first exact: erefl.
rewrite [iota _ _]/= rev_cons.
have Er' : rows = rcons pre r ++ r' :: rest by rewrite cat_rcons.
have := IH _ Er' _ El; rewrite size_rcons addSnnS => {}IH.
set F := smooth_loop _ _ _ (r :: _).
have -> : F = ('(ss, gs) <-- smooth_loop tm n (size pre).+1 (r' :: rest) ;;
      match ss with
      | [::] => Err IndexError
      | s' :: _ =>
          A <-- last_dims tm (size pre) 2 ;;
          '(m, c, L) <-- smooth_update A (f_fm r) (f_fc r) (f_pm r') (f_pc r') (s_m s') (s_c s') ;;
          sm <-- assign1 n m ;;
          sc <-- assign2 n n c ;;
          sg <-- assign2 n n L ;;
          Ok (SRow sm sc :: ss, sg :: gs)
      end) by [].
rewrite /sim for_in_rcons -/(sim _ _ _ _).
apply: sim_bind (IH _) _ => // -[ss gs] h' [] [-> /= Hss Hgs].
case: ss Hss => [//|s' ss] Hss.
rewrite /smooth_step_h (rb_eq _ (vloadE _ Htm)).
apply: sim_step => A _.
have Em (f : frow -> arr) : getidx (map f rows) (size pre) = Ok (f r).
  by rewrite Er map_cat; apply: getidx_at; rewrite size_map.
have Em' (f : frow -> arr) : getidx (map f rows) (size pre).+1 = Ok (f r').
  by rewrite Er map_cat; apply: getidx_at1; rewrite size_map.
rewrite (rb_getp _ _ Hfm (Em _)) (rb_getp _ _ Hfc (Em _)).
rewrite (rb_getp _ _ Hpm (Em' _)) (rb_getp _ _ Hpc (Em' _)).
rewrite (rb_get (w := s_m s')); last by apply: getidx_at; rewrite size_nseq.
rewrite (rb_get (w := s_c s')); last by apply: getidx_at; rewrite size_nseq.
apply: sim_step => -[[m c] L] _.
have Hlt z (l : seq arr) : (size pre < size (nseq (size pre).+1 z ++ l))%N.
  by rewrite size_cat size_nseq ltnS leq_addr.
apply: sim_step => m' _; rewrite rb_set; last exact: Hlt.
apply: sim_step => c' _; rewrite rb_set; last exact: Hlt.
apply: sim_step => L' _; rewrite set_rowE'; last exact: Hlt.
eexists; eexists; split; first exact: erefl.
split; last exact: (congr1 S Hgs).
- by rewrite /scells !(put0, putS) !upd_rep.
- exact: (congr1 S Hss).
Qed.

Lemma smooth_h_sim rows : frows_at h1 b rows ->
  sim h1 (smooth_h tmv b (size rows) n h1) (smooth_ tm n rows)
         (fun sg h' s' => [/\ s' = s, h' = h1 ++ scells 0 sg.1 sg.2, (0 < size sg.1)%N,
                             size sg.1 = size rows & size sg.2 = (size rows).-1]).
Proof.
move=> Hr; rewrite /smooth_h /smooth_ -{2}[h1]cats0.
do 2 rewrite (rb_eq _ (alloc_cat _ _ _)).
case ET: (size rows) => [|T].
  by move/size0nil: ET => ->; eexists; exact: erefl.
rewrite [_ == _]/= {1}/rlift {1}/rbind.
rewrite (rb_eq _ (alloc_cat _ _ _)).
have [Hpm Hpc Hfm Hfc] := Hr.
have [rl [r0 El]] : exists rl r0, rows = r0 ++ [:: rl].
  by case/lastP: rows ET {Hr Hpm Hpc Hfm Hfc} => // r0 rl _; exists rl, r0; rewrite cats1.
have Esz : size r0 = T by move: ET; rewrite El size_cat addn1 => -[].
have Em (f : frow -> arr) : getidx (map f rows) T = Ok (f rl).
  by rewrite El map_cat; apply: getidx_at; rewrite size_map.
have Hlt0 z : (T < size (nseq T.+1 z : seq arr))%N by rewrite size_nseq.
rewrite (rb_getp _ _ Hfm (Em _)) rb_set; last exact: Hlt0.
rewrite (rb_getp _ _ Hfc (Em _)) rb_set; last exact: Hlt0.
have Hu z (w : arr) : upd_nth (nseq T.+1 z) T w = nseq T z ++ [:: w].
  by rewrite -[nseq T.+1 z]cats0 upd_rep.
have Hne : rows <> [::] by rewrite El; case: (r0).
have Hl : last rl rows = rl by rewrite El last_cat.
have := @smooth_for_sim rl rows [::] rows Hr erefl Hne Hl.
rewrite [size [::]]/= ET add0n /= => H.
rewrite /rcons !(put0, putS).
rewrite /scells !cats0 in H.
rewrite -![_ :: nseq T _]/(nseq T.+1 _) !Hu.
case: smooth_loop H => [[ss gs]|e].
- move=> [h' [[] [E [Eh E1 E2]]]]; rewrite (rb_eq _ E) Eh.
  by eexists; eexists; split; first exact: erefl; split=> //; rewrite E1.
- by move=> [tl E]; exists tl; rewrite (rb_err _ E).
Qed.
End Smooth.

Section Pair.
Variable R : rcfType.
Notation arr := (arr R).
Notation heap := (heap R).
Notation srow := (srow R).
Variables (h2 : heap) (s : sbufs) (n : nat) (ss : seq srow) (gs : seq arr).

Lemma pair_for_sim ps d : getidx h2 (b_sc s) = Ok (CRows (map (@s_c R) ss)) ->
  getidx h2 (b_sg s) = Ok (CRows gs) -> size ss = (size gs).+1 -> size gs = (size ps + d)%N ->
  sim h2 (for_in (iota (size ps).+1 d) (fun t =>
            c <~~ get_row (b_sc s) t ;; g <~~ get_row (b_sg s) t.-1 ;;
            gt <~~ rlift (tr g) ;; x <~~ rlift (dot c gt) ;; x' <~~ rlift (assign2 n n x) ;;
            set_row (size h2 + 0) t x')
          (h2 ++ [:: CRows (zeros2 n n :: ps ++ nseq d (zeros2 n n))]))
        (mapr (fun t => s <-- getidx ss t ;; g <-- getidx gs t.-1 ;;
           gt <-- tr g ;; c <-- dot (s_c s) gt ;; assign2 n n c) (iota (size ps).+1 d))
        (fun ps' h' _ => h' = h2 ++ [:: CRows (zeros2 n n :: ps ++ ps')]).
Proof.
move=> Hc Hg Hs; elim: d ps => [|d IH] ps Hd /=.
  by eexists; eexists; split; first exact: erefl; rewrite cats0.
have Hlt : (size ps < size gs)%N by rewrite Hd addnS ltnS leq_addr.
have [g Eg] : exists g, getidx gs (size ps) = Ok g by exact: getidx_some.
have [sr Es] : exists sr, getidx ss (size ps).+1 = Ok sr by apply: getidx_some; rewrite Hs.
rewrite Es Eg.
apply: (@sim_bind _ _ _ _ _ _ _ _ _ _ _
  (fun p h' _ => h' = h2 ++ [:: CRows (zeros2 n n :: rcons ps p ++ nseq d (zeros2 n n))])).
  rewrite (rb_getp (w := s_c sr) _ _ Hc); last by rewrite getidx_map Es.
  rewrite (rb_getp _ _ Hg Eg).
  apply: sim_step => gt _; apply: sim_step => x _; apply: sim_step_last => x' _.
  rewrite set_rowE'; last by rewrite /= size_cat /= addnS ltnS ltnS leq_addr.
  by apply: sim_ok; rewrite put0 /= upd_nth_catr0 cat_rcons.
move=> p h' [] ->; apply: sim_map.
have := IH (rcons ps p); rewrite size_rcons addSnnS => /(_ Hd) H.
by apply: sim_post H _ => w h b ->; rewrite cat_rcons.
Qed.

Lemma smooth_pair_h_sim : getidx h2 (b_sc s) = Ok (CRows (map (@s_c R) ss)) ->
  getidx h2 (b_sg s) = Ok (CRows gs) -> size ss = (size gs).+1 ->
  sim h2 (smooth_pair_h s (size ss) n h2) (smooth_pair n ss gs)
    (fun pw h' a => [/\ a = (size h2 + 0)%N, h' = h2 ++ [:: CRows pw] & size pw = size ss]).
Proof.
move=> Hc Hg Hs; rewrite /smooth_pair_h /smooth_pair -{2}[h2]cats0.
rewrite (rb_eq _ (alloc_cat _ _ _)) Hs [_.+1.-1]/=.
have := @pair_for_sim [::] (size gs) Hc Hg Hs erefl.
case Em: mapr => [pw|e] [].
- move=> h' [[] [E Eh]].
  rewrite (rb_eq _ E); apply: sim_ok; split=> //.
  + by rewrite Eh; case: ss Hs.
  + by have Ew := mapr_ok_size Em; rewrite size_iota in Ew; case: ss Hs => //= _ _ _; rewrite Ew.
- by move=> tl E; exists tl; rewrite (rb_err _ E).
Qed.
End Pair.

Section Loglik.
Variable R : rcfType.
Notation arr := (arr R).
Notation heap := (heap R).
Variables (ln : R -> R) (ln2pi : R).
Variables (h0 : heap) (p : hparams) (q : kfparams R) (x : nat) (X : obs R) (k : nat)
  (zs : seq (orow R k)) (rows : seq (frow R)) (b : fbufs).
Hypothesis Hp : reads h0 p q.
Hypothesis Hx : getidx h0 x = Ok (CObs X).
Hypothesis HX : parse_observations X = existT _ k zs.
Hypothesis Hb : frows_at h0 b rows.

Lemma loglik_step_sim ls d z r : getidx zs (size ls) = Ok z -> getidx rows (size ls) = Ok r ->
  sim h0 (loglik_step_h ln ln2pi p x b (size h0 + 0) (size ls)
            (h0 ++ [:: CRows (map (@A0 R) ls ++ nseq d.+1 (A0 0))]))
         (loglik_step ln ln2pi q (size ls) r z)
         (fun l h' _ => h' = h0 ++ [:: CRows (map (@A0 R) (rcons ls l) ++ nseq d (A0 0))]).
Proof.
move=> Hz Hr; have [[Htm Hto Htc Hom] [Hoo Hoc Him Hic]] := Hp.
have [Hpm Hpc Hfm Hfc] := Hb.
rewrite /loglik_step_h /loglik_step (rb_eq _ (obs_atE Hx HX _ Hz)) [projT2 _]/=.
case: (missing z); rewrite [~~ _]/=; lazy iota; last first.
  rewrite (rb_eq _ (vloadE _ Hom)); apply: sim_step => C _.
  rewrite (rb_eq _ (vloadE _ Hoo)); apply: sim_step => dd _.
  rewrite (rb_getp (w := f_pm r) _ _ Hpm); last by rewrite getidx_map Hr.
  apply: sim_step => o1 _; apply: sim_step => zhat _; apply: sim_step => Ct _.
  rewrite (rb_getp (w := f_pc r) _ _ Hpc); last by rewrite getidx_map Hr.
  apply: sim_step => s1 _; apply: sim_step => s2 _.
  rewrite (rb_eq _ (vloadE _ Hoc)).
  apply: sim_step => s3 _; apply: sim_step_last => l _.
  rewrite set_rowE'; last exact: lt_mid.
  by apply: sim_ok; rewrite put0 upd_mid // map_rcons cat_rcons.
by apply: sim_ok; rewrite map_rcons cat_rcons.
Qed.

Lemma loglik_for_sim ls zs' rows' : zs = take (size ls) zs ++ zs' -> (size ls <= size zs)%N ->
  rows = take (size ls) rows ++ rows' -> size rows = size zs ->
  sim h0 (for_in (iota (size ls) (size zs')) (loglik_step_h ln ln2pi p x b (size h0 + 0))
            (h0 ++ [:: CRows (map (@A0 R) ls ++ nseq (size zs') (A0 0))]))
         (loglik_loop ln ln2pi q (size ls) rows' zs')
         (fun ls' h' _ => h' = h0 ++ [:: CRows (map (@A0 R) (ls ++ ls'))]).
Proof.
move=> + + + Hsz; elim: zs' rows' ls => [|z zs' IH] [|r rows'] ls Ez Hl Er.
- by apply: sim_ok; rewrite cats0 /= cats0.
- by apply: sim_ok; rewrite cats0 /= cats0.
- have := congr1 size Er; rewrite cats0 Hsz {1}Ez size_cat !size_takel ?Hsz // => /eqP.
  by rewrite -{2}[size ls]addn0 eqn_add2l.
have Hz : getidx zs (size ls) = Ok z by rewrite Ez; apply: getidx_at; rewrite size_takel.
have Hr : getidx rows (size ls) = Ok r by rewrite Er; apply: getidx_at; rewrite size_takel ?Hsz.
apply: sim_bind (loglik_step_sim _ Hz Hr) _ => l h' [] ->.
apply: sim_map.
have tk T (s : seq T) y s' : s = take (size ls) s ++ y :: s' -> (size ls <= size s)%N ->
    s = take (size (rcons ls l)) s ++ s'.
  move=> Es Hs; rewrite size_rcons {1}Es -cat_rcons; congr cat.
  rewrite {2}Es take_cat size_takel // ltnNge leqnSn /= subSnn /=.
  by rewrite take0 cats1.
have Hl' : (size (rcons ls l) <= size zs)%N by rewrite size_rcons; exact: getidx_ltn Hz.
have := IH rows' (rcons ls l) (tk _ _ _ _ Ez Hl) Hl' (tk _ _ _ _ Er _).
rewrite Hsz size_rcons => /(_ Hl) H.
by apply: sim_post H _ => w h c ->; rewrite cat_rcons.
Qed.

Lemma loglik_h_sim : size rows = size zs ->
  sim h0 ((ll <~~ alloc (CRows (nseq (size zs) (A0 0))) ;;
           _ <~~ for_in (iota 0 (size zs)) (loglik_step_h ln ln2pi p x b ll) ;;
           sum_h ll) h0)
         (ls <-- loglik_loop ln ln2pi q 0 rows zs ;; Ok (\sum_(l <- ls) l))
         (fun l h' l' => l' = l /\ exists tl, h' = h0 ++ tl).
Proof.
move=> Hsz; rewrite -{2}[h0]cats0 (rb_eq _ (alloc_cat _ _ _)).
have Ez : zs = take (size (@nil R)) zs ++ zs by rewrite take0.
have Er : rows = take (size (@nil R)) rows ++ rows by rewrite take0.
have := loglik_for_sim Ez isT Er Hsz.
case: loglik_loop => [ls|e] [].
- move=> h' [[] [E Eh]]; rewrite (rb_eq _ E) Eh /sum_h /rbind /load getidx_catr /rlift.
  apply: sim_ok; split; last by eexists.
  by rewrite [map _ _]/= big_map.
- by move=> tl E; exists tl; rewrite (rb_err _ E).
Qed.
End Loglik.
