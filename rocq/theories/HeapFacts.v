(** Lemmas about programs with memory (Heap.v). *)
From mathcomp Require Import all_ssreflect all_algebra.
From Coq Require Import String.
From Verif Require Import Prelude LinAlg Numpy Sklearn Standard Rng Heap HeapSpec.
Import GRing.Theory Num.Theory.

Set Implicit Arguments.
Unset Strict Implicit.
Unset Printing Implicit Defensive.
Local Open Scope ring_scope.

Section Facts.
Variable R : rcfType.
Notation arr := (arr R).
Notation heap := (heap R).
Implicit Types (h : heap) (v : view).

Lemma getidx_catr T (s1 s2 : seq T) i : getidx (s1 ++ s2) (size s1 + i)%N = getidx s2 i.
Proof. by elim: s1 => [|x s1 IH] //=; rewrite addSn /getidx /= -/(getidx _ _) IH. Qed.
Lemma getidx_catr0 T (s1 s2 : seq T) : getidx (s1 ++ s2) (size s1) = getidx s2 0.
Proof. by rewrite -{1}(addn0 (size s1)) getidx_catr. Qed.
Lemma getidx_catl T (s1 s2 : seq T) i w : getidx s1 i = Ok w -> getidx (s1 ++ s2) i = Ok w.
Proof. by elim: s1 i => [|x s1 IH] [|i] //=; rewrite /getidx /= -/(getidx _ _) => /IH. Qed.
Lemma getidx_ltn T (s : seq T) i w : getidx s i = Ok w -> (i < size s)%N.
Proof. by elim: s i => [|x s IH] [|i] //= /IH. Qed.
Lemma getidx_some T (s : seq T) i : (i < size s)%N -> exists w, getidx s i = Ok w.
Proof.
elim: s i => [|x s IH] [|i] //=; first by exists x.
by rewrite ltnS => /IH [w E]; exists w; rewrite /getidx /= -/(getidx _ _).
Qed.
Lemma getidx_map T U (f : T -> U) (s : seq T) i :
  getidx (map f s) i = (w <-- getidx s i ;; Ok (f w)).
Proof. by elim: s i => [|x s IH] [|i] //=; rewrite /getidx /= -/(getidx _ _) IH. Qed.

Lemma size_upd_nth T (s : seq T) i w : size (upd_nth s i w) = size s.
Proof. by elim: s i => [|x s IH] [|i] //=; rewrite IH. Qed.
Lemma upd_nth_catr T (s1 s2 : seq T) i w :
  upd_nth (s1 ++ s2) (size s1 + i)%N w = s1 ++ upd_nth s2 i w.
Proof. by elim: s1 => [|x s1 IH] //=; rewrite IH. Qed.
Lemma upd_nth_catr0 T (s1 s2 : seq T) w : upd_nth (s1 ++ s2) (size s1) w = s1 ++ upd_nth s2 0 w.
Proof. by rewrite -{1}(addn0 (size s1)) upd_nth_catr. Qed.

Lemma upd_rep T (z : T) d L w : upd_nth (nseq d.+1 z ++ L) d w = nseq d z ++ w :: L.
Proof. by elim: d => //= d <-. Qed.
Lemma getidx_at T (s1 s2 : seq T) w i : size s1 = i -> getidx (s1 ++ w :: s2) i = Ok w.
Proof. by move=> <-; rewrite getidx_catr0. Qed.
Lemma getidx_at1 T (s1 s2 : seq T) y w i : size s1 = i -> getidx (s1 ++ y :: w :: s2) i.+1 = Ok w.
Proof. by move=> <-; rewrite -addn1 getidx_catr. Qed.
Lemma for_in_rcons s t (f : nat -> prog R unit) h :
  for_in (rcons s t) f h = rbind (for_in s f) (fun _ => f t) h.
Proof.
elim: s h => [|u s IH] h /=.
  by rewrite /rbind /rlift; case: (f t h) => h' [[]|].
by rewrite /rbind; case: (f u h) => h' [[]|] //=; rewrite IH /rbind.
Qed.

Lemma overwriteE (h : heap) a c : overwrite h a c = upd_nth h a c.
Proof. by elim: h a => [|b h IH] [|a] //=; rewrite IH. Qed.
Lemma getidx_upd T (s : seq T) i j w : i <> j -> getidx (upd_nth s i w) j = getidx s j.
Proof.
elim: s i j => [|y s IH] [|i] [|j] //= H; rewrite /getidx /= -!/(getidx _ _).
by apply: IH => E; apply: H; rewrite E.
Qed.
Lemma vread_overwrite (h : heap) a c v : v_addr v <> a -> vread (overwrite h a c) v = vread h v.
Proof. by move=> H; rewrite /vread overwriteE getidx_upd // => E; apply: H. Qed.
Lemma shows_overwrite (h : heap) a c (v : option view) w : (forall u, v = Some u -> v_addr u <> a) ->
  shows h v w -> shows (overwrite h a c) v w.
Proof.
case: v w => [v|] [w|] //= H; rewrite vread_overwrite //; exact: H.
Qed.

(** programs *)
Lemma rb_eq A B (P : prog R A) (Q : A -> prog R B) h h' a :
  P h = (h', Ok a) -> rbind P Q h = Q a h'.
Proof. by rewrite /rbind => ->. Qed.
Lemma rb_err A B (P : prog R A) (Q : A -> prog R B) h h' e :
  P h = (h', Err e) -> rbind P Q h = (h', Err e).
Proof. by rewrite /rbind => ->. Qed.

Lemma alloc_cat (h tl : heap) c : alloc c (h ++ tl) = (h ++ rcons tl c, Ok (size h + size tl)%N).
Proof. by rewrite /alloc rcons_cat size_cat. Qed.

Lemma get_rowE h a t (s : seq arr) w :
  getidx h a = Ok (CRows s) -> getidx s t = Ok w -> get_row a t h = (h, Ok w).
Proof. by move=> H1 H2; rewrite /get_row /rbind /load H1 /rlift H2. Qed.

Lemma set_rowE (h tl : heap) i t (s : seq arr) w :
  getidx tl i = Ok (CRows s) -> (t < size s)%N ->
  set_row (size h + i) t w (h ++ tl) = (h ++ upd_nth tl i (CRows (upd_nth s t w)), Ok tt).
Proof.
move=> H1 H2; rewrite /set_row /rbind /load getidx_catr H1 H2 /store.
by rewrite size_cat ltn_add2l (getidx_ltn H1) upd_nth_catr.
Qed.

(** rows of a buffer *)
Definition rows_of (tl : heap) i : seq arr := if getidx tl i is Ok (CRows s) then s else [::].
Definition put (tl : heap) i t w : heap := upd_nth tl i (CRows (upd_nth (rows_of tl i) t w)).
Lemma put0 s (tl : heap) t w : put (CRows s :: tl) 0 t w = CRows (upd_nth s t w) :: tl.
Proof. by []. Qed.
Lemma putS c (tl : heap) i t w : put (c :: tl) i.+1 t w = c :: put tl i t w.
Proof. by []. Qed.
Lemma set_rowE' (h tl : heap) i t w : (t < size (rows_of tl i))%N ->
  set_row (size h + i) t w (h ++ tl) = (h ++ put tl i t w, Ok tt).
Proof.
rewrite /put /rows_of; case E: getidx => [[?|s|?]|] //= Ht; exact: set_rowE.
Qed.
Lemma rb_set A (Q : unit -> prog R A) (h tl : heap) i t w : (t < size (rows_of tl i))%N ->
  rbind (set_row (size h + i) t w) Q (h ++ tl) = Q tt (h ++ put tl i t w).
Proof. by move=> H; rewrite (rb_eq _ (set_rowE' h w H)). Qed.
Lemma rb_get A w (Q : arr -> prog R A) (h tl : heap) i t : getidx (rows_of tl i) t = Ok w ->
  rbind (get_row (size h + i) t) Q (h ++ tl) = Q w (h ++ tl).
Proof.
rewrite /rows_of; case E: (getidx tl i) => [[?|s|?]|] Ht; try by case: t Ht.
by apply: rb_eq; apply: get_rowE Ht; rewrite getidx_catr.
Qed.

Lemma vloadE h tl v w : vread h v = Ok w -> vload v (h ++ tl) = (h ++ tl, Ok w).
Proof.
rewrite /vread /vload /rbind /load; case E: getidx => [c|] //= H.
by rewrite (getidx_catl _ E) /rlift H.
Qed.
Lemma rb_getp A w (Q : arr -> prog R A) (h tl : heap) a t s :
  getidx h a = Ok (CRows s) -> getidx s t = Ok w ->
  rbind (get_row a t) Q (h ++ tl) = Q w (h ++ tl).
Proof. by move=> H1 H2; apply: rb_eq; apply: get_rowE H2; exact: getidx_catl. Qed.
Lemma vread_cat h tl v w : vread h v = Ok w -> vread (h ++ tl) v = Ok w.
Proof. by rewrite /vread; case E: getidx => [c|] //=; rewrite (getidx_catl _ E). Qed.

(** simulation of a computation on values: the memory present at the start, [h0],
    stays as it is *)
Definition sim A B (h0 : heap) (x : heap * res B) (F : res A) (K : A -> heap -> B -> Prop) : Prop :=
  match F with
  | Ok w => exists h' b, x = (h', Ok b) /\ K w h' b
  | Err e => exists tl, x = (h0 ++ tl, Err e)
  end.

Lemma sim_bind A B A' B' (h0 h : heap) (P : prog R B) (Q : B -> prog R B') (F : res A)
    (G : A -> res A') (K : A -> heap -> B -> Prop) (K' : A' -> heap -> B' -> Prop) :
  sim h0 (P h) F K ->
  (forall w h' b, K w h' b -> sim h0 (Q b h') (G w) K') ->
  sim h0 (rbind P Q h) (bind F G) K'.
Proof.
case: F => [w|e] /=.
- by move=> [h' [b [E H]]] HQ; rewrite (rb_eq _ E); exact: HQ.
- by move=> [tl E] _; exists tl; rewrite (rb_err _ E).
Qed.

Lemma sim_step A A' B' (h0 tl : heap) (Q : A -> prog R B') (F : res A)
    (G : A -> res A') (K' : A' -> heap -> B' -> Prop) :
  (forall w, F = Ok w -> sim h0 (Q w (h0 ++ tl)) (G w) K') ->
  sim h0 (rbind (rlift F) Q (h0 ++ tl)) (bind F G) K'.
Proof.
case: F => [w|e] /= H; first exact: H.
by exists tl.
Qed.
Lemma sim_last A (h0 tl : heap) (F : res A) (K : A -> heap -> A -> Prop) :
  (forall w, F = Ok w -> K w (h0 ++ tl) w) -> sim h0 (rlift F (h0 ++ tl)) F K.
Proof.
case: F => [w|e] /= H; first by exists (h0 ++ tl), w; split=> //; exact: H.
by exists tl.
Qed.
Lemma sim_step_last A B' (h0 tl : heap) (Q : A -> prog R B') (F : res A)
    (K' : A -> heap -> B' -> Prop) :
  (forall w, F = Ok w -> sim h0 (Q w (h0 ++ tl)) (Ok w) K') ->
  sim h0 (rbind (rlift F) Q (h0 ++ tl)) F K'.
Proof.
case: F => [w|e] /= H; first exact: H.
by exists tl.
Qed.
Lemma sim_map A A' B h0 (x : heap * res B) (F : res A) (f : A -> A') (K : A' -> heap -> B -> Prop) :
  sim h0 x F (fun w h b => K (f w) h b) -> sim h0 x (w <-- F ;; Ok (f w)) K.
Proof. by case: F. Qed.
Lemma sim_post A B h0 (x : heap * res B) (F : res A) (K K' : A -> heap -> B -> Prop) :
  sim h0 x F K -> (forall w h b, K w h b -> K' w h b) -> sim h0 x F K'.
Proof. by case: F => [w|e] //= [h' [b [E H]]] HK; exists h', b; split=> //; exact: HK. Qed.
Lemma sim_ok A B h0 h (w : A) (b : B) (K : A -> heap -> B -> Prop) :
  K w h b -> sim h0 (h, Ok b) (Ok w) K.
Proof. by move=> H; exists h, b. Qed.
Lemma sim_weak A B h0 tl x (F : res A) (K K' : A -> heap -> B -> Prop) :
  sim (h0 ++ tl) x F K -> (forall w h b, K w h b -> K' w h b) -> sim h0 x F K'.
Proof.
case: F => [w|e] /=.
- by move=> [h' [b [E H]]] HK; exists h', b; split=> //; exact: HK.
- by move=> [tl' ->] _; exists (tl ++ tl'); rewrite catA.
Qed.
End Facts.
