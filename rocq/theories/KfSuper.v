(** Superposition: the means are linear in data, offsets and initial mean. *)
From Coq Require Import String List.
From mathcomp Require Import all_ssreflect all_algebra.
From Verif Require Import Prelude Zmod LinAlg Numpy Sklearn Standard Model KfSpec KfSuperSpec StandardFacts KfModelFacts KfGlue
  KfLoglik KfOptimal EmGlue Examples Exists.
Import Order.Theory GRing.Theory Num.Theory.

Set Implicit Arguments.
Unset Strict Implicit.
Unset Printing Implicit Defensive.
Local Open Scope ring_scope.

Lemma sgain_eq (R : rcfType) n m (K K' : lgm R n m) w w' t : mA K t = mA K' t -> (filt K w t).2 = (filt K' w' t).2 ->
  (pred K w t.+1).2 = (pred K' w' t.+1).2 -> sgain K w t = sgain K' w' t.
Proof. by rewrite /sgain; move: (filt K w t).2 (filt K' w' t).2 (pred K w t.+1).2 (pred K' w' t.+1).2 => a b c d -> -> ->. Qed.

Section Super.
Variables (R : rcfType) (n m : nat) (M : lgm R n m) (mis : nat -> bool).
Variables (b1 b2 : nat -> 'cV[R]_n) (d1 d2 : nat -> 'cV[R]_m) (mu1 mu2 : 'cV[R]_n) (y1 y2 : nat -> 'cV[R]_m) (a1 a2 : R).
Let M1 := with_means M b1 d1 mu1.
Let M2 := with_means M b2 d2 mu2.
Let M3 := with_means M (mix a1 a2 b1 b2) (mix a1 a2 d1 d2) (a1 *: mu1 + a2 *: mu2).
Let z1 := ym mis y1.
Let z2 := ym mis y2.
Let z3 := ym mis (mix a1 a2 y1 y2).

Definition comb (s1 s2 s3 : 'cV[R]_n * 'M[R]_n) : Prop := [/\ s3.1 = a1 *: s1.1 + a2 *: s2.1, s2.2 = s1.2 & s3.2 = s1.2].

Lemma c2 s1 s2 s3 : comb s1 s2 s3 -> s2.2 = s1.2. Proof. by case. Qed.
Lemma c3 s1 s2 s3 : comb s1 s2 s3 -> s3.2 = s1.2. Proof. by case. Qed.
Lemma comb_correct t s1 s2 s3 : comb s1 s2 s3 -> comb (correct M1 z1 t s1) (correct M2 z2 t s2) (correct M3 z3 t s3).
Proof.
case: s1 s2 s3 => [u1 P1] [u2 P2] [u3 P3] [/= -> -> ->].
rewrite /correct /z1 /z2 /z3 /ym; case: (mis t) => //.
have Eg (K K' : lgm R n m) : mC K = mC K' -> mR K = mR K' -> gain K t P1 = gain K' t P1 by rewrite /gain /innov_cov => -> ->.
rewrite (Eg M2 M1) // (Eg M3 M1) //.
split=> //=; move: (gain _ _ _) => K; rewrite /mix /=.
rewrite !scalerDr !scalemxAr addrACA -mulmxDr; congr (_ + _ *m _).
rewrite !mulmxDr -!scalemxAr !scalerBr !scalerDr.
move: (a1 *: y1 t) (a2 *: y2 t) (a1 *: (mC M t *m u1)) (a2 *: (mC M t *m u2)) (a1 *: d1 t) (a2 *: d2 t) => v1 v2 v3 v4 v5 v6; zmod.
Qed.
Lemma comb_predict t s1 s2 s3 : comb s1 s2 s3 -> comb (predict M1 t s1) (predict M2 t s2) (predict M3 t s3).
Proof.
case: s1 s2 s3 => [u1 P1] [u2 P2] [u3 P3] [/= -> -> ->]; split=> //=.
rewrite /mix mulmxDr -!scalemxAr !scalerDr; exact: addrACA.
Qed.
Lemma comb_pred t : comb (pred M1 z1 t) (pred M2 z2 t) (pred M3 z3 t).
Proof.
elim: t => [|t IH]; first exact: (And3 erefl erefl erefl).
exact: (comb_predict t (comb_correct t IH)).
Qed.
Lemma comb_filt t : comb (filt M1 z1 t) (filt M2 z2 t) (filt M3 z3 t).
Proof. exact: (comb_correct t (comb_pred t)). Qed.
Lemma comb_back (L : 'M[R]_n) f1 f2 f3 p1 p2 p3 s1 s2 s3 : comb f1 f2 f3 -> comb p1 p2 p3 -> comb s1 s2 s3 ->
  comb (f1.1 + L *m (s1.1 - p1.1), f1.2 + L *m ((s1.2 - p1.2) *m L^T)) (f2.1 + L *m (s2.1 - p2.1), f2.2 + L *m ((s2.2 - p2.2) *m L^T))
    (f3.1 + L *m (s3.1 - p3.1), f3.2 + L *m ((s3.2 - p3.2) *m L^T)).
Proof.
case: f1 f2 f3 p1 p2 p3 s1 s2 s3 => [f1 F1] [f2 F2] [f3 F3] [p1 P1] [p2 P2] [p3 P3] [s1 S1] [s2 S2] [s3 S3].
move=> [/= -> -> ->] [/= -> -> ->] [/= -> -> ->]; split=> //=.
rewrite !scalerDr !scalemxAr addrACA -mulmxDr; congr (_ + _ *m _).
rewrite !scalerBr; move: (a1 *: s1) (a2 *: s2) (a1 *: p1) (a2 *: p2) => v1 v2 v3 v4; zmod.
Qed.
Lemma comb_smo j t : comb (smo M1 z1 j t) (smo M2 z2 j t) (smo M3 z3 j t).
Proof.
elim: j t => [|j IH] t; first exact: comb_filt.
have E (K : lgm R n m) w : smo K w j.+1 t = ((filt K w t).1 + sgain K w t *m ((smo K w j t.+1).1 - (pred K w t.+1).1),
   (filt K w t).2 + sgain K w t *m (((smo K w j t.+1).2 - (pred K w t.+1).2) *m (sgain K w t)^T)) by exact: erefl.
rewrite !E.
have EG2 : sgain M2 z2 t = sgain M1 z1 t by exact: (@sgain_eq R n m M2 M1 z2 z1 t erefl (c2 (comb_filt t)) (c2 (comb_pred t.+1))).
have EG3 : sgain M3 z3 t = sgain M1 z1 t by exact: (@sgain_eq R n m M3 M1 z3 z1 t erefl (c3 (comb_filt t)) (c3 (comb_pred t.+1))).
rewrite EG2 EG3; exact: (comb_back _ (comb_filt t) (comb_pred t.+1) (IH t.+1)).
Qed.
End Super.

Section Origin.
Variables (R : rcfType) (n m : nat) (M : lgm R n m) (h : nat -> 'cV[R]_n) (y : nat -> option 'cV[R]_m).
Let M' := moving_origin M h.
Lemma origin_correct t s : correct M' y t (s.1 + h t, s.2) = ((correct M y t s).1 + h t, (correct M y t s).2).
Proof.
rewrite /correct; case: (y t) => [z|] //.
have -> : gain M' t (s.1 + h t, s.2).2 = gain M t s.2 by exact: erefl.
apply: (f_equal2 pair); last exact: erefl.
rewrite /= addrAC; congr (_ + _ *m _ + _); rewrite mulmxDr; mx.
Qed.
Lemma origin_pred t : pred M' y t = ((pred M y t).1 + h t, (pred M y t).2).
Proof.
elim: t => [|t IH]; first exact: erefl.
have E (K : lgm R n m) : pred K y t.+1 = predict K t (correct K y t (pred K y t)) by exact: erefl.
rewrite !E IH origin_correct; move: (correct _ _ _ _) => [u P]; apply: (f_equal2 pair); last exact: erefl.
rewrite /= mulmxDr; mx.
Qed.
Lemma origin_filt t : filt M' y t = ((filt M y t).1 + h t, (filt M y t).2).
Proof. by rewrite /filt origin_pred origin_correct. Qed.
Lemma origin_back (L : 'M[R]_n) (f p s : 'cV[R]_n * 'M[R]_n) u v :
  ((f.1 + u, f.2).1 + L *m ((s.1 + v, s.2).1 - (p.1 + v, p.2).1), (f.1 + u, f.2).2 + L *m (((s.1 + v, s.2).2 - (p.1 + v, p.2).2) *m L^T)) =
  ((f.1 + L *m (s.1 - p.1), f.2 + L *m ((s.2 - p.2) *m L^T)).1 + u, (f.1 + L *m (s.1 - p.1), f.2 + L *m ((s.2 - p.2) *m L^T)).2).
Proof.
case: f p s => [f F] [p P] [s S] /=; apply: (f_equal2 pair); last exact: erefl.
by rewrite addrAC opprD addrACA subrr addr0.
Qed.
Lemma origin_smo j t : smo M' y j t = ((smo M y j t).1 + h t, (smo M y j t).2).
Proof.
elim: j t => [|j IH] t; first exact: origin_filt.
have E (K : lgm R n m) w : smo K w j.+1 t = ((filt K w t).1 + sgain K w t *m ((smo K w j t.+1).1 - (pred K w t.+1).1),
   (filt K w t).2 + sgain K w t *m (((smo K w j t.+1).2 - (pred K w t.+1).2) *m (sgain K w t)^T)) by exact: erefl.
rewrite !E; have EG : sgain M' y t = sgain M y t by apply: sgain_eq; [exact: erefl|rewrite origin_filt|rewrite origin_pred].
rewrite EG IH origin_filt origin_pred; exact: origin_back.
Qed.
End Origin.

Section Api.
Variables (R : rcfType) (n m : nat) (M : lgm R n m) (T : nat).
Hypothesis Hk : (T != 1%N) || (m <= 1)%N.

Lemma super_api (mis : nat -> bool) b1 b2 d1 d2 mu1 mu2 (y1 y2 : nat -> 'cV[R]_m) (a1 a2 : R) (o1 o2 o3 : kf R) (zs1 zs2 zs3 : seq (orow R m)) :
  kf_model o1 T (with_means M b1 d1 mu1) -> kf_model o2 T (with_means M b2 d2 mu2) ->
  kf_model o3 T (with_means M (mix a1 a2 b1 b2) (mix a1 a2 d1 d2) (a1 *: mu1 + a2 *: mu2)) ->
  rows_of T mis y1 zs1 -> rows_of T mis y2 zs2 -> rows_of T mis (mix a1 a2 y1 y2) zs3 ->
  exists (f1 f2 s1 s2 : nat -> 'cV[R]_n) (P S : nat -> 'M[R]_n),
  [/\ kf_filter o1 (O2 m zs1) = Ok [seq (A1 (f1 t), A2 (P t)) | t <- iota 0 T],
      kf_filter o2 (O2 m zs2) = Ok [seq (A1 (f2 t), A2 (P t)) | t <- iota 0 T] &
      kf_filter o3 (O2 m zs3) = Ok [seq (A1 (mix a1 a2 f1 f2 t), A2 (P t)) | t <- iota 0 T]] /\
  ((0 < T)%N -> [/\ kf_smooth o1 (O2 m zs1) = Ok [seq (A1 (s1 t), A2 (S t)) | t <- iota 0 T],
      kf_smooth o2 (O2 m zs2) = Ok [seq (A1 (s2 t), A2 (S t)) | t <- iota 0 T] &
      kf_smooth o3 (O2 m zs3) = Ok [seq (A1 (mix a1 a2 s1 s2 t), A2 (S t)) | t <- iota 0 T]]).
Proof.
move=> H1 H2 H3 r1 r2 r3.
pose M1 := with_means M b1 d1 mu1; pose M2 := with_means M b2 d2 mu2.
pose M3 := with_means M (mix a1 a2 b1 b2) (mix a1 a2 d1 d2) (a1 *: mu1 + a2 *: mu2).
have F (K : lgm R n m) y zs t : rows_of T mis y zs -> (t < T)%N -> filt K (stream zs) t = filt K (ym mis y) t.
  by move=> r tT; apply: filt_ext => s st; apply: (stream_rows r); exact: leq_ltn_trans tT.
have G (K : lgm R n m) y zs t : rows_of T mis y zs -> (t < T)%N -> smo K (stream zs) (T.-1 - t) t = smo K (ym mis y) (T.-1 - t) t.
  move=> r tT; apply: smo_ext => s st; apply: (stream_rows r); apply: leq_ltn_trans st _; exact: idx_lt.
exists (fun t => (filt M1 (ym mis y1) t).1), (fun t => (filt M2 (ym mis y2) t).1).
exists (fun t => (smo M1 (ym mis y1) (T.-1 - t) t).1), (fun t => (smo M2 (ym mis y2) (T.-1 - t) t).1).
exists (fun t => (filt M1 (ym mis y1) t).2), (fun t => (smo M1 (ym mis y1) (T.-1 - t) t).2).
have z1 := size_rows r1; have z2 := size_rows r2; have z3 := size_rows r3.
have CF t := comb_filt M mis b1 b2 d1 d2 mu1 mu2 y1 y2 a1 a2 t.
have CS j t := comb_smo M mis b1 b2 d1 d2 mu1 mu2 y1 y2 a1 a2 j t.
have E (p q : 'cV[R]_n * 'M[R]_n) u V : p = q -> q.1 = u -> q.2 = V -> (A1 p.1, A2 p.2) = (A1 u, A2 V) :> arr R * arr R by move=> -> -> ->.
split=> [|T0]; split.
- rewrite (kf_filter_ok H1 z1 Hk); apply: f_equal; apply: iota_map_ext => t; rewrite add0n leq0n andTb => tT.
  by apply: E (F M1 _ _ _ r1 tT) erefl erefl.
- rewrite (kf_filter_ok H2 z2 Hk); apply: f_equal; apply: iota_map_ext => t; rewrite add0n leq0n andTb => tT.
  by apply: E (F M2 _ _ _ r2 tT) erefl (c2 (CF t)).
- rewrite (kf_filter_ok H3 z3 Hk); apply: f_equal; apply: iota_map_ext => t; rewrite add0n leq0n andTb => tT.
  by apply: E (F M3 _ _ _ r3 tT) _ (c3 (CF t)); case: (CF t).
- rewrite (kf_smooth_ok H1 z1 Hk T0); apply: f_equal; apply: iota_map_ext => t; rewrite add0n leq0n andTb => tT.
  by apply: E (G M1 _ _ _ r1 tT) erefl erefl.
- rewrite (kf_smooth_ok H2 z2 Hk T0); apply: f_equal; apply: iota_map_ext => t; rewrite add0n leq0n andTb => tT.
  by apply: E (G M2 _ _ _ r2 tT) erefl (c2 (CS _ t)).
- rewrite (kf_smooth_ok H3 z3 Hk T0); apply: f_equal; apply: iota_map_ext => t; rewrite add0n leq0n andTb => tT.
  by apply: E (G M3 _ _ _ r3 tT) _ (c3 (CS _ t)); case: (CS (T.-1 - t)%N t).
Qed.

Lemma origin_api (h : nat -> 'cV[R]_n) (o o' : kf R) (zs : seq (orow R m)) : kf_model o T M -> kf_model o' T (moving_origin M h) -> size zs = T ->
  exists (f s : nat -> 'cV[R]_n) (P S : nat -> 'M[R]_n),
  [/\ kf_filter o (O2 m zs) = Ok [seq (A1 (f t), A2 (P t)) | t <- iota 0 T] &
      kf_filter o' (O2 m zs) = Ok [seq (A1 (f t + h t), A2 (P t)) | t <- iota 0 T]] /\
  ((0 < T)%N -> kf_smooth o (O2 m zs) = Ok [seq (A1 (s t), A2 (S t)) | t <- iota 0 T] /\
      kf_smooth o' (O2 m zs) = Ok [seq (A1 (s t + h t), A2 (S t)) | t <- iota 0 T]).
Proof.
move=> Ho Ho' Hsz.
exists (fun t => (filt M (stream zs) t).1), (fun t => (smo M (stream zs) (T.-1 - t) t).1).
exists (fun t => (filt M (stream zs) t).2), (fun t => (smo M (stream zs) (T.-1 - t) t).2).
have E (p q : 'cV[R]_n * 'M[R]_n) u : p = (q.1 + u, q.2) -> (A1 p.1, A2 p.2) = (A1 (q.1 + u), A2 q.2) :> arr R * arr R by move=> ->.
split=> [|T0]; split.
- exact: (kf_filter_ok Ho Hsz Hk).
- rewrite (kf_filter_ok Ho' Hsz Hk); apply: f_equal; apply: iota_map_ext => t _; apply: E; exact: origin_filt.
- exact: (kf_smooth_ok Ho Hsz Hk T0).
- rewrite (kf_smooth_ok Ho' Hsz Hk T0); apply: f_equal; apply: iota_map_ext => t _; apply: E; exact: origin_smo.
Qed.
End Api.
