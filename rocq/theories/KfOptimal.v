(** KalmanFilter.filter / smooth return best affine estimates. *)
From mathcomp Require Import all_ssreflect all_algebra.
From Verif Require Import Prelude Zmod LinAlg Numpy NumpyFacts Sklearn Standard Model StandardInit StandardFacts
  SpecL2 L2Facts Lmmse Exists.
Import GRing.Theory Num.Theory Order.Theory.

Set Implicit Arguments.
Unset Strict Implicit.
Unset Printing Implicit Defensive.
Local Open Scope ring_scope.

(** extensionality of the recursions in the data *)
Section Ext.
Variables (R : rcfType) (n m : nat) (M : lgm R n m) (y y' : nat -> option 'cV[R]_m).

Lemma correct_ext t s : y t = y' t -> correct M y t s = correct M y' t s.
Proof. by rewrite /correct => ->. Qed.
Lemma pred_ext t : (forall s, (s < t)%N -> y s = y' s) -> pred M y t = pred M y' t.
Proof.
elim: t => [|t IH] H //=; rewrite IH => [|s st]; last by apply: H; exact: ltnW.
by rewrite correct_ext ?H.
Qed.
Lemma filt_ext t : (forall s, (s <= t)%N -> y s = y' s) -> filt M y t = filt M y' t.
Proof.
move=> H; rewrite /filt pred_ext; last by move=> s st; apply: H; exact: ltnW.
by rewrite correct_ext ?H.
Qed.
Lemma sgain_ext t : (forall s, (s <= t)%N -> y s = y' s) -> sgain M y t = sgain M y' t.
Proof. by move=> H; rewrite /sgain filt_ext // (@pred_ext t.+1). Qed.
Lemma smo_ext j t : (forall s, (s <= t + j)%N -> y s = y' s) -> smo M y j t = smo M y' j t.
Proof.
elim: j t => [|j IH] t H.
  by apply: filt_ext => s st; apply: H; rewrite addn0.
have H1 s : (s <= t)%N -> y s = y' s.
  by move=> st; apply: H; apply: leq_trans st (leq_addr _ _).
have E yy : smo M yy j.+1 t = ((filt M yy t).1 + sgain M yy t *m ((smo M yy j t.+1).1 - (pred M yy t.+1).1),
   (filt M yy t).2 + sgain M yy t *m (((smo M yy j t.+1).2 - (pred M yy t.+1).2) *m (sgain M yy t)^T)) by [].
have HI : smo M y j t.+1 = smo M y' j t.+1 by apply: IH => s st; apply: H; rewrite addnS -addSn.
have HP : pred M y t.+1 = pred M y' t.+1 by apply: pred_ext => s st; exact: H1.
apply: (etrans (E y)); apply: esym; apply: (etrans (E y')); apply: esym; clear E.
by rewrite HI HP (filt_ext H1) (sgain_ext H1).
Qed.
End Ext.

Section Opt.
Variables (R : rcfType) (Sp : l2space R) (n m : nat) (M : lgm R n m) (T : nat).
Variables (x : nat -> Om Sp -> 'cV[R]_n) (z : nat -> Om Sp -> 'cV[R]_m).
Variables (w : nat -> Om Sp -> 'cV[R]_n) (v : nat -> Om Sp -> 'cV[R]_m).
Hypothesis Hob : obeys M T x z w v.
Variables (mis : nat -> bool) (zs : Om Sp -> seq (orow R m)).
Hypothesis Hd : data_of T z mis zs.

Lemma stream_data om t : (t < T)%N -> stream (zs om) t = yy Hob mis om t.
Proof.
move=> tT; have [Hs H] := Hd om; rewrite /stream /yy.
case E: (List.nth_error (zs om) t) => [r|]; last first.
  exfalso; move/List.nth_error_None: E => H1.
  by move: tT; rewrite -Hs; move/ssrnat.leP: H1; rewrite ltnNge => ->.
have [-> H2] := H _ _ E.
by case: (mis t) H2 => // H2; rewrite H2 // Z_z.
Qed.

Lemma size_data om : size (zs om) = T. Proof. by case: (Hd om). Qed.

Variable o : kf R.
Hypothesis Ho : kf_model o T M.
Hypothesis Hk : (T != 1%N) || (m <= 1)%N.

Lemma iota_map_ext U (f g : nat -> U) a k :
  (forall t, (a <= t < a + k)%N -> f t = g t) -> map f (iota a k) = map g (iota a k).
Proof. by move=> H; apply/eq_in_map => t; rewrite mem_iota => /H. Qed.

Lemma filter_optimal :
  exists (xh : nat -> Om Sp -> 'cV[R]_n) (P : nat -> 'M[R]_n),
    (forall om, kf_filter o (O2 m (zs om)) = Ok [seq (A1 (xh t om), A2 (P t)) | t <- iota 0 T]) /\
    (forall t, (t < T)%N -> blue (x t) z mis t.+1 (xh t) (P t)).
Proof.
exists (fun t => Xf Hob mis t), (fun t => Pf M mis t); split; last by move=> t; exact: blue_filt.
move=> om; rewrite (kf_filter_ok Ho (size_data om) Hk); congr Ok.
apply: iota_map_ext => t /= tT.
rewrite (@filt_ext _ _ _ M _ (yy Hob mis om)) ?filtE // => s st.
by apply: stream_data; apply: leq_ltn_trans tT.
Qed.

Lemma smooth_optimal : (0 < T)%N ->
  exists (xh : nat -> Om Sp -> 'cV[R]_n) (P : nat -> 'M[R]_n),
    (forall om, kf_smooth o (O2 m (zs om)) = Ok [seq (A1 (xh t om), A2 (P t)) | t <- iota 0 T]) /\
    (forall t, (t < T)%N -> blue (x t) z mis T (xh t) (P t)).
Proof.
move=> T0.
exists (fun t => Xs Hob mis (T.-1 - t) t), (fun t => Ps M mis (T.-1 - t) t); split; last by move=> t; exact: blue_smo.
move=> om; apply: (etrans (kf_smooth_ok Ho (size_data om) Hk T0)); apply: f_equal.
apply: iota_map_ext => t; rewrite add0n leq0n andTb => tT.
rewrite (@smo_ext _ _ _ M _ (yy Hob mis om)) ?smoE // => s st.
apply: stream_data; apply: leq_ltn_trans st _.
by rewrite subnKC -ltnS prednK.
Qed.

(** E-step quantities inside [em]: the lag-one covariances *)
Variable p : kfparams R.
Hypothesis Hp : params_model p T M.
Lemma pair_correct : (0 < T)%N ->
  exists (xh : nat -> Om Sp -> 'cV[R]_n) (P Lag : nat -> 'M[R]_n),
    (forall om, exists rows ss gs,
      [/\ filter_ p (zs om) = Ok rows, smooth_ (p_tm p) n rows = Ok (ss, gs),
          ss = [seq SRow (A1 (xh t om)) (A2 (P t)) | t <- iota 0 T] &
          smooth_pair n ss gs = Ok [seq A2 (Lag t) | t <- iota 0 T]]) /\
    [/\ Lag 0%N = 0, forall t, (t < T)%N -> blue (x t) z mis T (xh t) (P t) &
     forall t, (t.+1 < T)%N ->
       Lag t.+1 = cov (fun om => x t.+1 om - xh t.+1 om) (fun om => x t om - xh t om)].
Proof.
move=> T0.
exists (fun t => Xs Hob mis (T.-1 - t) t), (fun t => Ps M mis (T.-1 - t) t),
  (fun t => if t is t'.+1 then Ps M mis (T.-1 - t) t *m (LL M mis t')^T else 0); split; last first.
  split=> // [t|t tT]; first exact: blue_smo.
  have tT1 : (t < T.-1)%N by rewrite -ltnS prednK.
  have -> : (T.-1 - t)%N = (T.-1 - t.+1).+1 by rewrite subnSK.
  rewrite -(lag_one Hob mis (j := T.-1 - t.+1)); last by rewrite subnKC // prednK.
  apply: cov_ext => om; rewrite rvsE X_x //; exact: ltnW.
move=> om.
have E t : (t < T)%N -> smo M (stream (zs om)) (T.-1 - t) t = (Xs Hob mis (T.-1 - t) t om, Ps M mis (T.-1 - t) t).
  move=> tT; rewrite (@smo_ext _ _ _ M _ (yy Hob mis om)) ?smoE // => s st.
  apply: stream_data; apply: leq_ltn_trans st _.
  by rewrite subnKC -ltnS prednK.
eexists; eexists; eexists; split.
- exact: (filter_ok Hp (size_data om)).
- exact: (smooth_ok Hp (zs om) T0).
- by apply: iota_map_ext => t tT; rewrite /srow_of E.
- rewrite (smooth_pair_ok M (zs om) T0); congr Ok; apply: iota_map_ext => -[|t] tT //.
  rewrite /pair_of E //= (@sgain_ext _ _ _ M _ (yy Hob mis om)) ?sgainE // => s st.
  apply: stream_data; apply: leq_ltn_trans st _; exact: ltnW.
Qed.
End Opt.
