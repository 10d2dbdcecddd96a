(** Forecasts, restarts, scaled covariances, known states. *)
From Coq Require Import String List.
From mathcomp Require Import all_ssreflect all_algebra.
From mathcomp Require Import ring.
From Verif Require Import Prelude Zmod LinAlg Numpy NumpyFacts Sklearn SklearnFacts Standard Model KfSpec KfMoreSpec StandardInit StandardFacts
  KfStruct KfStruct2 SpecL2 L2Facts Lmmse Exists KfOptimal KfModelFacts KfEquiv KfLoglik KfGlue KfNoise.
Import GRing.Theory Num.Theory Order.Theory.

Set Implicit Arguments.
Unset Strict Implicit.
Unset Printing Implicit Defensive.
Local Open Scope ring_scope.

Lemma kf_model_le (R : rcfType) n m (o : kf R) T k (M : lgm R n m) : kf_model o (T + k) M -> kf_model o T M.
Proof. by elim: k => [|k IH]; rewrite ?addn0 ?addnS // => /kf_modelS. Qed.

Lemma smoS (R : rcfType) n m (M : lgm R n m) y j t : smo M y j.+1 t =
  ((filt M y t).1 + sgain M y t *m ((smo M y j t.+1).1 - (pred M y t.+1).1),
   (filt M y t).2 + sgain M y t *m (((smo M y j t.+1).2 - (pred M y t.+1).2) *m (sgain M y t)^T)).
Proof. by []. Qed.

Lemma stream_cat_l (R : rcfType) m (zs ms : seq (orow R m)) t : (t < size zs)%N -> stream (zs ++ ms) t = stream zs t.
Proof. by move=> tT; rewrite /stream List.nth_error_app1 //; apply/ssrnat.ltP. Qed.
Lemma stream_cat_r (R : rcfType) m (zs ms : seq (orow R m)) t : stream (zs ++ ms) (size zs + t) = stream ms t.
Proof. by elim: zs => [|a zs IH] //=; rewrite addSn; exact: IH. Qed.
Lemma stream_missing (R : rcfType) m (ms : seq (orow R m)) t : all (@missing R m) ms -> stream ms t = None.
Proof.
by elim: ms t => [|a l IH] [|t] //= /andP[Ha Hl]; [rewrite /stream /= Ha|exact: IH].
Qed.
Lemma stream_take (R : rcfType) m (zs : seq (orow R m)) k t : (t < k)%N -> stream (take k zs) t = stream zs t.
Proof. by elim: zs k t => [|a zs IH] [|k] [|t] //= tk; exact: IH. Qed.
Lemma stream_drop (R : rcfType) m (zs : seq (orow R m)) k t : stream (drop k zs) t = stream zs (k + t).
Proof. by elim: zs k => [|a zs IH] [|k] //=; [case: t|rewrite IH]. Qed.

(** ** Trailing missing observations *)
Section Forecast.
Variables (R : rcfType) (n m : nat) (M : lgm R n m) (y : nat -> option 'cV[R]_m).

Lemma filt_forecast t k : (forall s, (t < s <= t + k)%N -> y s = None) -> filt M y (t + k) = forecast M t (filt M y t) k.
Proof.
elim: k => [|k IH] H; first by rewrite addn0.
have Hy : y (t + k).+1 = None by apply: H; rewrite ltnS leq_addr addnS leqnn.
have E : filt M y (t + k) = forecast M t (filt M y t) k.
  by apply: IH => s /andP[ts sk]; apply: H; rewrite ts /= addnS leqW.
by rewrite addnS {1}/filt /correct Hy /= -/(filt M y (t + k)) E /predict mulmxA.
Qed.

Lemma smo_stop k t : (forall s, (t < s <= t + k)%N -> y s = None) -> smo M y k t = filt M y t.
Proof.
elim: k t => [|k IH] t H //; rewrite smoS IH; last first.
  by move=> s /andP[ts sk]; apply: H; rewrite (ltnW ts) -addSnnS.
have Hy : y t.+1 = None by apply: H; rewrite leqnn addnS ltnS leq_addr.
have -> : filt M y t.+1 = pred M y t.+1 by rewrite /filt /correct Hy.
by rewrite !subrr mul0mx !mulmx0 !addr0; case: (filt M y t).
Qed.
Lemma smo_add j k t : (forall s, (t + j < s <= t + j + k)%N -> y s = None) -> smo M y (j + k) t = smo M y j t.
Proof.
elim: j t => [|j IH] t H; first by rewrite add0n; apply: smo_stop; move: H; rewrite addn0.
by rewrite addSn !smoS IH // => s; rewrite addSnnS; exact: H.
Qed.
End Forecast.

(** ** Restarting *)
Section Restart.
Variables (R : rcfType) (n m : nat) (M : lgm R n m) (y y' : nat -> option 'cV[R]_m) (k : nat).
Hypothesis Hy : forall t, y' t = y (k + t).
Let M' := shift_model M k (pred M y k).

Lemma shift_pred t : pred M' y' t = pred M y (k + t).
Proof.
elim: t => [|t IH]; first by rewrite addn0 /=; case: (pred M y k).
by rewrite addnS /= IH /predict /correct Hy.
Qed.
Lemma shift_filt t : filt M' y' t = filt M y (k + t).
Proof. by rewrite /filt shift_pred /correct Hy. Qed.
Lemma shift_sgain t : sgain M' y' t = sgain M y (k + t).
Proof. by rewrite /sgain shift_filt shift_pred addnS. Qed.
Lemma shift_smo j t : smo M' y' j t = smo M y j (k + t).
Proof.
elim: j t => [|j IH] t; first exact: shift_filt.
by rewrite !smoS IH shift_filt shift_sgain shift_pred addnS.
Qed.
End Restart.

(** ** All covariances multiplied by [c] *)
Section Scale.
Variables (R : rcfType) (n m : nat) (M : lgm R n m) (y : nat -> option 'cV[R]_m) (c : R).
Hypothesis c0 : c != 0.
Let M' := scale_model M c.
Definition scaled (s : 'cV[R]_n * 'M[R]_n) := (s.1, c *: s.2).

Lemma pinvZ p q (A : 'M[R]_(p, q)) : pinv (c *: A) = c^-1 *: pinv A.
Proof.
have [H1 [H2 [H3 H4]]] := (LinAlg.pinv1 A, (LinAlg.pinv2 A, (LinAlg.pinv3 A, LinAlg.pinv4 A))).
have E1 : c *: A *m (c^-1 *: pinv A) = A *m pinv A by rewrite -scalemxAl -scalemxAr scalerA divff // scale1r.
have E2 : c^-1 *: pinv A *m (c *: A) = pinv A *m A by rewrite -scalemxAl -scalemxAr scalerA mulVf // scale1r.
apply: esym; apply: pinv_uniq; rewrite ?E1 ?E2 //.
- by rewrite -scalemxAr H1.
- by rewrite -scalemxAr H2.
Qed.
Lemma scale_gain t P : gain M' t (c *: P) = gain M t P.
Proof.
rewrite /gain /innov_cov /=.
have -> : mC M t *m (c *: P *m (mC M t)^T) + c *: mR M t = c *: (mC M t *m (P *m (mC M t)^T) + mR M t).
  by rewrite -scalemxAl -scalemxAr scalerDr.
by rewrite pinvZ -!scalemxAr -scalemxAl scalerA mulVf // scale1r.
Qed.
Lemma scale_correct t s : correct M' y t (scaled s) = scaled (correct M y t s).
Proof.
rewrite /correct; case: (y t) => [z|] //; rewrite /scaled [(_, _).1]/= [(_, _).2]/= scale_gain.
by congr pair; rewrite /= -!scalemxAr scalerBr.
Qed.
Lemma scale_predict t s : predict M' t (scaled s) = scaled (predict M t s).
Proof. by rewrite /predict /scaled /= -scalemxAl -scalemxAr scalerDr. Qed.
Lemma scale_pred t : pred M' y t = scaled (pred M y t).
Proof. by elim: t => [|t IH] //=; rewrite IH scale_correct scale_predict. Qed.
Lemma scale_filt t : filt M' y t = scaled (filt M y t).
Proof. by rewrite /filt scale_pred scale_correct. Qed.
Lemma scale_sgain t : sgain M' y t = sgain M y t.
Proof.
rewrite /sgain scale_filt scale_pred /scaled.
by rewrite [(_, _).2]/= [X in pinv X]/= pinvZ [mA M' t]/= -scalemxAr -scalemxAr -scalemxAl scalerA mulVf // scale1r.
Qed.
Lemma scale_smo j t : smo M' y j t = scaled (smo M y j t).
Proof.
elim: j t => [|j IH] t; first exact: scale_filt.
rewrite !smoS IH scale_filt scale_sgain scale_pred /scaled.
by congr pair; rewrite [(_, _).2]/= [X in _ - X]/= -scalerBr -scalemxAl -scalemxAr scalerDr.
Qed.
End Scale.

(** ** Known state *)
Section Known.
Variables (R : rcfType) (n m : nat) (M : lgm R n m) (y : nat -> option 'cV[R]_m) (T : nat).
Hypothesis HK : known_state M T.
Lemma known_pred t : (t < T)%N -> pred M y t = (mean_path M t, 0).
Proof.
elim: t => [|t IH] tT; first by rewrite /= HK.1.
have tT1 : (t < T.-1)%N by rewrite -ltnS prednK //; apply: leq_ltn_trans tT.
rewrite /= IH ?(ltnW tT) // /predict /correct HK.2 //; case: (y t) => [z|] /=.
  by rewrite /gain !(mul0mx, mulmx0, subr0, addr0).
by rewrite mul0mx mulmx0 addr0.
Qed.
Lemma known_filt t : (t < T)%N -> filt M y t = (mean_path M t, 0).
Proof.
move=> tT; rewrite /filt known_pred // /correct; case: (y t) => [z|] //=.
by rewrite /gain !(mul0mx, mulmx0, subr0, addr0).
Qed.
Lemma known_smo j t : (t + j < T)%N -> smo M y j t = (mean_path M t, 0).
Proof.
elim: j t => [|j IH] t tT; first by apply: known_filt; rewrite -[t]addn0.
have tT' : (t.+1 + j < T)%N by rewrite addSnnS.
have tT2 : (t.+1 < T)%N by apply: leq_ltn_trans tT'; exact: leq_addr.
rewrite smoS IH // known_filt ?(ltnW tT2) // known_pred //.
by rewrite [(_, _).1]/= [(_, _).2]/= !(subrr, mulmx0, mul0mx, addr0).
Qed.
End Known.
