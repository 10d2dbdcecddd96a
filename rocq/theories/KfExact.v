(** Noise-free components of the two equations hold exactly in the estimates. *)
From Coq Require Import String List.
From mathcomp Require Import all_ssreflect all_algebra.
From Verif Require Import Prelude Zmod LinAlg Numpy NumpyFacts Sklearn Standard Model KfSpec StandardInit StandardFacts
  SpecL2 L2Facts Lmmse Exists KfOptimal KfModelFacts KfEquiv KfGlue KfInnovSpec.
Import GRing.Theory Num.Theory Order.Theory.

Set Implicit Arguments.
Unset Strict Implicit.
Unset Printing Implicit Defensive.
Local Open Scope ring_scope.

Section Exact.
Variables (R : rcfType) (n m : nat) (M : lgm R n m) (T : nat) (zs : seq (orow R m)).
Notation y := (stream zs).
Hypothesis HM : psd_model M T.

Lemma pp_psd t : (t < T)%N -> psd (pred M y t).2.
Proof. by move=> tT; rewrite pred_cov; exact: (Pp_psd HM). Qed.
Lemma pf_psd t : (t < T)%N -> psd (filt M y t).2.
Proof. by move=> tT; rewrite filt_cov; exact: (Pf_psd HM). Qed.

Lemma filt_range t : exists a Y, filt M y t = ((pred M y t).1 + (pred M y t).2 *m a,
  (pred M y t).2 - (pred M y t).2 *m Y *m (pred M y t).2).
Proof.
rewrite /filt /correct; case: (y t) => [z|]; last first.
  by exists 0, 0; rewrite !mulmx0 mul0mx addr0 subr0; case: (pred M y t).
move: (pred M y t) => [mu P] /=.
exists ((mC M t)^T *m pinv (innov_cov M t P) *m (z - (mC M t *m mu + md M t))), ((mC M t)^T *m pinv (innov_cov M t P) *m mC M t).
by congr pair; rewrite /gain !mulmxA.
Qed.
(** later data move estimates within the range of the predicted covariance *)
Lemma smo_range j t : (t < T)%N -> exists a B, smo M y j t = ((pred M y t).1 + (pred M y t).2 *m a,
  (pred M y t).2 + (pred M y t).2 *m B *m (pred M y t).2).
Proof.
move=> tT; have [a [Y E]] := filt_range t; case: j => [|j].
  by exists a, (- Y); rewrite mulmxN mulNmx; exact: E.
have ES : smo M y j.+1 t = ((filt M y t).1 + sgain M y t *m ((smo M y j t.+1).1 - (pred M y t.+1).1),
   (filt M y t).2 + sgain M y t *m (((smo M y j t.+1).2 - (pred M y t.+1).2) *m (sgain M y t)^T)) by [].
have SP := psd_sym (pp_psd tT); have SF := psd_sym (pf_psd tT).
rewrite ES /sgain; move: ((smo M y j t.+1).1 - _) ((smo M y j t.+1).2 - _) (pinv _) SF => e D G.
rewrite E /=; move: (pred M y t) SP => [mu P] /= SP SF.
set F := 1%:M - Y *m P; have EF : P - P *m Y *m P = P *m F by rewrite /F mulmxBr mulmx1 mulmxA.
exists (a + F *m ((mA M t)^T *m G) *m e), (- Y + F *m ((mA M t)^T *m G) *m D *m ((mA M t)^T *m G)^T *m F^T).
congr pair; first by rewrite EF mulmxDr !mulmxA addrA.
rewrite [X in _ + X]mulmxA; have -> : (P - P *m Y *m P) *m ((mA M t)^T *m G) *m D *m ((P - P *m Y *m P) *m ((mA M t)^T *m G))^T =
  P *m (F *m ((mA M t)^T *m G) *m D *m ((mA M t)^T *m G)^T *m F^T) *m P.
  by rewrite EF !trmx_mul trmxK SP !mulmxA.
by rewrite mulmxDr mulmxDl mulmxN mulNmx addrA.
Qed.

Lemma exact_alg p (U : 'M[R]_(p, n)) (A Q F P B : 'M[R]_n) (b f mu a : 'cV[R]_n) : U *m Q = 0 -> P^T = P ->
  mu = A *m f + b -> P = A *m (F *m A^T) + Q -> let L := F *m (A^T *m pinv P) in
  U *m (mu + P *m a) = U *m (A *m (f + L *m (mu + P *m a - mu)) + b) /\
  U *m (P + P *m B *m P) *m U^T = U *m A *m (F + L *m ((P + P *m B *m P - P) *m L^T)) *m (U *m A)^T.
Proof.
move=> HU SP Emu EP L.
have E1 : U *m A *m (F *m A^T) = U *m P by rewrite EP mulmxDr HU addr0 !mulmxA.
have EL : U *m A *m L = U *m P *m pinv P by rewrite -E1 /L !mulmxA.
move: (L) EL => {}L EL; have ELP : U *m A *m L *m P = U *m P by rewrite EL -(mulmxA U) -(mulmxA U) LinAlg.pinv1.
have -> : mu + P *m a - mu = P *m a by zmod.
have -> : P + P *m B *m P - P = P *m B *m P by zmod.
split.
  rewrite Emu; have -> : A *m (f + L *m (P *m a)) + b = A *m f + b + A *m L *m P *m a by rewrite mulmxDr !mulmxA addrAC.
  by rewrite !(mulmxDr U); congr (_ + _); rewrite !mulmxA ELP.
rewrite [U *m A *m (_ + _)]mulmxDr [RHS]mulmxDl mulmxDr mulmxDl; congr (_ + _).
  by rewrite trmx_mul mulmxA -E1 !mulmxA.
have -> : U *m A *m (L *m (P *m B *m P *m L^T)) *m (U *m A)^T = U *m A *m L *m P *m B *m (U *m A *m L *m P)^T.
  by rewrite [(_ *m P)^T]trmx_mul SP [(_ *m L)^T]trmx_mul !mulmxA.
by rewrite ELP trmx_mul SP !mulmxA.
Qed.
Section Dynamics.
Variables (p : nat) (U : 'M[R]_(p, n)) (t : nat).
Hypotheses (tT : (t.+1 < T)%N) (HU : U *m mQ M t = 0).
Lemma exact_step j : U *m (smo M y j t.+1).1 = U *m (mA M t *m (smo M y j.+1 t).1 + mb M t) /\
  U *m (smo M y j t.+1).2 *m U^T = U *m mA M t *m (smo M y j.+1 t).2 *m (U *m mA M t)^T.
Proof.
have ES : smo M y j.+1 t = ((filt M y t).1 + sgain M y t *m ((smo M y j t.+1).1 - (pred M y t.+1).1),
   (filt M y t).2 + sgain M y t *m (((smo M y j t.+1).2 - (pred M y t.+1).2) *m (sgain M y t)^T)) by exact: erefl.
have [a [B E]] := smo_range j tT.
have EP1 : (pred M y t.+1).1 = mA M t *m (filt M y t).1 + mb M t by exact: erefl.
have EP2 : (pred M y t.+1).2 = mA M t *m ((filt M y t).2 *m (mA M t)^T) + mQ M t by exact: erefl.
have SP := psd_sym (pp_psd tT).
have H := exact_alg B a HU SP EP1 EP2.
have E1 : (smo M y j t.+1).1 = (pred M y t.+1).1 + (pred M y t.+1).2 *m a by apply: (f_equal fst E).
have E2 : (smo M y j t.+1).2 = (pred M y t.+1).2 + (pred M y t.+1).2 *m B *m (pred M y t.+1).2 by apply: (f_equal snd E).
have F1 : (smo M y j.+1 t).1 = (filt M y t).1 + sgain M y t *m ((pred M y t.+1).1 + (pred M y t.+1).2 *m a - (pred M y t.+1).1).
  by rewrite -E1; exact: erefl.
have F2 : (smo M y j.+1 t).2 = (filt M y t).2 + sgain M y t *m (((pred M y t.+1).2 + (pred M y t.+1).2 *m B *m (pred M y t.+1).2 - (pred M y t.+1).2) *m (sgain M y t)^T).
  by rewrite -E2; exact: erefl.
rewrite F1 F2 E1 E2; exact: H.
Qed.
End Dynamics.

Section Reading.
Variables (p : nat) (V : 'M[R]_(p, m)) (t : nat) (z : 'cV[R]_m).
Hypotheses (Hz : y t = Some z) (HV : V *m mR M t = 0) (US : innov_cov M t (pred M y t).2 \in unitmx).
Lemma read_alg k (mu : 'cV[R]_n) (K : 'M[R]_(n, k)) e :
  V *m (mC M t *m (mu + K *m e) + md M t) = V *m (mC M t *m mu + md M t) + V *m mC M t *m K *m e.
Proof. by rewrite [mC M t *m (_ + _)]mulmxDr addrAC mulmxDr !mulmxA. Qed.
Lemma exact_read_filt : V *m (mC M t *m (filt M y t).1 + md M t) = V *m z /\ V *m mC M t *m (filt M y t).2 = 0.
Proof.
rewrite /filt /correct Hz; move: (pred M y t) US => [mu P] /= US'.
have EV : V *m mC M t *m (P *m (mC M t)^T) = V *m innov_cov M t P by rewrite /innov_cov mulmxDr HV addr0 !mulmxA.
have EK : V *m mC M t *m gain M t P = V.
  rewrite /gain (pinv_unit US') mulmxA -[_ *m (_ *m _)]mulmxA; rewrite mulmxA in EV.
  by rewrite !mulmxA EV mulmxK.
split; last by rewrite mulmxBr (mulmxA _ (gain M t P)) EK mulmxA subrr.
rewrite read_alg EK -mulmxDr.
by congr (_ *m _); rewrite addrC subrK.
Qed.
Lemma exact_read_smo j : V *m (mC M t *m (smo M y j t).1 + md M t) = V *m z /\ V *m mC M t *m (smo M y j t).2 = 0.
Proof.
case: j => [|j]; first exact: exact_read_filt.
have ES : smo M y j.+1 t = ((filt M y t).1 + sgain M y t *m ((smo M y j t.+1).1 - (pred M y t.+1).1),
   (filt M y t).2 + sgain M y t *m (((smo M y j t.+1).2 - (pred M y t.+1).2) *m (sgain M y t)^T)) by [].
have [E1 E2] := exact_read_filt.
have E3 : V *m mC M t *m sgain M y t = 0 by rewrite /sgain mulmxA E2 mul0mx.
rewrite ES [(_, _).1]/= [(_, _).2]/=; split.
  by rewrite read_alg E1 E3 mul0mx addr0.
by rewrite mulmxDr E2 add0r (mulmxA _ (sgain M y t)) E3 mul0mx.
Qed.
End Reading.
End Exact.

Section ExactApi.
Variables (R : rcfType) (n m : nat) (M : lgm R n m) (T : nat) (zs : seq (orow R m)) (o : kf R).
Hypotheses (Ho : kf_model o T M) (HM : psd_model M T) (Hsz : size zs = T) (Hk : keeps zs) (T0 : (0 < T)%N).
Lemma exact_api : exists (xf xs : nat -> 'cV[R]_n) (Pf Ps : nat -> 'M[R]_n),
  [/\ kf_filter o (O2 m zs) = Ok [seq (A1 (xf t), A2 (Pf t)) | t <- iota 0 T],
      kf_smooth o (O2 m zs) = Ok [seq (A1 (xs t), A2 (Ps t)) | t <- iota 0 T],
      forall p (U : 'M[R]_(p, n)) t, (t.+1 < T)%N -> U *m mQ M t = 0 ->
        U *m xs t.+1 = U *m (mA M t *m xs t + mb M t) /\
        U *m Ps t.+1 *m U^T = U *m mA M t *m Ps t *m (U *m mA M t)^T &
      forall p (V : 'M[R]_(p, m)) t z, (t < T)%N -> stream zs t = Some z -> V *m mR M t = 0 ->
        mC M t *m one_step_cov M Pf t *m (mC M t)^T + mR M t \in unitmx ->
        [/\ V *m (mC M t *m xf t + md M t) = V *m z, V *m mC M t *m Pf t = 0,
            V *m (mC M t *m xs t + md M t) = V *m z & V *m mC M t *m Ps t = 0]].
Proof.
have K : (T != 1%N) || (m <= 1)%N by rewrite -Hsz.
exists (fun t => (filt M (stream zs) t).1), (fun t => (smo M (stream zs) (T.-1 - t) t).1).
exists (fun t => (filt M (stream zs) t).2), (fun t => (smo M (stream zs) (T.-1 - t) t).2).
split.
- exact: (kf_filter_ok Ho Hsz K).
- exact: (kf_smooth_ok Ho Hsz K T0).
- move=> p U t tT HU; have E : ((T.-1 - t.+1).+1 = T.-1 - t)%N.
    by rewrite subnSK // -ltnS prednK.
  by have := @exact_step _ _ _ M T zs HM p U t tT HU (T.-1 - t.+1); rewrite E.
move=> p V t z tT Hz HV HS.
have US : innov_cov M t (pred M (stream zs) t).2 \in unitmx.
  by move: HS; rewrite -mulmxA; case: t {tT Hz HV} => [|t] //=; rewrite -!mulmxA.
have [H1 H2] := exact_read_filt Hz HV US.
by have [H3 H4] := exact_read_smo Hz HV US (T.-1 - t).
Qed.
End ExactApi.
