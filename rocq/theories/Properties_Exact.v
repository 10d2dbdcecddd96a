(** C82: noise-free components of the model hold exactly in the estimates.
    [U], [V] select components: U Q_t = 0, V R_t = 0. *)
From Coq Require Import String List.
From mathcomp Require Import all_ssreflect all_algebra.
From Verif Require Import Prelude LinAlg Numpy Standard Model KfSpec StandardFacts KfInnovSpec KfExact Examples ExamplesExact.
Import GRing.Theory Num.Theory.

Set Implicit Arguments.
Unset Strict Implicit.
Unset Printing Implicit Defensive.
Local Open Scope ring_scope.

Theorem C82_noise_free_components (R : rcfType) n m (M : lgm R n m) T (zs : seq (orow R m)) (o : kf R)
    (Ho : kf_model o T M) (HM : psd_model M T) (Hsz : size zs = T) (Hk : keeps zs) (T0 : (0 < T)%N) :
  exists (xf xs : nat -> 'cV[R]_n) (Pf Ps : nat -> 'M[R]_n),
  [/\ kf_filter o (O2 m zs) = Ok [seq (A1 (xf t), A2 (Pf t)) | t <- iota 0 T],
      kf_smooth o (O2 m zs) = Ok [seq (A1 (xs t), A2 (Ps t)) | t <- iota 0 T],
      forall p (U : 'M[R]_(p, n)) t, (t.+1 < T)%N -> U *m mQ M t = 0 ->
        U *m xs t.+1 = U *m (mA M t *m xs t + mb M t) /\
        U *m Ps t.+1 *m U^T = U *m mA M t *m Ps t *m (U *m mA M t)^T &
      forall p (V : 'M[R]_(p, m)) t z, (t < T)%N -> stream zs t = Some z -> V *m mR M t = 0 ->
        mC M t *m one_step_cov M Pf t *m (mC M t)^T + mR M t \in unitmx ->
        [/\ V *m (mC M t *m xf t + md M t) = V *m z, V *m mC M t *m Pf t = 0,
            V *m (mC M t *m xs t + md M t) = V *m z & V *m mC M t *m Ps t = 0]].
Proof. exact: (exact_api Ho HM Hsz Hk T0). Qed.
Print Assumptions C82_noise_free_components.

(** the second component of both equations is noise-free; first row visible *)
Example C82_hypotheses_met (R : rcfType) : let M := exact_M R in let V := (e1 R)^T in
  [/\ kf_model (obj_of M 3 true) 3 M, psd_model M 3, size (ex_zs R) = 3%N /\ keeps (ex_zs R),
      V != 0 /\ (forall t, V *m mQ M t = 0 /\ V *m mR M t = 0) &
      stream (ex_zs R) 0 = Some (ex_d R 0) /\
      forall P, mC M 0%N *m one_step_cov M P 0 *m (mC M 0%N)^T + mR M 0%N \in unitmx].
Proof. exact: exact_met. Qed.
