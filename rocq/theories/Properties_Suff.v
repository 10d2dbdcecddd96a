(** C81: all that counts of a reading is its precision and its weighted value.
    [reading], [repeated], [averaged], [two_sensors], [fused]: SuffSpec.v. *)
From Coq Require Import String List.
From mathcomp Require Import all_ssreflect all_algebra.
From Verif Require Import Prelude LinAlg Numpy Standard Model KfSpec KfMoreSpec StandardFacts GaussSpec SuffSpec KfSuff KfSuffApi Examples ExamplesSuff.
Import GRing.Theory Num.Theory.

Set Implicit Arguments.
Unset Strict Implicit.
Unset Printing Implicit Defensive.
Local Open Scope ring_scope.

Theorem C81_readings_suffice (R : rcfType) n m m' (M : lgm R n m) T (C : nat -> 'M[R]_(m', n)) (d : nat -> 'cV[R]_m')
    (N : nat -> 'M[R]_m') (zs : seq (orow R m)) (zs' : seq (orow R m')) (HM : psd_model M T)
    (HR : forall t, (t < T)%N -> stream zs t -> pd (mR M t)) (HR' : forall t, (t < T)%N -> stream zs' t -> pd (N t))
    (Hi : forall t, (t < T)%N -> reading (with_sensor M C d N) zs' t = reading M zs t)
    (o o' : kf R) (Ho : kf_model o T M) (Ho' : kf_model o' T (with_sensor M C d N))
    (Hsz : size zs = T) (Hsz' : size zs' = T) (Hk : keeps zs) (Hk' : keeps zs') :
  kf_filter o' (O2 m' zs') = kf_filter o (O2 m zs) /\
  ((0 < T)%N -> kf_smooth o' (O2 m' zs') = kf_smooth o (O2 m zs)).
Proof. exact: (same_api HM HR HR' Hi Ho Ho' Hsz Hsz' Hk Hk'). Qed.
Print Assumptions C81_readings_suffice.

Theorem C81_loglikelihood (R : rcfType) n m m' (M : lgm R n m) T (C : nat -> 'M[R]_(m', n)) (d : nat -> 'cV[R]_m')
    (N : nat -> 'M[R]_m') (zs : seq (orow R m)) (zs' : seq (orow R m')) (HM : psd_model M T)
    (HR : forall t, (t < T)%N -> stream zs t -> pd (mR M t)) (HR' : forall t, (t < T)%N -> stream zs' t -> pd (N t))
    (Hi : forall t, (t < T)%N -> reading (with_sensor M C d N) zs' t = reading M zs t)
    (o o' : kf R) (Ho : kf_model o T M) (Ho' : kf_model o' T (with_sensor M C d N))
    (Hsz : size zs = T) (Hsz' : size zs' = T) (Hk : keeps zs) (Hk' : keeps zs')
    (RM : forall t, (t < T)%N -> psd (N t)) (Hc : const2 (k_oc o)) (Hc' : const2 (k_oc o'))
    (ln : R -> R) (ln2pi : R) (Hln : multiplicative_log ln) :
  exists l, kf_loglikelihood ln ln2pi o (O2 m zs) = Ok (base_loglik ln ln2pi M zs + l) /\
    kf_loglikelihood ln ln2pi o' (O2 m' zs') = Ok (base_loglik ln ln2pi (with_sensor M C d N) zs' + l).
Proof. exact: (same_loglik HM HR HR' Hi Ho Ho' Hsz Hsz' Hk Hk' RM Hc Hc' ln2pi Hln). Qed.
Print Assumptions C81_loglikelihood.

Theorem C81_average (R : rcfType) n k (M : lgm R n 1) T (zs : seq (orow R k)) (zs' : seq (orow R 1)) (k0 : (0 < k)%N)
    (Hz : averaged zs zs') (HM : psd_model M T) (HR : forall t, (t < T)%N -> pd (mR M t)) (o o' : kf R)
    (Ho : kf_model o T (repeated k M)) (Ho' : kf_model o' T M) (Hsz : size zs = T) (Hk : keeps zs) :
  kf_filter o' (O2 1 zs') = kf_filter o (O2 k zs) /\
  ((0 < T)%N -> kf_smooth o' (O2 1 zs') = kf_smooth o (O2 k zs)).
Proof. exact: (average_api k0 Hz HM HR Ho Ho' Hsz Hk). Qed.
Print Assumptions C81_average.

Theorem C81_two_sensors (R : rcfType) n m (M : lgm R n m) (N2 : nat -> 'M[R]_m) T (zs : seq (orow R (m + m))) (zs' : seq (orow R m))
    (Hz : fused M N2 zs zs') (HM : psd_model M T) (HR : forall t, (t < T)%N -> pd (mR M t)) (HN : forall t, (t < T)%N -> pd (N2 t))
    (Hsz : size zs = T) (o o' : kf R) (Ho : kf_model o T (two_sensors M N2)) (Ho' : kf_model o' T (fused_model M N2)) (Hk : keeps zs) :
  kf_filter o' (O2 m zs') = kf_filter o (O2 (m + m) zs) /\
  ((0 < T)%N -> kf_smooth o' (O2 m zs') = kf_smooth o (O2 (m + m) zs)).
Proof. exact: (fuse_api Hz HM HR HN Hsz Ho Ho' Hk). Qed.
Print Assumptions C81_two_sensors.

(** three rows, the second one masked, singular state noise *)
Example C81_readings_hypotheses_met (R : rcfType) : let M := two_sensors (ex_M R) (N2 R) in let M' := fused_model (ex_M R) (N2 R) in
  [/\ kf_model (obj_of M 3 true) 3 M /\ const2 (k_oc (obj_of M 3 true)),
      kf_model (obj_of M' 3 true) 3 M' /\ const2 (k_oc (obj_of M' 3 true)), psd_model M 3,
      forall t, (t < 3)%N -> [/\ pd (mR M t), pd (mR M' t) & reading M' (fused_zs R) t = reading M (both_zs R) t] &
      [/\ size (both_zs R) = 3%N, size (fused_zs R) = 3%N, keeps (both_zs R) & keeps (fused_zs R)]].
Proof. exact: suff_met. Qed.
Example C81_average_hypotheses_met (R : rcfType) : [/\ kf_model (obj_of (repeated 2 (one_M R)) 3 false) 3 (repeated 2 (one_M R)),
    kf_model (obj_of (one_M R) 3 true) 3 (one_M R),
    psd_model (one_M R) 3 /\ (forall t, (t < 3)%N -> pd (mR (one_M R) t)), averaged (ex_zs R) (ave_zs R) &
    size (ex_zs R) = 3%N /\ keeps (ex_zs R)].
Proof. exact: ave_met. Qed.
Example C81_two_sensors_hypotheses_met (R : rcfType) :
  [/\ kf_model (obj_of (two_sensors (ex_M R) (N2 R)) 3 true) 3 (two_sensors (ex_M R) (N2 R)),
      kf_model (obj_of (fused_model (ex_M R) (N2 R)) 3 true) 3 (fused_model (ex_M R) (N2 R)),
      psd_model (ex_M R) 3 /\ (forall t, (t < 3)%N -> pd (mR (ex_M R) t) /\ pd (N2 R t)),
      fused (ex_M R) (N2 R) (both_zs R) (fused_zs R) & size (both_zs R) = 3%N /\ keeps (both_zs R)].
Proof. exact: fuse_met. Qed.
