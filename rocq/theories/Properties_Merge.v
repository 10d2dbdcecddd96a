(** Property theorems: dropping a masked time step (C63), sensors read
    one after the other (C64). *)
From Coq Require Import String List.
From mathcomp Require Import all_ssreflect all_algebra.
From Verif Require Import Prelude LinAlg Numpy Sklearn Standard Model KfSpec StandardInit StandardFacts KfModelFacts KfGlue Exists KfMoreSpec Examples ExamplesMore KfMergeSpec KfMerge KfSensors.
Import GRing.Theory Num.Theory.

Set Implicit Arguments.
Unset Strict Implicit.
Unset Printing Implicit Defensive.
Local Open Scope ring_scope.

Theorem C63_filter_without_the_gap (R : rcfType) n m (o o' : kf R) T k (M : lgm R n m) (zs : seq (orow R m))
    (Ho : kf_model o T.+1 M) (Ho' : kf_model o' T (merge_model M k)) (Hsz : size zs = T.+1) (kT : (k.+1 < T)%N)
    (Hmis : if List.nth_error zs k.+1 is Some r then missing r else false) (Hk : keeps zs) (Hk' : keeps (without k.+1 zs)) rows
    (Hr : kf_filter o (O2 m zs) = Ok rows) :
  kf_filter o' (O2 m (without k.+1 zs)) = Ok (without k.+1 rows).
Proof. exact: (merge_filter_api Ho Ho' Hsz kT Hmis Hk Hk' Hr). Qed.
Print Assumptions C63_filter_without_the_gap.

Theorem C63_smooth_without_the_gap (R : rcfType) n m (o o' : kf R) T k (M : lgm R n m) (zs : seq (orow R m))
    (Ho : kf_model o T.+1 M) (Ho' : kf_model o' T (merge_model M k)) (Hsz : size zs = T.+1) (kT : (k.+1 < T)%N)
    (Hmis : if List.nth_error zs k.+1 is Some r then missing r else false) (Hk : keeps zs) (Hk' : keeps (without k.+1 zs)) rows
    (HM : psd_model M T.+1) (Hr : kf_smooth o (O2 m zs) = Ok rows) :
  kf_smooth o' (O2 m (without k.+1 zs)) = Ok (without k.+1 rows).
Proof. exact: (merge_smooth_api Ho Ho' Hsz kT Hmis Hk Hk' HM Hr). Qed.
Print Assumptions C63_smooth_without_the_gap.

Theorem C63_loglikelihood_without_the_gap (R : rcfType) n m (o o' : kf R) T k (M : lgm R n m) (zs : seq (orow R m))
    (Ho : kf_model o T.+1 M) (Ho' : kf_model o' T (merge_model M k)) (Hsz : size zs = T.+1) (kT : (k.+1 < T)%N)
    (Hmis : if List.nth_error zs k.+1 is Some r then missing r else false) (Hk : keeps zs) (Hk' : keeps (without k.+1 zs))
    (ln : R -> R) (ln2pi : R) (Hc : const2 (k_oc o)) (Hc' : const2 (k_oc o')) :
  kf_loglikelihood ln ln2pi o' (O2 m (without k.+1 zs)) = kf_loglikelihood ln ln2pi o (O2 m zs).
Proof. exact: (merge_loglik_api Ho Ho' Hsz kT Hmis Hk Hk' ln ln2pi Hc Hc'). Qed.
Print Assumptions C63_loglikelihood_without_the_gap.

(** four rows, the second one masked, time-varying transition matrices *)
Example C63_hypotheses_met (R : rcfType) : exists (o' : kf R) rows srows,
  [/\ kf_model (ex_o4 R) 4 (ex_M R) /\ psd_model (ex_M R) 4, kf_model o' 3 (merge_model (ex_M R) 0) /\ (1 < 3)%N,
      size (ex_zs4 R) = 4%N /\ (if List.nth_error (ex_zs4 R) 1 is Some r then missing r else false),
      (keeps (ex_zs4 R) /\ keeps (without 1 (ex_zs4 R))) /\ (const2 (k_oc (ex_o4 R)) /\ const2 (k_oc o')) &
      kf_filter (ex_o4 R) (O2 2 (ex_zs4 R)) = Ok rows /\ kf_smooth (ex_o4 R) (O2 2 (ex_zs4 R)) = Ok srows].
Proof.
have Ho : kf_model (ex_o4 R) 4 (ex_M R) by exact: obj_model.
have Hsz : size (ex_zs4 R) = 4%N by [].
have Hk : keeps (ex_zs4 R) by [].
exists (obj_of (merge_model (ex_M R) 0) 3 true); do 2 eexists; split.
- by split; [exact: Ho|split=> *; [exact: proj_psd|exact: proj_psd|exact: psd1]].
- by split; first exact: obj_model.
- by split=> //=; rewrite missing_row.
- by [].
- by split; [exact: (kf_filter_ok Ho Hsz (keepsT Hsz Hk))|exact: (kf_smooth_ok Ho Hsz (keepsT Hsz Hk) isT)].
Qed.

(** ** C64
    Second update: no time passes, that is transition matrix 1, offset 0 and
    covariance 0. *)
Theorem C64_sensors_one_at_a_time (R : rcfType) (o : kf R) (Hs : seed_ok (k_rs o)) n m1 m2 (x : 'cV[R]_n) (P A : 'M[R]_n)
    (b : 'cV[R]_n) (Q : 'M[R]_n) (C1 : 'M[R]_(m1, n)) (C2 : 'M[R]_(m2, n)) (N1 : 'M[R]_m1) (N2 : 'M[R]_m2)
    (d1 z1 : 'cV[R]_m1) (d2 z2 : 'cV[R]_m2) (HP : psd P) (HQ : psd Q) (H1 : pd N1) (H2 : pd N2) s
    (E : kf_filter_update o (A1 x) (A2 P) (Some (A1 z1, false)) (Some (A2 A)) (Some (A1 b)) (Some (A2 Q))
           (Some (A2 C1)) (Some (A1 d1)) (Some (A2 N1)) = Ok s) :
  kf_filter_update o s.1 s.2 (Some (A1 z2, false)) (Some (A2 (1%:M : 'M[R]_n))) (Some (A1 (0 : 'cV[R]_n)))
     (Some (A2 (0 : 'M[R]_n))) (Some (A2 C2)) (Some (A1 d2)) (Some (A2 N2)) =
  kf_filter_update o (A1 x) (A2 P) (Some (A1 (col_mx z1 z2), false)) (Some (A2 A)) (Some (A1 b)) (Some (A2 Q))
     (Some (A2 (col_mx C1 C2))) (Some (A1 (col_mx d1 d2))) (Some (A2 (block_mx N1 0 0 N2))).
Proof. exact: (sensors_api Hs C2 d2 z2 HP HQ H1 H2 E). Qed.
Print Assumptions C64_sensors_one_at_a_time.

(** the first update always succeeds, so the theorem above is not empty *)
Theorem C64_first_update_succeeds (R : rcfType) (o : kf R) (Hs : seed_ok (k_rs o)) n m (x : 'cV[R]_n) (P A : 'M[R]_n)
    (b : 'cV[R]_n) (Q : 'M[R]_n) (C : 'M[R]_(m, n)) (N : 'M[R]_m) (d z : 'cV[R]_m) :
  exists s, kf_filter_update o (A1 x) (A2 P) (Some (A1 z, false)) (Some (A2 A)) (Some (A1 b)) (Some (A2 Q))
    (Some (A2 C)) (Some (A1 d)) (Some (A2 N)) = Ok s.
Proof. exact: (first_ok Hs x P A b Q C N d z). Qed.
Print Assumptions C64_first_update_succeeds.

(** the order of the sensors in the observation vector is irrelevant *)
Theorem C64_order_of_sensors (R : rcfType) (o : kf R) (Hs : seed_ok (k_rs o)) n m1 m2 (x : 'cV[R]_n) (P A : 'M[R]_n)
    (b : 'cV[R]_n) (Q : 'M[R]_n) (C1 : 'M[R]_(m1, n)) (C2 : 'M[R]_(m2, n)) (N1 : 'M[R]_m1) (N2 : 'M[R]_m2)
    (d1 z1 : 'cV[R]_m1) (d2 z2 : 'cV[R]_m2) (HP : psd P) (HQ : psd Q) (H1 : pd N1) (H2 : pd N2) :
  kf_filter_update o (A1 x) (A2 P) (Some (A1 (col_mx z1 z2), false)) (Some (A2 A)) (Some (A1 b)) (Some (A2 Q))
     (Some (A2 (col_mx C1 C2))) (Some (A1 (col_mx d1 d2))) (Some (A2 (block_mx N1 0 0 N2))) =
  kf_filter_update o (A1 x) (A2 P) (Some (A1 (col_mx z2 z1), false)) (Some (A2 A)) (Some (A1 b)) (Some (A2 Q))
     (Some (A2 (col_mx C2 C1))) (Some (A1 (col_mx d2 d1))) (Some (A2 (block_mx N2 0 0 N1))).
Proof. exact: (swap_api Hs x A b C1 C2 d1 z1 d2 z2 HP HQ H1 H2). Qed.
Print Assumptions C64_order_of_sensors.

(** singular state covariances, two sensors of different sizes *)
Example C64_hypotheses_met (R : rcfType) :
  [/\ seed_ok (k_rs (ex_o R)), psd (proj R), ~ pd (proj R), pd (1%:M : 'M[R]_2) & pd (2%:R%:M : 'M[R]_1)].
Proof.
split=> //; [exact: proj_psd|exact: proj_not_pd|exact: pd1|].
by rewrite -scalemx1; apply: pdZ; [rewrite ltr0n|exact: pd1].
Qed.
