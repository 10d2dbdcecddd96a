(** Property theorems: em on data that say nothing about a parameter (C62). *)
From Coq Require Import String List.
From mathcomp Require Import all_ssreflect all_algebra.
From Verif Require Import Prelude LinAlg Numpy Sklearn Standard Model KfSpec EmSpec Examples BiIntFacts EmIdle.
Import GRing.Theory Num.Theory.

Set Implicit Arguments.
Unset Strict Implicit.
Unset Printing Implicit Defensive.
Local Open Scope ring_scope.

(** Full statement (false): when every row is masked, [attribute o' q] is the
    initial value of [q] for every observation parameter [q]; when there is one
    row, for every transition parameter. *)
Theorem C62_uninformed_parameter_changed_refuted (R : rcfType) :
  exists (o o' : kf R) (M : lgm R 2 2) (zs : seq (orow R 2)),
    [/\ kf_model o 3 M /\ psd_model M 3, size zs = 3%N /\ all (@missing R 2) zs, kf_em o (O2 2 zs) 1 None = (o', Ok tt),
        initial_value o Oc = A2 (1%:M : 'M[R]_2) & attribute o' Oc = Some (A2 (0 : 'M[R]_2))].
Proof. exact: em_idle_refuted. Qed.
Print Assumptions C62_uninformed_parameter_changed_refuted.

(** every selected observation parameter is set to zero, for every model *)
Theorem C62_all_masked_sets_zero (R : rcfType) n m T (zs : seq (orow R m)) (ev : option emspec) (o : kf R) (M : lgm R n m)
    (T0 : (0 < T)%N) (Hsz : size zs = T) (Hk : keeps zs) (Ho : kf_model o T M) N (H : all (@missing R m) zs) :
  exists o', [/\ kf_em o (O2 m zs) N.+1 ev = (o', Ok tt),
    selects (requested o ev) Om' -> attribute o' Om' = Some (A2 (0 : 'M[R]_(m, n))),
    selects (requested o ev) Oo -> attribute o' Oo = Some (A1 (0 : 'cV[R]_m)) &
    selects (requested o ev) Oc -> attribute o' Oc = Some (A2 (0 : 'M[R]_m))].
Proof. exact: (em_masked ev T0 Hsz Hk Ho N H). Qed.
Print Assumptions C62_all_masked_sets_zero.

(** one row: every selected transition parameter is set to zero *)
Theorem C62_single_row_sets_zero (R : rcfType) n m (zs : seq (orow R m)) (ev : option emspec) (o : kf R) (M : lgm R n m)
    (Hsz : size zs = 1%N) (Hk : keeps zs) (Ho : kf_model o 1 M) N :
  exists o', [/\ kf_em o (O2 m zs) N.+1 ev = (o', Ok tt),
    selects (requested o ev) Tm -> attribute o' Tm = Some (A2 (0 : 'M[R]_n)),
    selects (requested o ev) To -> attribute o' To = Some (A1 (0 : 'cV[R]_n)) &
    selects (requested o ev) Tc -> attribute o' Tc = Some (A2 (0 : 'M[R]_n))].
Proof. exact: (em_one_row ev (isT : (0 < 1)%N) Hsz Hk Ho N erefl). Qed.
Print Assumptions C62_single_row_sets_zero.

(** what does hold when every row is masked: the initial mean and covariance,
    the transition offset and covariance keep their values, provided these are
    constant in time and the transition matrix is not estimated *)
Theorem C62_state_parameters_kept_partial (R : rcfType) n m T (zs : seq (orow R m)) (ev : option emspec) (o : kf R) (M : lgm R n m)
    (T0 : (0 < T)%N) (Hsz : size zs = T) (Hk : keeps zs) (Ho : kf_model o T M) N (H : all (@missing R m) zs)
    (HM : psd_model M T) (T1 : (1 < T)%N) (Ht : ~ selects (requested o ev) Tm) (Hb : steady (mb M) T.-1) (HQ : steady (mQ M) T.-1) :
  exists o', [/\ kf_em o (O2 m zs) N.+1 ev = (o', Ok tt),
    selects (requested o ev) Ism -> attribute o' Ism = Some (A1 (mmu M)),
    selects (requested o ev) Isc -> attribute o' Isc = Some (A2 (mP M)),
    selects (requested o ev) To -> attribute o' To = Some (A1 (mb M 0%N)) &
    selects (requested o ev) Tc -> attribute o' Tc = Some (A2 (mQ M 0%N))].
Proof. exact: (em_masked_keeps T0 Hsz Hk Ho N H HM T1 Ht Hb HQ). Qed.
Print Assumptions C62_state_parameters_kept_partial.

Example C62_hypotheses_met (R : rcfType) :
  [/\ kf_model (ex_o R) 3 (ex_M R) /\ psd_model (ex_M R) 3, keeps (blank R) /\ all (@missing R 2) (blank R),
      selects (requested (ex_o R) None) Oc /\ selects (requested (ex_o R) None) Tc,
      ~ selects (requested (ex_o R) None) Tm & steady (mb (ex_M R)) 2 /\ steady (mQ (ex_M R)) 2].
Proof. exact: ex_idle. Qed.
Example C62_single_row_met (R : rcfType) : kf_model (i_o (1%:M : 'M[R]_2)) 1 (iM 1%:M) /\ keeps [:: mk_row false (0 : 'cV[R]_1)].
Proof. by split; [exact: i_model|]. Qed.
