(** Vocabulary of the property statements about KalmanFilter: conditions on
    data, objects and arguments.  Nothing here is used by the code model. *)
From Coq Require Import String List.
From mathcomp Require Import all_ssreflect all_algebra.
From Verif Require Import Prelude LinAlg Numpy Sklearn Standard Model.
Import GRing.Theory Num.Theory.

Set Implicit Arguments.
Unset Strict Implicit.
Unset Printing Implicit Defensive.
Local Open Scope ring_scope.

Section Data.
Variable R : rcfType.
(** an observation array that [_parse_observations] leaves alone *)
Definition keeps k (zs : seq (orow R k)) : bool := (size zs != 1%N) || (k <= 1)%N.

(** the same mask, and the same data wherever no component is masked *)
Definition same_visible k (r r' : orow R k) : Prop :=
  r.2 = r'.2 /\ (missing r = false -> r.1 = r'.1).
Definition same_visible_rows k (zs zs' : seq (orow R k)) : Prop :=
  List.Forall2 (@same_visible k) zs zs'.

Definition same_visible1 (x y : R * bool) : Prop := x.2 = y.2 /\ (x.2 = false -> x.1 = y.1).
End Data.

Section StackedSpec.
Variable R : rcfType.
(** [a'] is [a], or the stack of at least [L] copies of the matrix (vector) [a] *)
Definition stacked2 (L : nat) (a a' : option (arr R)) : Prop :=
  a' = a \/ exists X m n (M : 'M[R]_(m, n)) k,
    [/\ a = Some X, as_mat X = A2 M, a' = Some (A3 (nseq k M)) & (L <= k)%N].
Definition stacked1 (L : nat) (a a' : option (arr R)) : Prop :=
  a' = a \/ exists X n (v : 'cV[R]_n) k,
    [/\ a = Some X, as_vec X = A1 v, a' = Some (A2 (\matrix_(i < k, j < n) v j 0)) & (L <= k)%N].

Record stacked (T : nat) (o o' : kf R) : Prop := Stacked {
  st_tm : stacked2 T.-1 (k_tm o) (k_tm o'); st_to : stacked1 T.-1 (k_to o) (k_to o');
  st_tc : stacked2 T.-1 (k_tc o) (k_tc o');
  st_om : stacked2 T (k_om o) (k_om o'); st_oo : stacked1 T (k_oo o) (k_oo o');
  st_oc : stacked2 T (k_oc o) (k_oc o');
  st_im : k_im o' = k_im o; st_ic : k_ic o' = k_ic o; st_rs : k_rs o' = k_rs o;
  st_n : k_n o' = k_n o; st_m : k_m o' = k_m o
}.
End StackedSpec.

Section CtorSpec.
Variable R : rcfType.
(** Specification: last (second to last) axis of a matrix-valued parameter,
    last axis of a vector-valued one, after promotion of scalars (to 1x1 or
    length one) and of 1-d arrays (to one row). *)
Definition spec_cols (X : arr R) : nat :=
  match X with A0 _ => 1 | @A1 _ n _ => n | @A2 _ _ n _ => n | @A3 _ _ n _ => n end.
Definition spec_rows (X : arr R) : nat :=
  match X with A0 _ => 1 | A1 _ _ => 1 | @A2 _ m _ _ => m | @A3 _ m _ _ => m end.
Definition spec_len (X : arr R) : nat := spec_cols X.

Definition claims (l : seq (option nat)) : seq nat := pmap id l.
Definition state_claims (a : kfargs R) : seq nat :=
  claims [:: omap spec_rows (a_tm a); omap spec_len (a_to a); omap spec_rows (a_tc a);
             omap spec_len (a_im a); omap spec_rows (a_ic a); omap spec_cols (a_om a); a_n a].
Definition obs_claims (a : kfargs R) : seq nat :=
  claims [:: omap spec_rows (a_om a); omap spec_len (a_oo a); omap spec_rows (a_oc a); a_m a].
(** all claims agree on [d]; no claim at all means dimension 1 *)
Definition agreed (cs : seq nat) (d : nat) : Prop :=
  (forall c, c \in cs -> c = d) /\ (cs = [::] -> d = 1%N).
End CtorSpec.

Section UpdateSpec.
Variable R : rcfType.
Definition too_big (arg : option (arr R)) (dflt : arr R) (dim : nat) : bool :=
  if arg is Some _ then false else (dim < ndim dflt)%N.

(** supplying an argument = having it as (constant) attribute *)
Definition override (x y : option (arr R)) : option (arr R) := if x is Some _ then x else y.
Definition with_args (o : kf R) (tm to tc om oo oc : option (arr R)) : kf R :=
  KF (override tm (k_tm o)) (override om (k_om o)) (override tc (k_tc o)) (override oc (k_oc o))
     (override to (k_to o)) (override oo (k_oo o)) (k_im o) (k_ic o)
     (k_rs o) (k_em o) (k_n o) (k_m o) (k_em_ o).
Definition nd_ok (nd : nat) (x : option (arr R)) : Prop := if x is Some a then ndim a = nd else True.
End UpdateSpec.

Section ParseSpec.
Variable R : rcfType.
(** entries in row-major order with their mask bits *)
Definition row_entries k (r : orow R k) : seq (R * bool) := [seq (r.1 i 0, r.2 i 0) | i <- enum 'I_k].
Definition entries (X : obs R) : seq (R * bool) :=
  match X with
  | O0 x b => [:: (x, b)]
  | O1 s => s
  | O2 k rows => flatten [seq row_entries r | r <- rows]
  end.
Definition as_obs (z : zobs R) : obs R := let: existT k zs := z in O2 k zs.
End ParseSpec.

Section RowsSpec.
Variables (R : rcfType) (m T : nat) (mis : nat -> bool).
(** the rows [zs] carry the values [d t], masked exactly when [mis t] *)
Definition rows_of (d : nat -> 'cV[R]_m) (zs : seq (orow R m)) : Prop :=
  size zs = T /\ forall t r, List.nth_error zs t = Some r ->
    missing r = mis t /\ (mis t = false -> r.1 = d t).
End RowsSpec.

Section OnlineSpec.
Variable R : rcfType.
(** an omitted argument is allowed when the attribute is not time-varying *)
Definition const2 (a : option (arr R)) : Prop := if a is Some (A3 _ _ _) then False else True.
Definition const1 (a : option (arr R)) : Prop :=
  match a with Some (A2 _ _ _) | Some (A3 _ _ _) => False | _ => True end.
Definition gives2 n m (a arg : option (arr R)) (F : 'M[R]_(n, m)) : Prop :=
  arg = Some (A2 F) \/ (arg = None /\ const2 a).
Definition gives1 n (a arg : option (arr R)) (F : 'cV[R]_n) : Prop :=
  arg = Some (A1 F) \/ (arg = None /\ const1 a).
(** what to pass as [observation] for a row of the observation array: the row
    itself, or, for a missing row, [None] or any array with a masked entry *)
Definition gives_obs m (r : orow R m) (z : obs1 R) : Prop :=
  z = Some (A1 r.1, missing r) \/ (missing r /\ (z = None \/ exists a, z = Some (a, true))).

Record uargs := UArgs { u_z : obs1 R; u_tm : option (arr R); u_to : option (arr R); u_tc : option (arr R);
  u_om : option (arr R); u_oo : option (arr R); u_oc : option (arr R) }.
Definition update (o : kf R) (s : arr R * arr R) (u : uargs) : res (arr R * arr R) :=
  kf_filter_update o s.1 s.2 (u_z u) (u_tm u) (u_to u) (u_tc u) (u_om u) (u_oo u) (u_oc u).

(** the arguments of the update to time [t.+1] *)
Record step_args n m (o : kf R) (M : lgm R n m) (t : nat) (r : orow R m) (u : uargs) : Prop := StepArgs {
  sa_z : gives_obs r (u_z u);
  sa_tm : gives2 (k_tm o) (u_tm u) (mA M t); sa_to : gives1 (k_to o) (u_to u) (mb M t);
  sa_tc : gives2 (k_tc o) (u_tc u) (mQ M t); sa_om : gives2 (k_om o) (u_om u) (mC M t.+1);
  sa_oo : gives1 (k_oo o) (u_oo u) (md M t.+1); sa_oc : gives2 (k_oc o) (u_oc u) (mR M t.+1) }.

(** all results of successive updates *)
Fixpoint updates (o : kf R) (s : arr R * arr R) (us : seq uargs) : res (seq (arr R * arr R)) :=
  match us with
  | [::] => Ok [::]
  | u :: us' => s' <-- update o s u ;; l <-- updates o s' us' ;; Ok (s' :: l)
  end.
End OnlineSpec.

Section LengthSpec.
Variable R : rcfType.
(** the array is constant, or a stack with exactly [s] slices (so that it can
    be too short) *)
Definition shaped2 n m (X : arr R) (len : option nat) : Prop :=
  match X, len with
  | @A2 _ p q _, None => p = n /\ q = m
  | @A3 _ p q s, Some l => [/\ p = n, q = m & size s = l]
  | _, _ => False
  end.
Definition shaped1 n (X : arr R) (len : option nat) : Prop :=
  match X, len with
  | @A1 _ p _, None => p = n
  | @A2 _ p q _, Some l => p = l /\ q = n
  | _, _ => False
  end.
(** lengths of the six time-varying parameters *)
Record lens := Lens { l_tm : option nat; l_to : option nat; l_tc : option nat;
                      l_om : option nat; l_oo : option nat; l_oc : option nat }.
(** number of slices [T] steps need *)
Definition long (len : option nat) (need : nat) : bool := if len is Some l then (need <= l)%N else true.
Definition long_enough (l : lens) (T : nat) : bool :=
  [&& long (l_tm l) T.-1, long (l_to l) T.-1, long (l_tc l) T.-1,
      long (l_om l) T, long (l_oo l) T & long (l_oc l) T].

(** object-level: supplied attributes have, after promotion, these shapes *)
Record shaped_kf n m (o : kf R) (l : lens) : Prop := ShapedKf {
  so_n : k_n o = n; so_m : k_m o = m; so_rs : seed_ok (k_rs o);
  so_tm : attr (k_tm o) (fun X => shaped2 n n (as_mat X) (l_tm l)) (l_tm l = None);
  so_to : attr (k_to o) (fun X => shaped1 n (as_vec X) (l_to l)) (l_to l = None);
  so_tc : attr (k_tc o) (fun X => shaped2 n n (as_mat X) (l_tc l)) (l_tc l = None);
  so_om : attr (k_om o) (fun X => shaped2 m n (as_mat X) (l_om l)) (l_om l = None);
  so_oo : attr (k_oo o) (fun X => shaped1 m (as_vec X) (l_oo l)) (l_oo l = None);
  so_oc : attr (k_oc o) (fun X => shaped2 m m (as_mat X) (l_oc l)) (l_oc l = None);
  so_im : attr (k_im o) (fun X => exists v : 'cV[R]_n, as_vec X = A1 v) True;
  so_ic : attr (k_ic o) (fun X => exists P : 'M[R]_n, as_mat X = A2 P) True }.
End LengthSpec.

Section EmSpec.
Variable R : rcfType.
(** the eight attributes by name *)
Inductive pname := Tm | To | Tc | Om' | Oo | Oc | Ism | Isc.
Definition name_of (x : pname) : string :=
  match x with
  | Tm => "transition_matrices" | To => "transition_offsets" | Tc => "transition_covariance"
  | Om' => "observation_matrices" | Oo => "observation_offsets" | Oc => "observation_covariance"
  | Ism => "initial_state_mean" | Isc => "initial_state_covariance" end.
Definition attribute (o : kf R) (x : pname) : option (arr R) :=
  match x with
  | Tm => k_tm o | To => k_to o | Tc => k_tc o | Om' => k_om o
  | Oo => k_oo o | Oc => k_oc o | Ism => k_im o | Isc => k_ic o end.
Definition field (p : kfparams R) (x : pname) : arr R :=
  match x with
  | Tm => p_tm p | To => p_to p | Tc => p_tc p | Om' => p_om p
  | Oo => p_oo p | Oc => p_oc p | Ism => p_im p | Isc => p_ic p end.
(** default-filled, promoted initial value *)
Definition initial_value (o : kf R) (x : pname) : arr R :=
  let n := k_n o in let m := k_m o in
  match x with
  | Tm => as_mat (odflt (A2 (eye R n n)) (k_tm o)) | To => as_vec (odflt (A1 (0 : 'cV_n)) (k_to o))
  | Tc => as_mat (odflt (A2 (eye R n n)) (k_tc o)) | Om' => as_mat (odflt (A2 (eye R m n)) (k_om o))
  | Oo => as_vec (odflt (A1 (0 : 'cV_m)) (k_oo o)) | Oc => as_mat (odflt (A2 (eye R m m)) (k_oc o))
  | Ism => as_vec (odflt (A1 (0 : 'cV_n)) (k_im o)) | Isc => as_mat (odflt (A2 (eye R n n)) (k_ic o)) end.
(** is the parameter called [x] to be estimated?  [ev] is the argument [em_vars]
    of em, [dflt] the choice made at construction. *)
Definition selects (e : emspec) (x : pname) : Prop :=
  match e with EmNames l => In (name_of x) l | EmStr s => s = "all"%string end.
Definition requested (o : kf R) (ev : option emspec) : emspec := if ev is Some e then e else k_em_ o.
End EmSpec.

Section CoordSpec.
Variables (R : rcfType) (n m : nat) (M : lgm R n m).
Variables (G : 'M[R]_n) (h : 'cV[R]_n).
(** the model in coordinates x' = G x + h *)
Definition coord_model : lgm R n m :=
  let Gi := invmx G in
  LGM (fun t => G *m mA M t *m Gi) (fun t => G *m mb M t + h - G *m mA M t *m Gi *m h)
      (fun t => G *m mQ M t *m G^T)
      (fun t => mC M t *m Gi) (fun t => md M t - mC M t *m Gi *m h) (mR M)
      (G *m mmu M + h) (G *m mP M *m G^T).
Definition moved (s : 'cV[R]_n * 'M[R]_n) : 'cV[R]_n * 'M[R]_n := (G *m s.1 + h, G *m s.2 *m G^T).
End CoordSpec.

Section RecodeSpec.
Variables (R : rcfType) (n m : nat) (M : lgm R n m).
Variables (N : 'M[R]_m) (g : 'cV[R]_m).
Definition recode_model : lgm R n m :=
  LGM (mA M) (mb M) (mQ M) (fun t => N *m mC M t) (fun t => N *m md M t + g)
      (fun t => N *m mR M t *m N^T) (mmu M) (mP M).
Definition recoded (zs zs' : seq (orow R m)) : Prop := List.Forall2 (fun r r' : orow R m => missing r' = missing r /\
  (missing r = false -> r'.1 = N *m r.1 + g)) zs zs'.
End RecodeSpec.
