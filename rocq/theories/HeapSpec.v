(** Vocabulary for statements about arrays in memory: what a reference shows,
    when an object in memory stands for an object with arrays as values, where
    results are found. *)
From mathcomp Require Import all_ssreflect all_algebra.
From Verif Require Import Prelude LinAlg Numpy Sklearn Standard Rng Heap.

Set Implicit Arguments.
Unset Strict Implicit.
Unset Printing Implicit Defensive.

Section Spec.
Variable R : rcfType.
Implicit Types (h : heap R) (v : view) (o : hkf).

(** the array a reference shows in memory [h] *)
Definition vread h v : res (arr R) := c <-- getidx h (v_addr v) ;; vconv (v_kind v) c.

(** the same for an attribute that may be [None] *)
Definition shows h (v : option view) (a : option (arr R)) : Prop :=
  match v, a with
  | Some w, Some x => vread h w = Ok x
  | None, None => True
  | _, _ => False
  end.

(** the object [o] in memory [h] has the attribute values of [o'] *)
Definition stands_for h o (o' : kf R) : Prop :=
  [/\ [/\ shows h (h_tm o) (k_tm o'), shows h (h_om o) (k_om o'),
          shows h (h_tc o) (k_tc o') & shows h (h_oc o) (k_oc o')],
      [/\ shows h (h_to o) (k_to o'), shows h (h_oo o) (k_oo o'),
          shows h (h_im o) (k_im o') & shows h (h_ic o) (k_ic o')],
      h_rs o = k_rs o' /\ h_em o = k_em o' &
      [/\ h_n o = k_n o', h_m o = k_m o' & h_em_ o = k_em_ o']].

(** the observation argument of filter_update *)
Definition shows_obs h (zv : option (view * bool)) (z : obs1 R) : Prop :=
  match zv, z with
  | None, None => True
  | Some (v, b), Some (a, b') => vread h v = Ok a /\ b = b'
  | _, _ => False
  end.

(** memory [h'] is memory [h] with further buffers: nothing in [h] was overwritten *)
Definition extends h h' : Prop := exists tl, h' = h ++ tl.

(** the arguments of the constructor in memory [h] have the values of [a'] *)
Definition args_stand h (a : hargs) (a' : kfargs R) : Prop :=
  [/\ [/\ shows h (g_tm a) (a_tm a'), shows h (g_om a) (a_om a'),
          shows h (g_tc a) (a_tc a') & shows h (g_oc a) (a_oc a')],
      [/\ shows h (g_to a) (a_to a'), shows h (g_oo a) (a_oo a'),
          shows h (g_im a) (a_im a') & shows h (g_ic a) (a_ic a')],
      g_rs a = a_rs a' /\ g_em a = a_em a' &
      g_n a = a_n a' /\ g_m a = a_m a'].

(** the user stores [c] in the buffer at address [a] *)
Fixpoint overwrite h (a : nat) (c : cell R) : heap R :=
  match h, a with
  | [::], _ => [::]
  | _ :: h', 0 => c :: h'
  | b :: h', a'.+1 => b :: overwrite h' a' c
  end.

(** addresses the object refers to *)
Definition refers (o : hkf) (a : nat) : Prop :=
  exists2 v, List.In (Some v) [:: h_tm o; h_om o; h_tc o; h_oc o; h_to o; h_oo o; h_im o; h_ic o]
           & v_addr v = a.

(** at [a] and [b] there are arrays with the given rows, allocated after [h] *)
Definition moments_at h h' (ab : nat * nat) (rows : seq (arr R * arr R)) : Prop :=
  [/\ (size h <= ab.1)%N /\ (size h <= ab.2)%N, ab.1 <> ab.2,
      getidx h' ab.1 = Ok (CRows [seq r.1 | r <- rows]) &
      getidx h' ab.2 = Ok (CRows [seq r.2 | r <- rows])].
(** the same for a pair of references to single arrays *)
Definition state_at h h' (mc : view * view) (r : arr R * arr R) : Prop :=
  [/\ (size h <= v_addr mc.1)%N /\ (size h <= v_addr mc.2)%N, v_addr mc.1 <> v_addr mc.2,
      vread h' mc.1 = Ok r.1 & vread h' mc.2 = Ok r.2].

(** outcome of a call in memory and of the same call on values: the same
    exception or results related by [K] *)
Definition agree {A B} (K : A -> B -> Prop) (x : res A) (y : res B) : Prop :=
  match x, y with
  | Ok a, Ok b => K a b
  | Err e, Err e' => e = e'
  | _, _ => False
  end.
End Spec.
