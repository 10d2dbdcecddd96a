(** Facts about the model of utils/_sklearn.py. *)
From Coq Require Import String List.
From mathcomp Require Import all_ssreflect all_algebra.
From Verif Require Import Prelude LinAlg Numpy Sklearn.
Import GRing.Theory Num.Theory.

Set Implicit Arguments.
Unset Strict Implicit.
Unset Printing Implicit Defensive.
Local Open Scope ring_scope.

Section Dict.
Variable T : Type.
Implicit Types (d : seq (string * T)).

Definition keys U (d : seq (string * U)) : seq string := List.map fst d.

Lemma dget_rcons d k v k' :
  dget (rcons d (k, v)) k' =
  match dget d k' with Some x => Some x | None => if String.eqb k' k then Some v else None end.
Proof. by elim: d => [|[k1 v1] d IH] //=; case: String.eqb. Qed.

Lemma dget_in d k v : dget d k = Some v -> In (k, v) d.
Proof.
elim: d => [|[k1 v1] d IH] //=.
by case: String.eqb_spec => [-> [->]|_ /IH]; [left|right].
Qed.

Lemma dget_none d k : dget d k = None <-> ~ In k (keys d).
Proof.
elim: d => [|[k1 v1] d IH] //=; first by split=> // _ [].
case: String.eqb_spec => [->|Hk]; first by split=> // H; case: H; left.
by rewrite IH; split=> H; [case=> [/esym|]|move=> H'; apply: H; right].
Qed.

Lemma in_dget d k v : NoDup (keys d) -> In (k, v) d -> dget d k = Some v.
Proof.
elim: d => [|[k1 v1] d IH] //= /NoDup_cons_iff[H1 H2] [[-> ->]|Hin].
  by rewrite String.eqb_refl.
case: String.eqb_spec => [Ek|_]; last exact: IH.
by case: H1; rewrite -Ek; apply: (in_map fst) Hin.
Qed.

Lemma dget_keys d k : In k (keys d) -> exists v, dget d k = Some v.
Proof. by case E: (dget d k) => [v|]; [exists v|move/dget_none: E]. Qed.

Lemma keys_rcons d k v : keys (rcons d (k, v)) = keys d ++ [:: k].
Proof. by elim: d => [|[k1 v1] d IH] //=; rewrite IH. Qed.

Lemma nodup_rcons d k v : NoDup (keys d) -> dget d k = None -> NoDup (keys (rcons d (k, v))).
Proof.
move=> Hd /dget_none Hk; rewrite keys_rcons.
apply/(NoDup_Add (Add_app k (keys d) [::])).
by rewrite app_nil_r.
Qed.
End Dict.

Section Preprocess.
Variable V : Type.
Implicit Types (conv : seq (string * (V -> res V))) (result : seq (string * V)).
Implicit Types (argset : seq (string * option V)) (argsets : seq (seq (string * option V))).

(** the value used for [k]: the first non-[None] one in order of priority *)
Fixpoint first_some argsets (k : string) : option V :=
  match argsets with
  | [::] => None
  | a :: rest => match dget a k with Some (Some v) => Some v | _ => first_some rest k end
  end.

Definition conv_val conv (k : string) (v : V) : option V :=
  match dget conv k with
  | Some c => match c v with Ok v' => Some v' | Err _ => None end
  | None => None
  end.

(** conversions never fail on supplied values of known arguments *)
Definition conv_total conv argset : Prop :=
  forall k v c, dget argset k = Some (Some v) -> dget conv k = Some c -> exists v', c v = Ok v'.
Definition known conv argset : Prop :=
  forall k, In k (keys argset) -> In k (keys conv).

Lemma conv_total_cons conv k ov argset :
  NoDup (keys ((k, ov) :: argset)) -> conv_total conv ((k, ov) :: argset) -> conv_total conv argset.
Proof.
move=> /NoDup_cons_iff[Hk _] H k' v c Hg; apply: H => /=.
case: String.eqb_spec Hg => // -> Hg; case: Hk.
by have := dget_in Hg; apply: (in_map fst).
Qed.

Lemma pp_argset_ok conv argset result :
  NoDup (keys argset) -> known conv argset -> conv_total conv argset ->
  exists result', [/\ pp_argset conv argset result = Ok result',
    forall k, dget result' k = match dget result k with
      | Some x => Some x
      | None => match dget argset k with Some (Some v) => conv_val conv k v | _ => None end
      end,
    NoDup (keys result) -> NoDup (keys result') &
    (forall k, In k (keys result) -> In k (keys conv)) ->
    forall k, In k (keys result') -> In k (keys conv)].
Proof.
elim: argset result => [|[k ov] argset IH] result Hnd Hkn Htot.
  exists result; split=> //= k; by case: dget.
have [c Hc] : exists c, dget conv k = Some c by apply: dget_keys; apply: Hkn; left.
have Hnd' : NoDup (keys argset) by move/NoDup_cons_iff: Hnd => [].
have Hk : ~ In k (keys argset) by move/NoDup_cons_iff: Hnd => [].
have Hkn' : known conv argset by move=> k' Hk'; apply: Hkn; right.
have Htot' := conv_total_cons Hnd Htot.
rewrite /= Hc; case: ov Hnd Hkn Htot => [v|] Hnd Hkn Htot; last first.
  have [r [E1 E2 E3 E4]] := IH result Hnd' Hkn' Htot'.
  exists r; split=> // k'; rewrite E2; case: (dget result k') => //.
  by case: String.eqb_spec => // ->; move/dget_none: Hk => ->.
rewrite /dhas; case Er: (dget result k) => [x|].
  have [r [E1 E2 E3 E4]] := IH result Hnd' Hkn' Htot'.
  exists r; split=> // k'; rewrite E2; case Er': (dget result k') => //.
  case: String.eqb_spec => // Ek; by rewrite Ek Er in Er'.
have [v' Hv'] : exists v', c v = Ok v'.
  by apply: (Htot k v c) => //=; rewrite String.eqb_refl.
rewrite Hv' /=.
have [r [E1 E2 E3 E4]] := IH (rcons result (k, v')) Hnd' Hkn' Htot'.
exists r; split=> //.
- move=> k'; rewrite E2 dget_rcons; case Er': (dget result k') => [//|].
  by case: String.eqb_spec => // ->; rewrite /conv_val Hc Hv'.
- by move=> H; apply: E3; apply: nodup_rcons.
- move=> H; apply: E4 => k'; rewrite keys_rcons => Hin.
  case: (in_app_or _ _ _ Hin) => [/H //|[<-|[]]].
  by apply: Hkn; left.
Qed.

Lemma pp_argsets_ok conv argsets result :
  (forall a, In a argsets -> [/\ NoDup (keys a), known conv a & conv_total conv a]) ->
  exists result', [/\ pp_argsets conv argsets result = Ok result',
    forall k, dget result' k = match dget result k with
      | Some x => Some x
      | None => match first_some argsets k with Some v => conv_val conv k v | _ => None end
      end,
    NoDup (keys result) -> NoDup (keys result') &
    (forall k, In k (keys result) -> In k (keys conv)) ->
    forall k, In k (keys result') -> In k (keys conv)].
Proof.
elim: argsets result => [|a argsets IH] result H.
  by exists result; split=> //= k; case: dget.
have [H1 H2 H3] := H a (or_introl erefl).
have [r [E1 E2 E3 E4]] := pp_argset_ok result H1 H2 H3.
have [|r' [F1 F2 F3 F4]] := IH r; first by move=> a' Ha'; apply: H; right.
exists r'; split; rewrite /= ?E1 //=; last 2 first.
- by move=> Hr; apply/F3/E3.
- by move=> Hr; apply/F4/E4.
move=> k; rewrite F2 E2; case: (dget result k) => //.
case Ea: (dget a k) => [[v|]|] //.
case Ec: (conv_val conv k v) => [//|].
exfalso; move: Ec; rewrite /conv_val.
have [c Hc] : exists c, dget conv k = Some c.
  by apply: dget_keys; apply: H2; apply: (in_map fst) (dget_in Ea).
by rewrite Hc; have [v' ->] := H3 _ _ _ Ea Hc.
Qed.

(** main characterisation *)
Lemma preprocess_ok conv argsets :
  NoDup (keys conv) ->
  (forall a, In a argsets -> [/\ NoDup (keys a), known conv a & conv_total conv a]) ->
  (forall k, In k (keys conv) -> exists v, first_some argsets k = Some v) ->
  exists2 d, preprocess_arguments argsets conv = Ok d &
    forall k v, first_some argsets k = Some v -> dget d k = conv_val conv k v.
Proof.
move=> Hnd H Hall.
have [d [E1 E2 E3 E4]] := pp_argsets_ok [::] H.
exists d; last by move=> k v Hk; rewrite E2 /= Hk.
rewrite /preprocess_arguments E1 /=.
suff -> : size conv = size d by rewrite eqxx.
have Hs T (s : seq (string * T)) : size s = List.length (keys s).
  by rewrite /keys map_length; elim: s => //= a s ->.
have Hnone : NoDup (keys ([::] : seq (string * V))) by exact: NoDup_nil.
rewrite !Hs; apply: anti_leq; apply/andP; split; apply/leP.
- apply: NoDup_incl_length => // k Hk; have [v Hv] := Hall k Hk.
  have [c Hc] := dget_keys Hk.
  have [v' Hv'] : exists v', c v = Ok v'.
    elim: argsets H Hv {E1 E2 Hall} => [|a r IH] H //=.
    case Ea: (dget a k) => [[w|]|]; try by apply: IH => a' Ha'; apply: H; right.
    case=> <-; have [_ _ H3] := H a (or_introl erefl); exact: H3 Ea Hc.
  case E: (dget d k) => [x|]; last by move: E; rewrite E2 /= Hv /conv_val Hc Hv'.
  by apply: (in_map fst) (dget_in E).
- apply: NoDup_incl_length; first exact: E3.
  by move=> k Hk; apply: E4 Hk.
Qed.

Lemma pp_argset_unknown conv argset result :
  NoDup (keys argset) -> conv_total conv argset -> ~ known conv argset ->
  pp_argset conv argset result = Err ValueError.
Proof.
elim: argset result => [|[k ov] argset IH] result Hnd Htot Hu; first by case: Hu.
have Htot' := conv_total_cons Hnd Htot.
have Hnd' : NoDup (keys argset) by move/NoDup_cons_iff: Hnd => [].
rewrite /=; case Ec: (dget conv k) => [c|] //.
have Hu' : ~ known conv argset.
  move=> H; apply: Hu => k' /= [<-|/H //].
  exact: (in_map fst) (dget_in Ec).
case: ov Hnd Htot Hu => [v|] Hnd Htot Hu; last exact: IH.
case: ifP => _; first exact: IH.
have [v' ->] /= : exists v', c v = Ok v'.
  by apply: (Htot k v c) => //=; rewrite String.eqb_refl.
exact: IH.
Qed.

(** an unknown name is rejected *)
Lemma preprocess_unknown conv argsets :
  (forall a, In a argsets -> NoDup (keys a) /\ conv_total conv a) ->
  (exists2 a, In a argsets & ~ known conv a) ->
  preprocess_arguments argsets conv = Err ValueError.
Proof.
move=> H [a0 Ha0 Hu]; rewrite /preprocess_arguments.
suff -> : forall result, pp_argsets conv argsets result = Err ValueError by [].
elim: argsets H Ha0 => [|a argsets IH] H //= Hin result.
have [H1 H2] := H a (or_introl erefl).
have [Hkn|Hkn] : known conv a \/ ~ known conv a.
  have : forall k, {In k (keys conv)} + {~ In k (keys conv)}.
    by move=> k; apply: in_dec; exact: string_dec.
  move=> dec; case: (Forall_dec (fun k => In k (keys conv)) dec (keys a)) => [/Forall_forall|] Hf.
    by left.
  by right=> Hk; apply: Hf; apply/Forall_forall.
- have [r [-> _ _ _]] /= := pp_argset_ok result H1 Hkn H2.
  case: Hin => [Ea|Hin]; first by case: Hu; rewrite -Ea.
  by apply: IH => // a' Ha'; apply: H; right.
- by rewrite pp_argset_unknown.
Qed.

(** a name without any value is reported *)
Lemma preprocess_missing conv argsets :
  NoDup (keys conv) ->
  (forall a, In a argsets -> [/\ NoDup (keys a), known conv a & conv_total conv a]) ->
  (exists2 k, In k (keys conv) & first_some argsets k = None) ->
  preprocess_arguments argsets conv = Err ValueError.
Proof.
move=> Hnd H [k0 Hk0 Hn].
have [d [E1 E2 E3 E4]] := pp_argsets_ok [::] H.
rewrite /preprocess_arguments E1 /=; case: eqP => // Es; exfalso.
have Hs T (s : seq (string * T)) : size s = List.length (keys s).
  by rewrite /keys map_length; elim: s => //= a s ->.
have Hd : NoDup (keys d) by apply: E3; exact: NoDup_nil.
have Hincl : incl (keys d) (keys conv) by move=> k Hk; apply: E4 Hk.
have Hincl' : incl (keys conv) (keys d).
  by apply: NoDup_length_incl => //; rewrite -!Hs Es.
have [v] := dget_keys (Hincl' _ Hk0).
by rewrite E2 /= Hn.
Qed.
End Preprocess.
