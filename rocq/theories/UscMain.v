(** The unscented filters and smoothers as recursions on well-shaped models. *)
From Coq Require Import String List.
From mathcomp Require Import all_ssreflect all_algebra.
From Verif Require Import Prelude Zmod LinAlg Numpy NumpyFacts Sklearn Standard Model KfSpec StandardInit StandardFacts Rng
  Unscented UscSpec UscFacts UscRefine UscLoop UscInit.
Import GRing.Theory Num.Theory Order.Theory.

Set Implicit Arguments.
Unset Strict Implicit.
Unset Printing Implicit Defensive.
Local Open Scope ring_scope.

Section Main.
Variable R : rcfType.

Lemma fun_at_gives A (Rel : pyfun R -> A -> Prop) fs T f t : fgives Rel fs T f -> (t < T)%N ->
  exists2 h, fun_at (farray1d fs) t = Ok h & Rel h (f t).
Proof.
case: fs => [h|[|h s]|rows] /= H tT.
- by exists h => //; apply: H.
- by rewrite H in tT.
- by exists h => //; apply: H.
- move: (H t tT) => {H}; move: (f t) => b; elim: rows t {tT} => [|r rows IH] [|t] //=; first by case: r => // h r H; exists h.
  by move=> H; have [h E1 E2] := IH _ H; exists h => //; rewrite -E1.
Qed.

Section Model.
Variables (n m : nat) (AF AG : Type) (RF : pyfun R -> AF -> Prop) (RG : pyfun R -> AG -> Prop).
Variables (DF : AF -> Prop) (DG : AG -> Prop) (o : ukf R) (T : nat) (f : nat -> AF) (g : nat -> AG).
Variables (Q : 'M[R]_n) (Rn : 'M[R]_m) (mu0 : 'cV[R]_n) (P0 : 'M[R]_n) (dflt : pyfun R).
Hypothesis HM : unscented_model RF RG DF DG o T f g Q Rn mu0 P0.
Hypotheses (Hf : forall F, DF F -> RF dflt F) (Hg : forall G, DG G -> RG dflt G).
Let p := uinit_value dflt o.

Lemma um_init : uinitialize dflt o = Ok p. Proof. exact: uinitializeE (um_rs HM). Qed.
Lemma as_matE (a : arr R) : as_mat a = array2d a. Proof. by case: a. Qed.
Lemma as_vecE (a : arr R) : as_vec a = array1d a. Proof. by case: a. Qed.
Lemma um_EQ : u_tc p = A2 Q.
Proof. by move: (um_tc HM); rewrite /p /= (um_n HM); case: (o_tc o) => [X|] /=; rewrite ?as_matE // eye2E => ->. Qed.
Lemma um_ER : u_oc p = A2 Rn.
Proof. by move: (um_oc HM); rewrite /p /= (um_m HM); case: (o_oc o) => [X|] /=; rewrite ?as_matE // eye2E => ->. Qed.
Lemma um_E0 : u_im p = A1 mu0.
Proof. by move: (um_im HM); rewrite /p /= (um_n HM); case: (o_im o) => [X|] /=; rewrite ?as_vecE // => ->. Qed.
Lemma um_EP : u_ic p = A2 P0.
Proof. by move: (um_ic HM); rewrite /p /= (um_n HM); case: (o_ic o) => [X|] /=; rewrite ?as_matE // eye2E => ->. Qed.
Lemma um_F t : (t < T.-1)%N -> exists2 h, fun_at (u_f p) t = Ok h & RF h (f t).
Proof.
move=> tT; move: (um_f HM); rewrite /p /=; case: (o_f o) => [fs|] H; first exact: fun_at_gives H tT.
by exists dflt => //; apply/Hf/H.
Qed.
Lemma um_G t : (t < T)%N -> exists2 h, fun_at (u_g p) t = Ok h & RG h (g t).
Proof.
move=> tT; move: (um_g HM); rewrite /p /=; case: (o_g o) => [fs|] H; first exact: fun_at_gives H tT.
by exists dflt => //; apply/Hg/H.
Qed.
End Model.

Lemma predn_lt t T : (t.+1 < T)%N -> (t < T.-1)%N. Proof. by case: T. Qed.
Lemma dflt1 n p (f : 'cV[R]_n -> 'cV[R]_p) : fdef1 f -> fun1 (@add_default R) f.
Proof. by move=> H x; rewrite /= H. Qed.
Lemma dflt2 n q p (f : 'cV[R]_n -> 'cV[R]_q -> 'cV[R]_p) : fdef2 f -> fun2 (@aug_default R) f.
Proof. by move=> H x w; rewrite -H. Qed.

Section Add.
Variables (n m : nat) (o : ukf R) (T : nat) (f : nat -> 'cV[R]_n -> 'cV[R]_n) (g : nat -> 'cV[R]_n -> 'cV[R]_m).
Variables (Q : 'M[R]_n) (Rn : 'M[R]_m) (mu0 : 'cV[R]_n) (P0 : 'M[R]_n).
Hypothesis HM : aukf_model o T f g Q Rn mu0 P0.
Variables (zs : seq (orow R m)) (Hsz : size zs = T) (Hk : keeps zs).
Let F := add_filt Q Rn mu0 P0 f g (stream zs).

Lemma aukf_filterE : aukf_filter o (O2 m zs) = mapr (fun t => lift_o (F t)) (iota 0 T).
Proof.
rewrite /aukf_filter /ufilter_with parse_keep // (um_init _ HM) /= /unscented_filter (um_EQ _ HM) /=.
apply: (@uloopE R n m (@add_step R) _ T (add_first Rn mu0 P0 g) (add_next Q Rn f g)) => // [z T0|t s z tT].
  have [G EG HG] := um_G HM (@dflt1 n m) T0.
  by apply: (add_firstE (um_ER _ HM) (um_E0 _ HM) (um_EP _ HM) z EG HG).
have [F' EF HF] := um_F HM (@dflt1 n n) (predn_lt tT); have [G EG HG] := um_G HM (@dflt1 n m) tT.
by apply: (add_nextE (um_EQ _ HM) (um_ER _ HM)); [exact: EF| |exact: EG|].
Qed.

Lemma aukf_smoothE (x : nat -> 'cV[R]_n * 'M[R]_n) : (0 < T)%N -> (forall t, (t < T)%N -> F t = Some (x t)) ->
  aukf_smooth o (O2 m zs) = mapr (fun t => lift_o (ubacks (add_back1 Q f) x (T.-1 - t) t)) (iota 0 T).
Proof.
move=> T0 Hx; rewrite /aukf_smooth (um_init _ HM) bO.
have -> : aukf_filter o (O2 m zs) = Ok [seq lift_s (x t) | t <- iota 0 T].
  rewrite aukf_filterE; apply: mapr_all_ok => t /In_mem; rewrite mem_iota add0n => /= tT.
  by rewrite Hx.
rewrite bO (um_EQ _ HM) -[shape_m1 _]/(Ok n) bO.
case: T HM Hsz T0 Hx => // T' HM' _ _ Hx; apply: ubackE; last by rewrite add0n.
move=> t a b tT; have [F' EF HF] := um_F HM' (@dflt1 n n) (predn_lt tT).
exact: (add_backE (um_EQ _ HM') _ _ EF HF).
Qed.
End Add.

Section Aug.
Variables (n m : nat) (o : ukf R) (T : nat) (f : nat -> 'cV[R]_n -> 'cV[R]_n -> 'cV[R]_n) (g : nat -> 'cV[R]_n -> 'cV[R]_m -> 'cV[R]_m).
Variables (Q : 'M[R]_n) (Rn : 'M[R]_m) (mu0 : 'cV[R]_n) (P0 : 'M[R]_n).
Hypothesis HM : ukf_model o T f g Q Rn mu0 P0.
Variables (zs : seq (orow R m)) (Hsz : size zs = T) (Hk : keeps zs).
Let F := aug_filt Q Rn mu0 P0 f g (stream zs).

Lemma ukf_filterE : ukf_filter o (O2 m zs) = mapr (fun t => lift_o (F t)) (iota 0 T).
Proof.
rewrite /ukf_filter /ufilter_with parse_keep // (um_init _ HM) /= /unscented_filter (um_EQ _ HM) /=.
apply: (@uloopE R n m (@aug_step R) _ T (aug_first Q Rn mu0 P0 g) (aug_next Q Rn f g)) => // [z T0|t s z tT].
  have [G EG HG] := um_G HM (@dflt2 n m m) T0.
  by apply: (aug_firstE (um_EQ _ HM) (um_ER _ HM) (um_E0 _ HM) (um_EP _ HM) z EG HG).
have [F' EF HF] := um_F HM (@dflt2 n n n) (predn_lt tT); have [G EG HG] := um_G HM (@dflt2 n m m) tT.
by apply: (aug_nextE (um_EQ _ HM) (um_ER _ HM)); [exact: EF| |exact: EG|].
Qed.

Lemma ukf_smoothE (x : nat -> 'cV[R]_n * 'M[R]_n) : (0 < T)%N -> (forall t, (t < T)%N -> F t = Some (x t)) ->
  ukf_smooth o (O2 m zs) = mapr (fun t => lift_o (ubacks (aug_back1 Q f) x (T.-1 - t) t)) (iota 0 T).
Proof.
move=> T0 Hx; rewrite /ukf_smooth parse_keep // (um_init _ HM) bO.
have -> : ukf_filter o (O2 m zs) = Ok [seq lift_s (x t) | t <- iota 0 T].
  rewrite ukf_filterE; apply: mapr_all_ok => t /In_mem; rewrite mem_iota add0n => /= tT.
  by rewrite Hx.
rewrite bO (um_EQ _ HM) -[shape_m1 _]/(Ok n) bO.
case: T HM Hsz T0 Hx => // T' HM' _ _ Hx; apply: ubackE; last by rewrite add0n.
move=> t a b tT; have [F' EF HF] := um_F HM' (@dflt2 n n n) (predn_lt tT).
exact: (aug_backE (um_EQ _ HM') _ _ EF HF).
Qed.
End Aug.
End Main.
