(** Independent sensors processed together or one after the other. *)
From Coq Require Import String List.
From mathcomp Require Import all_ssreflect all_algebra.
From Verif Require Import Prelude Zmod LinAlg Numpy NumpyFacts Sklearn Standard Model KfSpec StandardInit StandardFacts KfGlue KfOnline KfBlock.
Import GRing.Theory Num.Theory.

Set Implicit Arguments.
Unset Strict Implicit.
Unset Printing Implicit Defensive.
Local Open Scope ring_scope.

Section Static.
Variable R : rcfType.
(** gain and corrected covariance, the terms of [_filter_correct], standard.py:287-297 *)
Definition sg n m (P : 'M[R]_n) (C : 'M[R]_(m, n)) (N : 'M[R]_m) : 'M[R]_(n, m) :=
  P *m (C^T *m pinv (C *m (P *m C^T) + N)).
Definition sc n m (P : 'M[R]_n) (C : 'M[R]_(m, n)) (N : 'M[R]_m) : 'M[R]_n := P - sg P C N *m (C *m P).
(** precision added by a reading *)
Definition inf n m (C : 'M[R]_(m, n)) (N : 'M[R]_m) : 'M[R]_n := C^T *m invmx N *m C.

Section One.
Variables (n m : nat) (P : 'M[R]_n) (C : 'M[R]_(m, n)) (N : 'M[R]_m).
Hypothesis HP : psd P.
Hypothesis HN : pd N.
Let S := C *m (P *m C^T) + N.
Let G := 1%:M + P *m inf C N.
Lemma inn_pd : pd S.
Proof. by apply: pdD => //; rewrite mulmxA; exact: psd_congr. Qed.
Lemma G_inv : G *m (1%:M - P *m C^T *m invmx S *m C) = 1%:M.
Proof.
have US := pd_unit inn_pd; have UN := pd_unit HN.
rewrite /G /inf mulmxDl mul1mx.
have -> : P *m (C^T *m invmx N *m C) *m (1%:M - P *m C^T *m invmx S *m C) =
  P *m C^T *m (invmx N *m (1%:M - C *m (P *m C^T) *m invmx S)) *m C.
  by rewrite !mulmxBr !mulmx1 !mulmxBl !mulmxA.
have -> : 1%:M - C *m (P *m C^T) *m invmx S = N *m invmx S.
  by rewrite -[1%:M](mulmxV US) -mulmxBl /S [_ + N]addrC addrK.
by rewrite (mulmxA (invmx N)) (mulVmx UN) mul1mx subrK.
Qed.
Lemma G_unit : G \in unitmx. Proof. by have [] := mulmx1_unit G_inv. Qed.
Lemma scE : sc P C N = invmx G *m P.
Proof.
apply: (canRL (mulKmx G_unit)); rewrite /sc /sg pinv_unit; last exact: pd_unit inn_pd.
have -> : P - P *m (C^T *m invmx (C *m (P *m C^T) + N)) *m (C *m P) = (1%:M - P *m C^T *m invmx S *m C) *m P.
  rewrite -/S; move: (invmx S) => iS; by rewrite mulmxBl mul1mx !mulmxA.
by rewrite mulmxA G_inv mul1mx.
Qed.
Lemma sgE : sg P C N = sc P C N *m C^T *m invmx N.
Proof.
have US := pd_unit inn_pd; have UN := pd_unit HN; rewrite scE /sg pinv_unit // -/S.
have E : invmx G *m P *m C^T *m invmx N *m S = P *m C^T.
  rewrite -[RHS]mul1mx -(mulVmx G_unit) -!mulmxA; congr (_ *m _).
  rewrite /S mulmxDr mulVmx // /G /inf; move: (invmx N) => iN.
  by rewrite mulmxDl mul1mx !mulmxDr mulmx1 !mulmxA addrC.
by rewrite mulmxA -{1}E mulmxK.
Qed.

Lemma GP : sc P C N + sc P C N *m inf C N *m P = P.
Proof.
rewrite scE /G; have := G_unit; rewrite /G; move: (inf C N) => J UJ.
by rewrite -!mulmxA -mulmxDr; apply: (canLR (mulKmx UJ)); rewrite mulmxDl mul1mx !mulmxA.
Qed.
Lemma inf_sym : (inf C N)^T = inf C N.
Proof. by rewrite /inf !trmx_mul trmxK trmx_inv (proj1 (pd_psd HN)) mulmxA. Qed.
Lemma sc_psd : psd (sc P C N).
Proof.
have UN := pd_unit HN.
pose H := 1%:M - sg P C N *m C.
have E1 : H *m P = sc P C N by rewrite /H /sc mulmxBl mul1mx mulmxA.
have E2 : sg P C N *m C = sc P C N *m inf C N by rewrite sgE /inf !mulmxA.
have -> : sc P C N = H *m P *m H^T + sg P C N *m N *m (sg P C N)^T.
  rewrite E1 /H linearB /= trmx1 E2 trmx_mul inf_sym mulmxBr mulmx1 sgE !trmx_mul trmxK trmx_inv (proj1 (pd_psd HN)).
  rewrite -(mulmxA _ (invmx N) N) mulVmx // mulmx1 /inf; move: (invmx N) (sc P C N) => iN X.
  by rewrite !mulmxA subrK.
by apply: psdD; apply: psd_congr => //; exact: pd_psd.
Qed.
End One.

Section Two.
Variables (n m1 m2 : nat) (P : 'M[R]_n) (C1 : 'M[R]_(m1, n)) (C2 : 'M[R]_(m2, n)) (N1 : 'M[R]_m1) (N2 : 'M[R]_m2).
Hypothesis HP : psd P.
Hypothesis H1 : pd N1.
Hypothesis H2 : pd N2.
Let C := col_mx C1 C2.
Let N := block_mx N1 0 0 N2.
Lemma inf2 : inf C N = inf C1 N1 + inf C2 N2.
Proof.
rewrite /inf /C /N inv_block ?pd_unit // tr_col_mx mul_row_block !mulmx0 addr0 add0r mul_row_col.
by [].
Qed.
Lemma gain2 : sg P C N = row_mx (sc P C N *m C1^T *m invmx N1) (sc P C N *m C2^T *m invmx N2).
Proof.
have HN : pd N by exact: pd_block.
by rewrite sgE // /C /N inv_block ?pd_unit // tr_col_mx mul_mx_row mul_row_block !mulmx0 addr0 add0r.
Qed.
Let P1 := sc P C1 N1.
Lemma sc2 : sc P C N = sc P1 C2 N2.
Proof.
have HN : pd N by exact: pd_block.
have HP1 : psd P1 by exact: sc_psd.
rewrite scE // inf2 [in RHS]scE // /P1 scE //.
have U1 := G_unit C1 HP H1; have U2 := G_unit C2 HP1 H2; rewrite /P1 scE // in U2.
set J1 := inf C1 N1 in U1 U2 *; set J2 := inf C2 N2 in U2 *; set G1 := 1%:M + _ in U1 U2 *; set G2 := 1%:M + invmx G1 *m P *m J2 in U2 *.
have -> : 1%:M + P *m (J1 + J2) = G1 *m G2.
  by rewrite /G2 [RHS]mulmxDr mulmx1 -(mulmxA (invmx G1)) mulKVmx // mulmxDr addrA.
have U : G1 *m G2 \in unitmx by rewrite unitmx_mul U1.
by apply: (canLR (mulKmx U)); rewrite -(mulmxA G1) (mulKVmx U2) mulKVmx.
Qed.
Lemma seq_alg (A B : 'M[R]_n) (b : 'M[R]_(n, m2)) (a x c : 'cV[R]_n) (e2 : 'cV[R]_m2) :
  A + b *m C2 *m B = B -> c = A *m a -> x + (c + b *m e2) = x + B *m a + b *m (e2 - C2 *m (B *m a)).
Proof. by move=> E ->; rewrite -{1}E mulmxDl mulmxBr !mulmxA; zmod. Qed.
Lemma mean2 (x : 'cV[R]_n) (e1 : 'cV[R]_m1) (e2 : 'cV[R]_m2) :
  let x1 := x + sg P C1 N1 *m e1 in
  x + sg P C N *m col_mx e1 e2 = x1 + sg P1 C2 N2 *m (e2 - C2 *m (x1 - x)).
Proof.
move=> x1; have HP1 : psd P1 by exact: sc_psd.
have E := GP C2 HP1 H2; rewrite gain2 mul_row_col sc2 -/P1.
have E0 : x1 - x = P1 *m (C1^T *m invmx N1 *m e1) by rewrite /x1 [x + _]addrC addrK sgE // !mulmxA.
have -> : x1 = x + P1 *m (C1^T *m invmx N1 *m e1) by rewrite -E0 addrC subrK.
have -> : x + P1 *m (C1^T *m invmx N1 *m e1) - x = P1 *m (C1^T *m invmx N1 *m e1) by rewrite [x + _]addrC addrK.
rewrite sgE //; apply: seq_alg; last by rewrite -!mulmxA.
by rewrite -[RHS]E /inf !mulmxA.
Qed.
End Two.
End Static.

Section Api.
Variables (R : rcfType) (o : kf R).
Hypothesis Hs : seed_ok (k_rs o).

Lemma updateE n m (x : 'cV[R]_n) (P : 'M[R]_n) (z : 'cV[R]_m) A (b : 'cV[R]_n) (Q : 'M[R]_n) C (d : 'cV[R]_m) N :
  kf_filter_update o (A1 x) (A2 P) (Some (A1 z, false)) (Some (A2 A)) (Some (A1 b)) (Some (A2 Q))
     (Some (A2 C)) (Some (A1 d)) (Some (A2 N)) =
  let x' := A *m x + b in let P' := A *m (P *m A^T) + Q in
  Ok (A1 (x' + sg P' C N *m (z - (C *m x' + d))), A2 (sc P' C N)).
Proof.
rewrite /kf_filter_update (initialize_parametersE Hs) /bind /arg_or_default /=.
rewrite /filter_predict /filter_correct; np.
by np.
Qed.

Lemma resid_alg n m (C : 'M[R]_(m, n)) (x u : 'cV[R]_n) (z d : 'cV[R]_m) :
  z - (C *m (x + u) + d) = z - (C *m x + d) - C *m (x + u - x).
Proof. by rewrite [x + u - x]addrC addKr mulmxDr; zmod. Qed.

Section Seq.
Variables (n m1 m2 : nat) (x : 'cV[R]_n) (P : 'M[R]_n) (A : 'M[R]_n) (b : 'cV[R]_n) (Q : 'M[R]_n).
Variables (C1 : 'M[R]_(m1, n)) (C2 : 'M[R]_(m2, n)) (N1 : 'M[R]_m1) (N2 : 'M[R]_m2).
Variables (d1 z1 : 'cV[R]_m1) (d2 z2 : 'cV[R]_m2).
Hypothesis HP : psd P.
Hypothesis HQ : psd Q.
Hypothesis H1 : pd N1.
Hypothesis H2 : pd N2.
Lemma sensors_api s :
  kf_filter_update o (A1 x) (A2 P) (Some (A1 z1, false)) (Some (A2 A)) (Some (A1 b)) (Some (A2 Q))
     (Some (A2 C1)) (Some (A1 d1)) (Some (A2 N1)) = Ok s ->
  kf_filter_update o s.1 s.2 (Some (A1 z2, false)) (Some (A2 (1%:M : 'M[R]_n))) (Some (A1 (0 : 'cV[R]_n)))
     (Some (A2 (0 : 'M[R]_n))) (Some (A2 C2)) (Some (A1 d2)) (Some (A2 N2)) =
  kf_filter_update o (A1 x) (A2 P) (Some (A1 (col_mx z1 z2), false)) (Some (A2 A)) (Some (A1 b)) (Some (A2 Q))
     (Some (A2 (col_mx C1 C2))) (Some (A1 (col_mx d1 d2))) (Some (A2 (block_mx N1 0 0 N2))).
Proof.
rewrite updateE => -[<-]; rewrite [(_, _).1]/= [(_, _).2]/= !updateE mul1mx addr0 trmx1 mulmx1 mul1mx addr0.
cbv zeta; set x' := A *m x + b; set P' := A *m (P *m A^T) + Q.
have HP' : psd P' by apply: psdD => //; rewrite mulmxA; exact: psd_congr.
have E := mean2 C1 C2 HP' H1 H2 x' (z1 - (C1 *m x' + d1)) (z2 - (C2 *m x' + d2)); cbv zeta in E.
rewrite (sc2 C1 C2 HP' H1 H2) mul_col_mx add_col_mx opp_col_mx add_col_mx E.
congr (Ok (A1 (_ + _ *m _), _)).
exact: resid_alg.
Qed.
Lemma first_ok : exists s, kf_filter_update o (A1 x) (A2 P) (Some (A1 z1, false)) (Some (A2 A)) (Some (A1 b)) (Some (A2 Q))
     (Some (A2 C1)) (Some (A1 d1)) (Some (A2 N1)) = Ok s.
Proof. by rewrite updateE; eexists. Qed.
End Seq.
End Api.

(** the order of the sensors *)
Section Order.
Variables (R : rcfType) (n m1 m2 : nat) (P : 'M[R]_n) (C1 : 'M[R]_(m1, n)) (C2 : 'M[R]_(m2, n)) (N1 : 'M[R]_m1) (N2 : 'M[R]_m2).
Hypothesis HP : psd P.
Hypothesis H1 : pd N1.
Hypothesis H2 : pd N2.
Lemma sc_swap : sc P (col_mx C1 C2) (block_mx N1 0 0 N2) = sc P (col_mx C2 C1) (block_mx N2 0 0 N1).
Proof. by rewrite !scE ?inf2 // 1?[inf C1 _ + _]addrC //; exact: pd_block. Qed.
Lemma mean_swap (e1 : 'cV[R]_m1) (e2 : 'cV[R]_m2) :
  sg P (col_mx C1 C2) (block_mx N1 0 0 N2) *m col_mx e1 e2 = sg P (col_mx C2 C1) (block_mx N2 0 0 N1) *m col_mx e2 e1.
Proof. by rewrite !gain2 // sc_swap !mul_row_col addrC. Qed.
End Order.
Lemma swap_api (R : rcfType) (o : kf R) (Hs : seed_ok (k_rs o)) n m1 m2 (x : 'cV[R]_n) (P : 'M[R]_n) (A : 'M[R]_n) (b : 'cV[R]_n) (Q : 'M[R]_n)
    (C1 : 'M[R]_(m1, n)) (C2 : 'M[R]_(m2, n)) (N1 : 'M[R]_m1) (N2 : 'M[R]_m2) (d1 z1 : 'cV[R]_m1) (d2 z2 : 'cV[R]_m2) :
  psd P -> psd Q -> pd N1 -> pd N2 ->
  kf_filter_update o (A1 x) (A2 P) (Some (A1 (col_mx z1 z2), false)) (Some (A2 A)) (Some (A1 b)) (Some (A2 Q))
     (Some (A2 (col_mx C1 C2))) (Some (A1 (col_mx d1 d2))) (Some (A2 (block_mx N1 0 0 N2))) =
  kf_filter_update o (A1 x) (A2 P) (Some (A1 (col_mx z2 z1), false)) (Some (A2 A)) (Some (A1 b)) (Some (A2 Q))
     (Some (A2 (col_mx C2 C1))) (Some (A1 (col_mx d2 d1))) (Some (A2 (block_mx N2 0 0 N1))).
Proof.
move=> HP HQ H1 H2; rewrite !updateE //; cbv zeta; set P' := A *m (P *m A^T) + Q.
have HP' : psd P' by apply: psdD => //; rewrite mulmxA; exact: psd_congr.
by rewrite sc_swap // !mul_col_mx !add_col_mx !opp_col_mx !add_col_mx mean_swap.
Qed.
