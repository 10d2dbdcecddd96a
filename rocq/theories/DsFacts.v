(** Facts about the data set loader. *)
From Coq Require Import String List.
From mathcomp Require Import all_ssreflect all_algebra.
From Verif Require Import Prelude LinAlg Numpy NumpyFacts Sklearn Standard Model KfSpec StandardInit StandardFacts KfStruct2 KfModelFacts KfGlue Rng Unscented UscSpec UscFacts UscRefine UscLoop Datasets Examples.
Import GRing.Theory Num.Theory.

Set Implicit Arguments.
Unset Strict Implicit.
Unset Printing Implicit Defensive.
Local Open Scope ring_scope.

Section Ds.
Variable R : rcfType.

(** ** specification: the padded data, row by row *)
(** [zs] is row 0 entirely masked, then the rows [y 0], [y 1], ... unmasked *)
Definition padded m T (y : nat -> 'cV[R]_m) (zs : seq (orow R m)) : Prop :=
  [/\ size zs = T.+1, exists r, List.nth_error zs 0 = Some r /\ r = (0, const_mx true) &
      forall t, (t < T)%N -> List.nth_error zs t.+1 = Some (y t, const_mx false)].

Lemma nth_error_enum T (U : Type) (F : 'I_T -> U) (i : 'I_T) : List.nth_error [seq F j | j <- enum 'I_T] i = Some (F i).
Proof.
have H : List.nth_error (enum 'I_T) i = Some i.
  rewrite -[RHS](f_equal _ (nth_ord_enum i i)).
  have: (i < size (enum 'I_T))%N by rewrite size_enum_ord.
  elim: (enum 'I_T) (i : nat) => [//|x s IH] [|k] //= Hk.
  exact: IH.
by rewrite List.nth_error_map H.
Qed.

Lemma padE m T (Y : 'M[R]_(m, T)) :
  exists2 zs, pad_and_mask (A2 Y^T) = Ok (ma_array (col_mx (0 : 'rV_m) Y^T) (\matrix_(i, j) (i == 0%N :> nat)))
  & ma_obs (ma_array (col_mx (0 : 'rV_m) Y^T) (\matrix_(i, j) (i == 0%N :> nat))) = O2 m zs /\
    forall y, (forall t : 'I_T, y (t : nat) = col t Y) -> padded T y zs.
Proof.
pose F (i : 'I_(1 + T)) := ((row i (col_mx (0 : 'rV[R]_m) Y^T))^T, (row i (\matrix_(i, j) (i == 0%N :> nat) : 'M_(_, m)))^T).
exists [seq F i | i <- enum 'I_(1 + T)].
  rewrite /pad_and_mask /vstack [bind (Ok _) _]/= /vstack2; case: eqP => // e.
  by rewrite castmx_id.
split=> [//|y Hy]; split.
- by rewrite size_map size_enum_ord.
- have := nth_error_enum F ord0; rewrite [nat_of_ord _]/= => ->; eexists; split; first by reflexivity.
  have -> : ord0 = lshift T 0 :> 'I_(1 + T) by apply/val_inj.
  by congr pair; apply/matrixP=> i j; [rewrite mxE mxE col_mxEu !mxE|rewrite !mxE].
- move=> t tT; have := nth_error_enum F (rshift 1 (Ordinal tT)); rewrite [nat_of_ord _]/= => ->.
  congr Some; rewrite (Hy (Ordinal tT)); congr pair; apply/matrixP=> i j.
    by rewrite mxE mxE col_mxEd !mxE.
  by rewrite !mxE.
Qed.

(** ** well-shaped file contents: [n] states, [m] observed components, [T] measurements *)
Record mat_ok n m T (d : robot_mat R) (Y : 'M[R]_(m, T)) (M : lgm R n m) : Prop := MatOk {
  mo_y : d_y d = A2 Y;
  mo_x : exists X : 'M[R]_(n, T.+1), d_x d = A2 X;
  mo_A : exists2 A, d_A d = A2 A & forall t, mA M t = A;
  mo_b : exists2 b : 'M[R]_(n, T), d_b d = A2 b & forall t : 'I_T, mb M t = col t b;
  mo_C : exists2 C, d_C d = A2 C & forall t, mC M t = C;
  mo_d : exists2 v : 'cV[R]_m, d_d d = A2 v & forall t, md M t = v;
  mo_Q : exists2 Q, d_Q d = A2 Q & forall t, mQ M t = Q;
  mo_R : exists2 Q, d_R d = A2 Q & forall t, mR M t = Q;
  mo_x0 : d_x0 d = A2 (mmu M : 'M[R]_(n, 1));
  mo_P0 : d_P0 d = A2 (mP M);
  mo_xf : exists X : 'M[R]_(n, T.+1), d_xfilt d = A2 X;
  mo_Vf : exists (P : 'M[R]_n) (s : seq 'M[R]_n), d_Vfilt d = [:: [seq A2 V | V <- P :: s]];
  mo_ll : exists l : 'M[R]_(1, T.+1), d_ll d = A2 l;
  mo_xs : exists X : 'M[R]_(n, T.+1), d_xsmooth d = A2 X;
  mo_Vs : exists (P : 'M[R]_n) (s : seq 'M[R]_n), d_Vsmooth d = [:: [seq A2 V | V <- P :: s]]
}.
(** the filter built from the loaded parameters *)
Definition robot_args (r : robot R) : kfargs R :=
  KFArgs (Some (r_tm r)) (Some (r_om r)) (Some (r_tc r)) (Some (r_oc r)) (Some (r_to r)) (Some (r_oo r))
    (Some (r_im r)) (Some (r_ic r)) None None None None.

Lemma asarray3E m n (s : seq 'M[R]_(m, n)) : asarray3 m n [seq A2 V | V <- s] = Ok s.
Proof.
elim: s => [//|V s IH] /=; case: eqP => // e1; case: eqP => // e2.
by rewrite -/(asarray3 m n [seq A2 V | V <- s]) IH /= castmx_id.
Qed.
Lemma asarray_listE m n P (s : seq 'M[R]_(m, n)) : np_asarray_list [seq A2 V | V <- P :: s] = Ok (A3 (P :: s)).
Proof.
rewrite -[LHS]/(l <-- asarray3 m n [seq A2 V | V <- P :: s] ;; Ok (A3 l)).
by rewrite asarray3E.
Qed.
Lemma first_colE m (v : 'cV[R]_m) : first_col (A2 v) = Ok (A1 v).
Proof.
rewrite /first_col /=; congr (Ok (A1 _)); apply/matrixP=> i j; rewrite !mxE (ord1 j).
exact: (@mgetE R m 1 v i 0).
Qed.

Lemma load_robotE n m T d (Y : 'M[R]_(m, T)) (M : lgm R n m) : mat_ok d Y M ->
  exists r zs, [/\ load_robot d = Ok r, r_T r = T.+1, ma_obs (r_obs r) = O2 m zs,
    padded T (fun t => \col_i mget Y i t) zs &
    exists2 o, kf_init (robot_args r) = Ok o & kf_model o T.+1 M].
Proof.
case=> Ey [X Ex] [A EA HA] [b Eb Hb] [C EC HC] [v Ed Hd] [Q EQ HQ] [Rn ER HR] E0 EP [Xf Exf] [P [s EVf]] [l El] [Xs Exs] [P' [s' EVs]].
have [zs Ep [Ez Hz]] := padE Y.
eexists; exists zs; split.
- rewrite /load_robot Ey tr2 bO Ep bO Ex tr2 bO Eb tr2 bO Ed first_colE bO E0 first_colE bO Exf tr2 bO EVf bO El.
  rewrite (@idx02 R _ _ l ord0) bO Exs tr2 bO EVs bO asarray_listE bO asarray_listE bO; by reflexivity.
- by [].
- exact: Ez.
- by apply: Hz => t; apply/matrixP=> i j; rewrite !mxE (mgetE Y i t).
rewrite /robot_args EA EC EQ ER EP; eexists; first by rewrite /kf_init /=; rewrite /determine_dimensionality /= ?eqxx /=; reflexivity.
split=> //=.
- by left; exists A.
- right; exists T, b^T; split=> // t tT i.
  by rewrite (Hb (Ordinal tT)) mxE (mgetE b^T (Ordinal tT) i) mxE.
- by left; exists Q.
- by left; exists C.
- by left; exists v.
- by left; exists Rn.
Qed.

Lemma robot_filter n m T d (Y : 'M[R]_(m.+1, T)) (M : lgm R n m.+1) : (0 < T)%N -> mat_ok d Y M ->
  exists r o rows, [/\ load_robot d = Ok r, kf_init (robot_args r) = Ok o, kf_filter o (ma_obs (r_obs r)) = Ok rows,
    size rows = r_T r & List.nth_error rows 0 = Some (A1 (mmu M), A2 (mP M))].
Proof.
move=> T0 Hd; have [r [zs [E1 E2 E3 [Hs [r0 [Hr0 Er0]] _] [o Eo Ho]]]] := load_robotE Hd.
have Hk : keeps zs by rewrite /keeps Hs eqSS -lt0n T0.
have [rows [f [H1 H2 H3]]] := filter_missing Ho Hs Hk.
have [rows' [F1 F2 _]] := filter_shapes Ho Hs Hk.
have Er : rows = rows' by move: H1; rewrite F1 => [] [].
exists r, o, rows; rewrite E3 E2 H2 // (H3 0%N r0) //; last by rewrite Er0; exact: (@missing_row R m true 0).
by rewrite Er F2.
Qed.

(** ** a file *)
Definition ex_mat (Y : 'M[R]_(2, 3)) : robot_mat R :=
  RobotMat (A2 Y) (A2 (0 : 'M[R]_(2, 4))) (A2 (shear (1 : R))) (A2 (const_mx 3%:R : 'M[R]_(2, 3))) (A2 (1%:M : 'M[R]_2)) (A2 (e0 R))
    (A2 (proj R)) (A2 (1%:M : 'M[R]_2)) (A2 (e1 R)) (A2 (proj R)) (A2 (0 : 'M[R]_(2, 4)))
    [:: nseq 4 (A2 (proj R))] (A2 (0 : 'M[R]_(1, 4))) (A2 (0 : 'M[R]_(2, 4))) [:: nseq 4 (A2 (proj R))].
Definition ex_mat_M : lgm R 2 2 :=
  LGM (fun _ => shear (1 : R)) (fun _ => const_mx 3%:R) (fun _ => proj R) (fun _ => 1%:M) (fun _ => e0 R) (fun _ => 1%:M) (e1 R) (proj R).
Lemma ex_mat_ok Y : mat_ok (ex_mat Y) Y ex_mat_M.
Proof.
split=> //=; try by eexists.
- by exists (const_mx 3%:R) => // t; apply/matrixP=> i j; rewrite !mxE.
- by exists (proj R), (nseq 3 (proj R)).
- by exists (proj R), (nseq 3 (proj R)).
Qed.
End Ds.
