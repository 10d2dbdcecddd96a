(** The array code of unscented.py on well-shaped arguments. *)
From Coq Require Import List.
From mathcomp Require Import all_ssreflect all_algebra.
From mathcomp Require Import ring.
From Verif Require Import Prelude Zmod LinAlg Numpy NumpyFacts Sklearn Standard Unscented UscSpec UscFacts.
Import GRing.Theory Num.Theory Order.Theory.

Set Implicit Arguments.
Unset Strict Implicit.
Unset Printing Implicit Defensive.
Local Open Scope ring_scope.

#[global] Arguments np_cholesky_T : simpl never.
#[global] Arguments vstack2 : simpl never.
#[global] Arguments cols : simpl never.
#[local] Arguments idx0 : simpl never.
#[local] Arguments vstack : simpl never.
#[local] Arguments mapr : simpl never.

Section Refine.
Variable R : rcfType.

Lemma cholTE n (M : 'M[R]_n) :
  np_cholesky_T (A2 M) = if chol M^T is Some L then Ok (A2 L) else Err LinAlgError.
Proof. by rewrite /np_cholesky_T as_squareE. Qed.

Lemma m2pE n (mu : 'cV[R]_n) (S : 'M[R]_n) a b k :
  let al := odflt 1 a in let be := odflt 0 b in
  let c := al * al * (n%:R + odflt (3%:R - n%:R) k) in
  0 < c ->
  moments2points (A1 mu, A2 S) a b k =
  if chol S^T is Some L
  then Ok (SigmaPoints (A2 (sigma_rows mu L c)) (A1 (sigma_weights n (1 - n%:R / c) c))
            (A1 (sigma_weights n (1 - n%:R / c + (1 - al * al + be)) c)))
  else Err LinAlgError.
Proof.
move=> al be c c0; rewrite /moments2points /= cholTE.
case: (chol S^T) => //= L.
rewrite -/al -/be -/c [n%:R + (c - n%:R)]addrC subrK ltNge (ltW c0) /= !eqxx /= gt_eqF //.
by rewrite mulrBl mulfV // gt_eqF.
Qed.

Lemma m2p_defE n (mu : 'cV[R]_n) (S : 'M[R]_n) :
  moments2points (A1 mu, A2 S) None None None =
  if spts mu S is Some P then Ok (SigmaPoints (A2 P) (A1 (wdef R n)) (A1 (wdef R n))) else Err LinAlgError.
Proof.
have E : 1 * 1 * (n%:R + (3%:R - n%:R)) = 3%:R :> R by rewrite !mul1r addrC subrK.
rewrite m2pE /=; last by rewrite E ltr0n.
rewrite E /spts /wdef; case: (chol S^T) => //= L.
by rewrite mulrBl divff ?pnatr_eq0 // !mul1r subrr !addr0.
Qed.

Lemma spts_sigma n (mu : 'cV[R]_n) (S : 'M[R]_n) P : S^T = S -> spts mu S = Some P ->
  is_sigma P (wdef R n) (wdef R n) mu S.
Proof.
move=> HS; rewrite /spts HS; case E: (chol S) => [L|] //= [<-].
have [-> _ _] := chol_spec HS E.
have -> : wdef R n = sigma_weights n (1 - n%:R / 3%:R) 3%:R.
  by rewrite /wdef mulrBl divff ?pnatr_eq0.
by apply: pts_sigma; rewrite ltr0n.
Qed.
Lemma spts_pd n (mu : 'cV[R]_n) (S : 'M[R]_n) : pd S -> exists P, spts mu S = Some P.
Proof. by move=> H; rewrite /spts (pd_sym H); have [L ->] := chol_pd H; eexists. Qed.
Lemma spts_not_pd n (mu : 'cV[R]_n) (S : 'M[R]_n) : S^T = S -> ~ pd S -> spts mu S = None.
Proof.
by move=> HS H; rewrite /spts HS; case E: (chol S) => [L|] //; case: H; apply: (chol_some_pd HS E).
Qed.

(** ** moments of points *)
Lemma bdimn1 n : bdim n 1 = Some n.
Proof. by rewrite /bdim eqxx; case: eqP. Qed.
Lemma bget_col m (v : 'cV[R]_m) (i : 'I_m) (j : nat) : bget v i j = v i 0.
Proof. exact: (bgetE v i ord0). Qed.
Lemma bget_row n (v : 'rV[R]_n) (i : nat) (j : 'I_n) : bget v i j = v 0 j.
Proof. exact: (bgetE v ord0 j). Qed.
Lemma sub_col p k (M : 'M[R]_(p, k)) (v : 'cV[R]_p) : sub (A2 M) (A2 v) = Ok (A2 (M - v *m const_mx 1)).
Proof.
rewrite /sub /= /bop2 {1}/bdim eqxx bdimn1; congr (Ok (A2 _)); apply/matrixP=> i j.
by rewrite mxE bgetE bget_col !mxE big_ord1 !mxE mulr1.
Qed.
Lemma sub_row k p (M : 'M[R]_(k, p)) (v : 'cV[R]_p) : sub (A2 M) (A1 v) = Ok (A2 (cen M v)).
Proof.
rewrite /sub /= /bop2 bdimn1 {1}/bdim eqxx; congr (Ok (A2 _)); apply/matrixP=> i j.
by rewrite mxE bgetE bget_row !mxE big_ord1 !mxE mul1r.
Qed.
Lemma diag1 k (w : 'cV[R]_k) : np_diag (A1 w) = Ok (A2 (diag_mx w^T)). Proof. by []. Qed.

Definition onoise p (N : option 'M[R]_p) : 'M[R]_p := odflt 0 N.
Lemma p2mE k p (Y : 'M[R]_(k, p)) (wm wc : 'cV[R]_k) (N : option 'M[R]_p) :
  points2moments (SigmaPoints (A2 Y) (A1 wm) (A1 wc)) (omap (fun M : 'M_p => A2 M) N) =
  Ok (A1 (wmean Y wm), A2 (wcov Y wm wc + onoise N)).
Proof.
rewrite /points2moments; np; rewrite sub_col /=; np.
have -> : Y^T - Y^T *m wm *m const_mx 1 = (cen Y (wmean Y wm))^T.
  by rewrite /cen /wmean linearB /= trmx_mul trmxK trmx_const.
rewrite trmxK -/(wcross wc _ _).
by case: N => [M|] /=; rewrite ?npE //= /onoise /= addr0.
Qed.

(** ** stacking *)
Lemma vstackE p (ys : seq 'cV[R]_p) : (0 < size ys)%N ->
  vstack [seq A1 y | y <- ys] = Ok (A2 (\matrix_(i < size ys, j < p) (nth 0 ys i) j 0)).
Proof.
elim: ys => [//|y [|y' ys] IH] _.
  rewrite /=; congr (Ok (A2 _)); apply/matrixP=> i j; rewrite !mxE.
  by rewrite [X in y _ X](ord1 i); move: i => [[|i] Hi].
rewrite -[vstack _]/(r <-- vstack [seq A1 y | y <- y' :: ys] ;; vstack2 (A2 y^T) r) {}IH //= /vstack2; case: eqP => // e; rewrite castmx_id.
congr (Ok (A2 _)); apply/matrixP=> i j; rewrite mxE; case: splitP => l El.
  by rewrite !mxE El (ord1 l).
by rewrite !mxE El.
Qed.

Lemma A2_size p (ys : seq 'cV[R]_p) k : size ys = k ->
  A2 (\matrix_(i < size ys, j < p) (nth 0 ys i) j 0) = A2 (\matrix_(i < k, j < p) (nth 0 ys i) j 0).
Proof. by move=> <-. Qed.

Lemma vstack_iota k p (f : nat -> res (arr R)) (Y : 'M[R]_(k.+1, p)) :
  (forall i : 'I_k.+1, f i = Ok (A1 (row i Y)^T)) ->
  (l <-- mapr f (iota 0 k.+1) ;; vstack l) = Ok (A2 Y).
Proof.
move=> H; pose ys := [seq (\col_j mget Y i j : 'cV[R]_p) | i <- iota 0 k.+1].
have E : mapr f (iota 0 k.+1) = Ok [seq A1 y | y <- ys].
  rewrite /ys -map_comp; apply: mapr_all_ok => i /In_mem; rewrite mem_iota add0n /= => ik.
  rewrite (H (Ordinal ik)); congr (Ok (A1 _)); apply/matrixP=> j q; rewrite !mxE.
  by rewrite (mgetE Y (Ordinal ik) j).
have Hs : size ys = k.+1 by rewrite size_map size_iota.
rewrite E -[bind _ _]/(vstack [seq A1 y | y <- ys]) (vstackE (ys := ys)); last by rewrite Hs.
rewrite (A2_size Hs); congr (Ok (A2 _)); apply/matrixP=> i j.
rewrite mxE (nth_map 0%N) ?size_iota // nth_iota // mxE add0n; exact: mgetE.
Qed.

Lemma idx02 m n (M : 'M[R]_(m, n)) (i : 'I_m) : idx0 (A2 M) i = Ok (A1 (row i M)^T).
Proof. by rewrite /idx0 valK. Qed.

Lemma ut1E k n p (P : 'M[R]_(k.+1, n)) wm wc (F : pyfun R) (f : 'cV[R]_n -> 'cV[R]_p) (N : option 'M[R]_p) :
  fun1 F f ->
  unscented_transform (SigmaPoints (A2 P) (A1 wm) (A1 wc)) (Some F) None (omap (fun M : 'M_p => A2 M) N) =
  Ok (SigmaPoints (A2 (fmap f P)) (A1 wm) (A1 wc), (A1 (wmean (fmap f P) wm), A2 (wcov (fmap f P) wm wc + onoise N))).
Proof.
move=> HF; rewrite /unscented_transform [shape0 _]/= [bind (Ok _) _]/=.
rewrite (@vstack_iota k p _ (fmap f P)).
  by rewrite [bind (Ok _) _]/= p2mE.
move=> i; rewrite -[idx0 _ _]/(idx0 (A2 P) i) idx02 -[bind _ _]/(F [:: A1 (row i P)^T]) HF; congr (Ok (A1 _)); apply/matrixP=> a b; rewrite !mxE (ord1 b) //.
Qed.
Lemma ut2E k n q p (P : 'M[R]_(k.+1, n)) (W : 'M[R]_(k.+1, q)) wm wc wm' wc' (F : pyfun R)
    (f : 'cV[R]_n -> 'cV[R]_q -> 'cV[R]_p) :
  fun2 F f ->
  unscented_transform (SigmaPoints (A2 P) (A1 wm) (A1 wc)) (Some F) (Some (SigmaPoints (A2 W) wm' wc')) None =
  Ok (SigmaPoints (A2 (fmap2 f P W)) (A1 wm) (A1 wc), (A1 (wmean (fmap2 f P W) wm), A2 (wcov (fmap2 f P W) wm wc))).
Proof.
move=> HF; rewrite /unscented_transform [shape0 _]/= [bind (Ok _) _]/=.
rewrite (@vstack_iota k p _ (fmap2 f P W)).
  by rewrite [bind (Ok _) _]/= (p2mE _ _ _ None) [bind (Ok _) _]/= /onoise /= addr0.
move=> i; rewrite -[idx0 _ _]/(idx0 (A2 P) i) idx02 [bind _ _]/=.
rewrite -[idx0 _ _]/(idx0 (A2 W) i) idx02 -[bind _ _]/(F [:: A1 (row i P)^T; A1 (row i W)^T]) HF; congr (Ok (A1 _)); apply/matrixP=> a b; rewrite !mxE (ord1 b) //.
Qed.

(** ** correction *)
Definition zdata m (z : orow R m) : option 'cV[R]_m := if missing z then None else Some z.1.

Lemma ucorrectE k n m (P : 'M[R]_(k.+1, n)) (Z : 'M[R]_(k.+1, m)) w (mp : 'cV[R]_n * 'M[R]_n) (Rn : 'M[R]_m) (z : 'cV[R]_m) (b : bool) :
  unscented_correct (A2 (wcross w (cen P mp.1) (cen Z (wmean Z w)))) (lift_s mp)
     (A1 (wmean Z w), A2 (wcov Z w w + Rn)) (A1 z, b) =
  Ok (lift_s (ucorr w P Z Rn mp (if b then None else Some z))).
Proof. by rewrite /unscented_correct /ucorr; case: b => //=; np. Qed.

Lemma fc1E k n m (P : 'M[R]_(k.+1, n)) w (G : pyfun R) (g : 'cV[R]_n -> 'cV[R]_m) (mp : 'cV[R]_n * 'M[R]_n) (Rn : 'M[R]_m) (z : 'cV[R]_m) b :
  fun1 G g ->
  unscented_filter_correct G (lift_s mp) (SigmaPoints (A2 P) (A1 w) (A1 w)) (A1 z, b) None (Some (A2 Rn)) =
  Ok (lift_s (ucorr w P (fmap g P) Rn mp (if b then None else Some z))).
Proof.
move=> HG; rewrite /unscented_filter_correct (ut1E _ _ _ (Some Rn) HG) [bind (Ok _) _]/=.
by rewrite sub_row [bind (Ok _) _]/=; np; rewrite sub_row [bind (Ok _) _]/= npE [bind (Ok _) _]/= ucorrectE.
Qed.
Lemma fc2E k n m (P : 'M[R]_(k.+1, n)) (V : 'M[R]_(k.+1, m)) w (G : pyfun R) (g : 'cV[R]_n -> 'cV[R]_m -> 'cV[R]_m) (mp : 'cV[R]_n * 'M[R]_n) wm' wc' (z : 'cV[R]_m) b :
  fun2 G g ->
  unscented_filter_correct G (lift_s mp) (SigmaPoints (A2 P) (A1 w) (A1 w)) (A1 z, b) (Some (SigmaPoints (A2 V) wm' wc')) None =
  Ok (lift_s (ucorr w P (fmap2 g P V) 0 mp (if b then None else Some z))).
Proof.
move=> HG; rewrite /unscented_filter_correct (ut2E _ _ _ _ _ _ HG) [bind (Ok _) _]/=.
rewrite sub_row [bind (Ok _) _]/=; np; rewrite sub_row [bind (Ok _) _]/= npE [bind (Ok _) _]/=.
by rewrite -[wcov _ _ _]addr0 ucorrectE.
Qed.
End Refine.
