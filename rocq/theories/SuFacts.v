(** The array code of sqrt/unscented.py on well-shaped arguments. *)
From Coq Require Import String List.
From mathcomp Require Import all_ssreflect all_algebra.
From mathcomp Require Import ring.
From Verif Require Import Prelude Zmod LinAlg Numpy NumpyFacts Standard Sqrt SqrtFacts Unscented UscSpec UscFacts UscRefine UscPsd
  SqrtUnscented CuFacts SuTri.
Import GRing.Theory Num.Theory Order.Theory.

Set Implicit Arguments.
Unset Strict Implicit.
Unset Printing Implicit Defensive.
Local Open Scope ring_scope.

#[global] Arguments su_qr : simpl never.
#[global] Arguments su_points2moments : simpl never.
#[global] Arguments su_moments2points : simpl never.
#[global] Arguments su_transform : simpl never.
#[global] Arguments su_correct : simpl never.
#[global] Arguments su_filter_correct : simpl never.
#[global] Arguments np_lstsq : simpl never.
#[global] Arguments np_cholesky_upper : simpl never.
#[local] Arguments idx0 : simpl never.
#[local] Arguments vstack : simpl never.
#[local] Arguments mapr : simpl never.

(** [N N'] for a noise factor *)
Definition nn (R : rcfType) p (N : option 'M[R]_p) : 'M[R]_p := if N is Some M then M *m M^T else 0.
Definition wabs (R : rcfType) k (w : 'cV[R]_k) : 'cV[R]_k := \col_i `|w i 0|.

Section Facts.
Variable R : rcfType.
Variable qr : qr_fun R.
Hypothesis Hqr : qr_valid qr.

Lemma su_qrE k p (M : 'M[R]_(k, p)) : (p <= k)%N ->
  exists2 F : 'M[R]_p, su_qr qr (A2 M) = Ok (A2 F) & upper F /\ F^T *m F = M^T *m M.
Proof.
move=> pk; have [q Ek] : exists q, k = (p + q)%N by exists (k - p)%N; rewrite subnKC.
subst k; exists (usubmx (qr M).2).
  by rewrite /su_qr pk qr_rE bO np_sliceE slice_u.
have [_ HU _] := Hqr M; split.
  by move=> i j ij; rewrite mxE; apply: HU.
have dl : dsubmx (qr M).2 = 0.
  by apply/matrixP=> i j; rewrite !mxE; apply: HU; rewrite /= (leq_trans (ltn_ord j)) ?leq_addr.
by have := qr_gram M Hqr; rewrite -{1 2}(vsubmxK (qr M).2) dl tr_col_mx mul_row_col mulmx0 addr0.
Qed.

Lemma scaled k p (v : 'rV[R]_k) (M : 'M[R]_(p, k)) :
  bop (fun x y => x * y) (A2 v) (A2 M) = Ok (A2 (M *m diag_mx v)).
Proof.
rewrite /bop /bop2.
have -> : bdim 1 p = Some p by rewrite /bdim eqxx; case: eqP => // ->.
have -> : bdim k k = Some k by rewrite /bdim eqxx.
congr (Ok (A2 _)); apply/matrixP=> i j; rewrite mxE mul_mx_diag mxE mulrC bgetE.
by congr (_ * _); exact: (bget_row v i j).
Qed.

Lemma roots_gram k p (w : 'cV[R]_k) (X : 'M[R]_(k, p)) :
  let D := X^T *m diag_mx (\row_j (Num.sg (w j 0) * Num.sqrt `|w j 0|)) in
  D *m D^T = wcross (wabs w) X X.
Proof.
move=> D; rewrite /D trmx_mul tr_diag_mx trmxK mulmxA -[X^T *m _ *m _]mulmxA mulmx_diag.
congr (_ *m _ *m _); apply/matrixP=> i j; rewrite !mxE; congr (_ *+ _).
have [->|w0] := eqVneq (w i 0) 0; first by rewrite normr0 sgr0 mul0r mulr0.
have -> : Num.sg (w i 0) * Num.sqrt `|w i 0| * (Num.sg (w i 0) * Num.sqrt `|w i 0|) =
  (Num.sg (w i 0) * Num.sg (w i 0)) * (Num.sqrt `|w i 0|) ^+ 2 by ring.
by rewrite sqr_sqrtr ?normr_ge0 // -expr2 sqr_sg w0 mul1r.
Qed.

Lemma su_p2mE k p (Y : 'M[R]_(k, p)) (wm wc : 'cV[R]_k) (N : option 'M[R]_p) : (N = None -> (p <= k)%N) ->
  exists2 F : 'M[R]_p,
    su_points2moments qr (SigmaPoints (A2 Y) (A1 wm) (A1 wc)) (omap (fun M : 'M_p => A2 M) N) =
      Ok (A1 (wmean Y wm), A2 F)
    & upper F /\ F^T *m F = wcross (wabs wc) (cen Y (wmean Y wm)) (cen Y (wmean Y wm)) + nn N.
Proof.
move=> Hk; rewrite /su_points2moments.
rewrite tr2 bO dot21 bO -/(wmean Y wm) [signed_roots _]/= bO [newaxis_col _]/= bO sub_col bO.
have -> : Y^T - wmean Y wm *m const_mx 1 = (cen Y (wmean Y wm))^T.
  by rewrite /cen linearB /= trmx_mul trmxK trmx_const.
rewrite scaled bO; set D := _ *m diag_mx _.
case: N Hk => [N _|/(_ erefl) Hk].
  rewrite [omap _ _]/= [X in bind X _]/=; have -> : np_hstack (A2 D) (A2 N) = Ok (A2 (row_mx D N)) by exact: hstackE.
  rewrite bO tr2 bO; have [F -> [H1 H2]] := su_qrE (row_mx D N)^T (leq_addl _ _).
  exists F; rewrite ?bO //; split=> //.
  by rewrite H2 trmxK tr_row_mx mul_row_col roots_gram.
rewrite [omap _ _]/= bO tr2 bO; have [F -> [H1 H2]] := su_qrE D^T Hk.
exists F; rewrite ?bO //; split=> //.
by rewrite H2 trmxK roots_gram /nn addr0.
Qed.

Lemma su_m2pE n (mu : 'cV[R]_n) (S : 'M[R]_n) :
  su_moments2points (A1 mu, A2 S) None None None =
  Ok (SigmaPoints (A2 (sigma_rows mu S^T 3%:R)) (A1 (wdef R n)) (A1 (wdef R n))).
Proof.
rewrite /su_moments2points len1E bO tr2 bO /odflt /oapp !mul1r.
have E1 : n%:R + (3%:R - n%:R) = 3%:R :> R by rewrite addrC subrK.
have E2 : n%:R + (3%:R - n%:R) - n%:R = 3%:R - n%:R :> R by rewrite E1.
by rewrite E2 E1 ltNge ler0n /= !eqxx /= pnatr_eq0 /= subrr !addr0.
Qed.

Lemma su_utE k n p (P : 'M[R]_(k.+1, n)) wm wc (F : pyfun R) (f : 'cV[R]_n -> 'cV[R]_p) (N : 'M[R]_p) :
  fun1 F f ->
  exists2 V : 'M[R]_p,
    su_transform qr (SigmaPoints (A2 P) (A1 wm) (A1 wc)) F (Some (A2 N)) =
    Ok (SigmaPoints (A2 (fmap f P)) (A1 wm) (A1 wc), (A1 (wmean (fmap f P) wm), A2 V))
    & upper V /\ V^T *m V = wcross (wabs wc) (cen (fmap f P) (wmean (fmap f P) wm)) (cen (fmap f P) (wmean (fmap f P) wm)) + N *m N^T.
Proof.
move=> HF; rewrite /su_transform [shape0 _]/= bO.
have B (X : Type) (h : arr R -> res X) :
  (l <-- mapr (fun i => x <-- idx0 (A2 P) i ;; F [:: x]) (iota 0 k.+1) ;; pred <-- vstack l ;; h pred) = h (A2 (fmap f P)).
  have := @vstack_iota R k p (fun i => x <-- idx0 (A2 P) i ;; F [:: x]) (fmap f P).
  case: (mapr _ _) => [l|e]; rewrite ?bO; first move=> ->; rewrite ?bO //; try by move=> ?.
    move=> i; rewrite idx02 bO HF; congr (Ok (A1 _)); apply/matrixP=> a b; rewrite !mxE (ord1 b) //.
  move=> H; have // : Err e = Ok (A2 (fmap f P)).
  apply: H => i; rewrite idx02 bO HF; congr (Ok (A1 _)); apply/matrixP=> a b; rewrite !mxE (ord1 b) //.
rewrite [sp_points _]/= B [sp_wm _]/= [sp_wc _]/=.
have [//|V E H] := @su_p2mE _ _ (fmap f P) wm wc (Some N).
by exists V; rewrite // [omap _ _]/= in E *; rewrite E.
Qed.

Lemma lstsqE p q (M : 'M[R]_p) (X : 'M[R]_(p, q)) : np_lstsq (A2 M) (A2 X) = Ok (A2 (pinv M *m X)).
Proof. by rewrite /np_lstsq NumpyFacts.pinv2 bO dot22. Qed.

(** ** Correction *)
Lemma su_correctE n m (C : 'M[R]_(n, m)) (mu : 'cV[R]_n) (Sp : 'M[R]_n) (zh : 'cV[R]_m) (So : 'M[R]_m) (z : 'cV[R]_m) :
  So \in unitmx ->
  let K := C *m invmx (So *m So^T) in
  su_correct (A2 C) (A1 mu, A2 Sp) (A1 zh, A2 So) (A1 z, false) =
  (s <-- cholupdate (A2 Sp) (A2 (K *m So)^T) (-1) ;; Ok (A1 (mu + K *m (z - zh)), s)).
Proof.
move=> uS K; have uT : So^T \in unitmx by rewrite unitmx_tr.
have uP : So *m So^T \in unitmx by rewrite unitmx_mul uS uT.
rewrite /su_correct [~~ _]/= [fst _]/= [snd _]/= tr2 bO lstsqE bO tr2 bO lstsqE bO tr2 bO.
have -> : (pinv So^T *m (pinv So *m C^T))^T = K.
  rewrite !pinv_unit // !trmx_mul trmxK !trmx_inv trmxK /K -mulmxA; congr (_ *m _).
  rewrite -[RHS]mulmx1; apply: (canRL (mulKmx uP)).
  by rewrite !mulmxA -[So *m _ *m _]mulmxA mulmxV // mulmx1 mulmxV.
by rewrite [fst _]/= [snd _]/= sub11 bO dot21 bO add11 bO dot22 bO tr2 bO.
Qed.

Lemma su_filter_correctE k n m (P : 'M[R]_(k.+1, n)) w (G : pyfun R) (g : 'cV[R]_n -> 'cV[R]_m) mu (Sp : 'M[R]_n) (R2 : 'M[R]_m) (z : 'cV[R]_m) b :
  fun1 G g -> let Z := fmap g P in
  exists2 V : 'M[R]_m,
    su_filter_correct qr G (A1 mu, A2 Sp) (SigmaPoints (A2 P) (A1 w) (A1 w)) (A1 z, b) (Some (A2 R2)) =
    su_correct (A2 (wcross w (cen P mu) (cen Z (wmean Z w)))) (A1 mu, A2 Sp) (A1 (wmean Z w), A2 V) (A1 z, b)
    & upper V /\ V^T *m V = wcross (wabs w) (cen Z (wmean Z w)) (cen Z (wmean Z w)) + R2 *m R2^T.
Proof.
move=> HG Z; have [V E H] := su_utE P w w R2 HG; exists V => //.
rewrite /su_filter_correct E bO [sp_points _]/= [fst _]/= sub_row bO tr2 bO [sp_wm _]/= diag1 bO dot22 bO.
by rewrite [sp_points _]/= [fst _]/= sub_row bO dot22 bO.
Qed.

Lemma cholupperE n (P : 'M[R]_n) : pd P -> exists2 F, np_cholesky_upper (A2 P) = Ok (A2 F) & is_chol P F.
Proof.
move=> HP; rewrite /np_cholesky_upper cholTE (pd_sym HP); have [L EL] := chol_pd HP.
by rewrite EL bO tr2; exists L^T => //; apply: chol_is_chol EL; exact: pd_sym.
Qed.
Lemma sptsE n (mu : 'cV[R]_n) (P F : 'M[R]_n) : is_chol P F -> spts mu P = Some (sigma_rows mu F^T 3%:R).
Proof.
move=> HF; have HP := is_chol_pd HF; rewrite /spts (pd_sym HP); have [L EL] := chol_pd HP.
have HL := chol_is_chol (pd_sym HP) EL.
by rewrite EL (upper_uniq HF HL) trmxK.
Qed.
End Facts.
