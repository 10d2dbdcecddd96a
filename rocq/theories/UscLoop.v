(** The filter and smoother loops of unscented.py on well-shaped parameters. *)
From Coq Require Import List.
From mathcomp Require Import all_ssreflect all_algebra.
From mathcomp Require Import ring.
From Verif Require Import Prelude Zmod LinAlg Numpy NumpyFacts Sklearn Standard Model Unscented UscSpec UscFacts UscRefine.
Import GRing.Theory Num.Theory Order.Theory.

Set Implicit Arguments.
Unset Strict Implicit.
Unset Printing Implicit Defensive.
Local Open Scope ring_scope.

#[local] Arguments moments2points : simpl never.
#[local] Arguments points2moments : simpl never.
#[local] Arguments unscented_transform : simpl never.
#[local] Arguments unscented_filter_predict : simpl never.
#[local] Arguments unscented_filter_correct : simpl never.
#[local] Arguments fun_at : simpl never.
#[local] Arguments wdef : simpl never.
#[local] Arguments spts : simpl never.
#[local] Arguments ucorr : simpl never.
#[local] Arguments uback1 : simpl never.

#[local] Arguments part : simpl never.

Section Loop.
Variable R : rcfType.

Lemma bO (A B : Type) (x : A) (k : A -> res B) : bind (Ok x) k = k x. Proof. by []. Qed.
Lemma bO2 (A B C : Type) (x : A) (y : B) (k : A -> B -> res C) : ('(a, b) <-- Ok (x, y) ;; k a b) = k x y. Proof. by []. Qed.
Lemma bE (A B : Type) e (k : A -> res B) : bind (Err e) k = Err e. Proof. by []. Qed.

(** ** augmented points *)
Lemma A2_cols m d n (F : nat -> nat -> R) : d = n ->
  A2 (\matrix_(i < m, j < d) F i j) = A2 (\matrix_(i < m, j < n) F i j).
Proof. by move=> ->. Qed.

Lemma colsE m n (M : 'M[R]_(m, n)) s e d : (minn e n - minn s n = d)%N ->
  cols (A2 M) s e = Ok (A2 (\matrix_(i < m, j < d) mget M i (s + j))).
Proof. by move=> E; rewrite /cols (A2_cols _ (fun i j => mget M i (s + j))%N E). Qed.
Lemma cols_l m n p (M : 'M[R]_(m, n + p)) : cols (A2 M) 0 n = Ok (A2 (lsubmx M)).
Proof.
rewrite (@colsE _ _ M 0%N n n); last by rewrite min0n subn0; apply/minn_idPl; exact: leq_addr.
by congr (Ok (A2 _)); apply/matrixP=> i j; rewrite !mxE (mgetE M i (lshift p j)).
Qed.
Lemma cols_r m n p (M : 'M[R]_(m, n + p)) : cols (A2 M) n (n + p) = Ok (A2 (rsubmx M)).
Proof.
rewrite (@colsE _ _ M n _ p); last by rewrite minnn (minn_idPl (leq_addr _ _)) addKn.
by congr (Ok (A2 _)); apply/matrixP=> i j; rewrite !mxE (mgetE M i (rshift n j)).
Qed.
Lemma cols_mid m n p q (M : 'M[R]_(m, n + (p + q))) :
  cols (A2 M) n (n + p) = Ok (A2 (lsubmx (rsubmx M))).
Proof.
rewrite (@colsE _ _ M n _ p); last by rewrite (minn_idPl (leq_addr _ _)) addnA (minn_idPl (leq_addr _ _)) addKn.
by congr (Ok (A2 _)); apply/matrixP=> i j; rewrite !mxE (mgetE M i (rshift n (lshift q j))).
Qed.
Lemma cols_end m n p q (M : 'M[R]_(m, n + (p + q))) :
  cols (A2 M) (n + p) (n + p + q) = Ok (A2 (rsubmx (rsubmx M))).
Proof.
rewrite (@colsE _ _ M _ _ q); last by rewrite addnA minnn (minn_idPl (leq_addr _ _)) addKn.
by congr (Ok (A2 _)); apply/matrixP=> i j; rewrite !mxE -addnA (mgetE M i (rshift n (rshift p j))).
Qed.

Definition sps k p (w : 'cV[R]_k) (P : 'M[R]_(k, p)) : sigma_points R := SigmaPoints (A2 P) (A1 w) (A1 w).

Lemma partl k n p (w : 'cV[R]_k) (M : 'M[R]_(k, n + p)) : part (SigmaPoints (A2 M) (A1 w) (A1 w)) 0 n = Ok (sps w (lsubmx M)).
Proof. by rewrite /part [sp_points _]/= cols_l. Qed.
Lemma partr k n p (w : 'cV[R]_k) (M : 'M[R]_(k, n + p)) : part (SigmaPoints (A2 M) (A1 w) (A1 w)) n (n + p) = Ok (sps w (rsubmx M)).
Proof. by rewrite /part [sp_points _]/= cols_r. Qed.
Lemma partm k n p q (w : 'cV[R]_k) (M : 'M[R]_(k, n + (p + q))) :
  part (SigmaPoints (A2 M) (A1 w) (A1 w)) n (n + p) = Ok (sps w (lsubmx (rsubmx M))).
Proof. by rewrite /part [sp_points _]/= cols_mid. Qed.
Lemma parte k n p q (w : 'cV[R]_k) (M : 'M[R]_(k, n + (p + q))) :
  part (SigmaPoints (A2 M) (A1 w) (A1 w)) (n + p) (n + p + q) = Ok (sps w (rsubmx (rsubmx M))).
Proof. by rewrite /part [sp_points _]/= cols_end. Qed.
Lemma aug3E n m (Q : 'M[R]_n) (Rn : 'M[R]_m) (s : 'cV[R]_n * 'M[R]_n) :
  augmented_unscented_filter_points (A1 s.1) (A2 s.2) (A2 Q) (A2 Rn) =
  if aug_pts Q Rn s is Some P
  then Ok (sps (wdef R _) (px P), sps (wdef R _) (pw P), sps (wdef R _) (pv P))
  else Err LinAlgError.
Proof.
rewrite -[LHS]/(pts <-- moments2points (A1 (col_mx s.1 (col_mx 0 0)), A2 (block_mx s.2 0 0 (block_mx Q 0 0 Rn))) None None None ;;
  p1 <-- part pts 0 n ;; p2 <-- part pts n (n + n) ;; p3 <-- part pts (n + n) (n + n + m) ;; Ok (p1, p2, p3)).
rewrite m2p_defE /aug_pts; case: (spts _ _) => [P|//].
by rewrite bO partl bO partm bO parte.
Qed.
Lemma aug2E n m (Q : 'M[R]_m) (s : 'cV[R]_n * 'M[R]_n) :
  augmented_points2 (A1 s.1, A2 s.2) (zeros1 m, A2 Q) =
  if spts (col_mx s.1 0) (block_mx s.2 0 0 Q) is Some P
  then Ok (sps (wdef R _) (lsubmx P), sps (wdef R _) (rsubmx P))
  else Err LinAlgError.
Proof.
rewrite -[LHS]/(pts <-- moments2points (A1 (col_mx s.1 0), A2 (block_mx s.2 0 0 Q)) None None None ;;
  p1 <-- part pts 0 n ;; p2 <-- part pts n (n + m) ;; Ok (p1, p2)).
rewrite m2p_defE; case: (spts _ _) => [P|//].
by rewrite bO partl bO partr.
Qed.

(** ** steps *)
Section Steps.
Variables (n m : nat) (p : uparams R) (Q : 'M[R]_n) (Rn : 'M[R]_m) (mu0 : 'cV[R]_n) (P0 : 'M[R]_n).
Hypotheses (EQ : u_tc p = A2 Q) (ER : u_oc p = A2 Rn) (E0 : u_im p = A1 mu0) (EP : u_ic p = A2 P0).
Definition cut (z : orow R m) : option 'cV[R]_m := if missing z then None else Some z.1.

Lemma asg (s : 'cV[R]_n * 'M[R]_n) :
  ('(m0, c) <-- Ok (lift_s s) ;; fm <-- assign1 n m0 ;; fc <-- assign2 n n c ;; Ok (fm, fc)) = Ok (lift_s s).
Proof. by rewrite /= assign1E /= assign2E. Qed.

Section Add.
Variables (f : nat -> 'cV[R]_n -> 'cV[R]_n) (g : nat -> 'cV[R]_n -> 'cV[R]_m).
Lemma add_firstE G z : fun_at (u_g p) 0 = Ok G -> fun1 G (g 0%N) ->
  add_step p n 0 None (A1 z.1, missing z) = lift_o (add_first Rn mu0 P0 g (cut z)).
Proof.
move=> EG HG; rewrite /add_step E0 EP ER m2p_defE /add_first; case: (spts _ _) => //= P.
by rewrite (p2mE _ _ _ None) /= EG /= /onoise /= addr0 (fc1E _ _ (_, _) _ _ _ HG); exact: asg.
Qed.
Lemma add_nextE t s F G z : fun_at (u_f p) t = Ok F -> fun1 F (f t) -> fun_at (u_g p) t.+1 = Ok G -> fun1 G (g t.+1) ->
  add_step p n t.+1 (Some (lift_s s)) (A1 z.1, missing z) = lift_o (add_next Q Rn f g t s (cut z)).
Proof.
move=> EF HF EG HG; rewrite /add_step /= m2p_defE /add_next /add_pred EQ ER; case: (spts _ _) => //= P.
rewrite EF /= /unscented_filter_predict (ut1E _ _ _ (Some Q) HF) /= m2p_defE /add_corr /onoise /=.
case: (spts _ _) => //= P'; rewrite EG /= (fc1E _ _ (_, _) _ _ _ HG); exact: asg.
Qed.
End Add.

Section Aug.
Variables (f : nat -> 'cV[R]_n -> 'cV[R]_n -> 'cV[R]_n) (g : nat -> 'cV[R]_n -> 'cV[R]_m -> 'cV[R]_m).
Lemma aug_firstE G z : fun_at (u_g p) 0 = Ok G -> fun2 G (g 0%N) ->
  aug_step p n 0 None (A1 z.1, missing z) = lift_o (aug_first Q Rn mu0 P0 g (cut z)).
Proof.
move=> EG HG; rewrite /aug_step E0 EP ER EQ (aug3E _ _ (mu0, P0)) /aug_first.
case: (aug_pts _ _ _) => //= P.
rewrite (p2mE _ _ _ None) /= EG /= /onoise /= addr0 (fc2E _ _ _ (_, _) _ _ _ _ HG); exact: asg.
Qed.
Lemma aug_nextE t s F G z : fun_at (u_f p) t = Ok F -> fun2 F (f t) -> fun_at (u_g p) t.+1 = Ok G -> fun2 G (g t.+1) ->
  aug_step p n t.+1 (Some (lift_s s)) (A1 z.1, missing z) = lift_o (aug_next Q Rn f g t s (cut z)).
Proof.
move=> EF HF EG HG; rewrite /aug_step /= EQ ER aug3E /aug_next.
case: (aug_pts _ _ _) => //= P.
rewrite EF /= /unscented_filter_predict (ut2E _ _ _ _ _ _ HF) /= EG /= (fc2E _ _ _ (_, _) _ _ _ _ HG); exact: asg.
Qed.
End Aug.

(** ** smoother steps *)
Lemma usmooth_updateE k (w : 'cV[R]_k) (P Y : 'M[R]_(k, n)) (N : 'M[R]_n) (x s : 'cV[R]_n * 'M[R]_n) :
  usmooth_update n (A1 x.1) (A2 x.2) (sps w P) (sps w Y) (A1 (wmean Y w), A2 (wcov Y w w + N)) (A1 s.1) (A2 s.2) =
  Ok (lift_s (uback1 w P Y N x s)).
Proof.
by rewrite /usmooth_update /= sub_row /=; np; rewrite sub_row /=; np.
Qed.
Lemma add_backE (f : nat -> 'cV[R]_n -> 'cV[R]_n) t F x s : fun_at (u_f p) t = Ok F -> fun1 F (f t) ->
  add_back p n t (lift_s x) (lift_s s) = lift_o (add_back1 Q f t x s).
Proof.
move=> EF HF; rewrite /add_back /= m2p_defE /add_back1 EQ EF; case: (spts _ _) => //= P.
rewrite (ut1E _ _ _ (Some Q) HF) /=; exact: usmooth_updateE.
Qed.
Lemma aug_backE (f : nat -> 'cV[R]_n -> 'cV[R]_n -> 'cV[R]_n) t F x s : fun_at (u_f p) t = Ok F -> fun2 F (f t) ->
  aug_back p n t (lift_s x) (lift_s s) = lift_o (aug_back1 Q f t x s).
Proof.
move=> EF HF; rewrite /aug_back EQ aug2E /aug_back1 EF; case: (spts _ _) => //= P.
rewrite (ut2E _ _ _ _ _ _ HF) /= -[wcov _ _ _]addr0; exact: usmooth_updateE.
Qed.
End Steps.

(** ** loops *)
Lemma mapr_cons (A B : Type) (f : A -> res B) x l : mapr f (x :: l) = (y <-- f x ;; ys <-- mapr f l ;; Ok (y :: ys)).
Proof. by []. Qed.
Lemma uloop_cons (stp : ustep R) p n t prev k (z : orow R k) zs :
  ufilter_loop stp p n t prev (z :: zs) =
  (r <-- stp p n t prev (A1 z.1, missing z) ;; rs <-- ufilter_loop stp p n t.+1 (Some r) zs ;; Ok (r :: rs)).
Proof. by []. Qed.

Section Loops.
Variables (n m : nat) (stp : ustep R) (p : uparams R) (T : nat).
Notation st := ('cV[R]_n * 'M[R]_n)%type.
Variables (first : option 'cV[R]_m -> option st) (next : nat -> st -> option 'cV[R]_m -> option st).
Hypothesis H0 : forall z : orow R m, (0 < T)%N -> stp p n 0%N None (A1 z.1, missing z) = lift_o (first (cut z)).
Hypothesis HN : forall t s (z : orow R m), (t.+1 < T)%N ->
  stp p n t.+1 (Some (lift_s s)) (A1 z.1, missing z) = lift_o (next t s (cut z)).

Lemma ufold_next y t s : ufold first next y t = Some s -> ufold first next y t.+1 = next t s (y t.+1).
Proof. by rewrite /= => ->. Qed.

Lemma uloopN (y : nat -> option 'cV[R]_m) zs t s : ufold first next y t = Some s ->
  (t.+1 + size zs <= T)%N ->
  (forall i, (i < size zs)%N -> y (t.+1 + i)%N = stream zs i) ->
  ufilter_loop stp p n t.+1 (Some (lift_s s)) zs =
  mapr (fun t => lift_o (ufold first next y t)) (iota t.+1 (size zs)).
Proof.
elim: zs t s => [//|z zs IH] t s Hs Ht Hy.
rewrite -[iota _ _]/(t.+1 :: iota t.+2 (size zs)) uloop_cons mapr_cons (ufold_next Hs).
have -> : y t.+1 = cut z by have := Hy 0%N isT; rewrite addn0 => ->.
rewrite HN; last by apply: leq_trans Ht; rewrite /= addnS ltnS leq_addr.
case En: (next _ _ _) => [s'|//]; rewrite -[lift_o _]/(Ok (lift_s _)) !bO.
rewrite (IH t.+1 s') //.
- by rewrite (ufold_next Hs); have := Hy 0%N isT; rewrite addn0 => ->.
- by rewrite addSnnS.
- by move=> i Hi; rewrite addSnnS; exact: (Hy i.+1).
Qed.
Lemma uloopE zs : size zs = T ->
  ufilter_loop stp p n 0 None zs = mapr (fun t => lift_o (ufold first next (stream zs) t)) (iota 0 T).
Proof.
case: zs => [<- //|z zs Hs]; rewrite -Hs -[iota _ _]/(0%N :: iota 1 (size zs)) uloop_cons mapr_cons.
rewrite H0 -?Hs // -[ufold _ _ _ 0%N]/(first (cut z)).
case En: (first _) => [s|//]; rewrite -[lift_o _]/(Ok (lift_s _)) !bO.
rewrite (uloopN (y := stream (z :: zs))) //.
by rewrite add1n -Hs.
Qed.
End Loops.

Lemma mapr_lift_err n (F : nat -> option ('cV[R]_n * 'M[R]_n)) l e :
  mapr (fun i => lift_o (F i)) l = Err e -> e = LinAlgError.
Proof.
elim: l e => [//|i l IH] e /=; case: (F i) => [s|] /=; last by case.
by case E: (mapr _ _) => [l'|e'] //= [<-]; exact: IH.
Qed.

Section Back.
Variables (n : nat) (bck : uback R) (p : uparams R) (T : nat).
Notation st := ('cV[R]_n * 'M[R]_n)%type.
Variables (back : nat -> st -> st -> option st) (filt : nat -> st).
Hypothesis HB : forall t x s, (t.+1 < T)%N -> bck p n t (lift_s x) (lift_s s) = lift_o (back t x s).
Lemma ubackE d t : (t + d.+1 = T)%N ->
  usmooth_loop bck p n t [seq lift_s (filt i) | i <- iota t d.+1] =
  mapr (fun i => lift_o (ubacks back filt (T.-1 - i) i)) (iota t d.+1).
Proof.
elim: d t => [|d IH] t Ht; first by rewrite -Ht addn1 /= subnn.
have -> : iota t d.+2 = t :: iota t.+1 d.+1 by [].
have -> : usmooth_loop bck p n t [seq lift_s (filt i) | i <- t :: iota t.+1 d.+1] =
  (ss <-- usmooth_loop bck p n t.+1 [seq lift_s (filt i) | i <- iota t.+1 d.+1] ;;
      match ss with
      | [::] => Err IndexError
      | s :: _ => r' <-- bck p n t (lift_s (filt t)) s ;; Ok (r' :: ss)
      end) by [].
rewrite IH; last by rewrite addSnnS.
rewrite [mapr _ (t :: _)]/=.
have -> : (T.-1 - t = d.+1)%N by rewrite -Ht addnS /= addKn.
have Et : (T.-1 - t.+1 = d)%N by rewrite -Ht !addnS /= -addSn addKn.
rewrite [iota t.+1 _]/= [mapr _ (t.+1 :: _)]/= Et [ubacks _ _ d.+1 t]/=.
case: (ubacks back filt d t.+1) => [s|//]; rewrite [lift_o (Some s)]/= [obind _ _]/= [bind (Ok (lift_s s)) _]/=.
have tT : (t.+1 < T)%N by rewrite -Ht !addnS !ltnS leq_addr.
case El: (mapr _ _) => [l|e] /=; first by rewrite HB //; case: (back _ _ _).
by rewrite (mapr_lift_err El); case: (back _ _ _).
Qed.
End Back.
End Loop.
