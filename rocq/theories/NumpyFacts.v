(** Static-shape facts about the array model. *)
From mathcomp Require Import all_ssreflect all_algebra.
From Verif Require Import Prelude LinAlg Numpy.
Import GRing.Theory Num.Theory.

Set Implicit Arguments.
Unset Strict Implicit.
Unset Printing Implicit Defensive.
Local Open Scope ring_scope.

Section Facts.
Variable R : rcfType.

Lemma mgetE m n (M : 'M[R]_(m, n)) (i : 'I_m) (j : 'I_n) : mget M i j = M i j.
Proof. by rewrite /mget !valK. Qed.

Lemma bgetE m n (M : 'M[R]_(m, n)) (i : 'I_m) (j : 'I_n) : bget M i j = M i j.
Proof.
rewrite /bget -mgetE; congr mget.
- by case: eqP i => // -> i; rewrite (ord1 i).
- by case: eqP j => // -> j; rewrite (ord1 j).
Qed.

Lemma bop22 op m n (M N : 'M[R]_(m, n)) :
  bop op (A2 M) (A2 N) = Ok (A2 (\matrix_(i, j) op (M i j) (N i j))).
Proof.
rewrite /= /bop2 /bdim !eqxx; congr (Ok (A2 _)).
by apply/matrixP=> i j; rewrite !mxE !bgetE.
Qed.
Lemma bop11 op n (u v : 'cV[R]_n) :
  bop op (A1 u) (A1 v) = Ok (A1 (\col_i op (u i 0) (v i 0))).
Proof.
rewrite /= /bdim eqxx; congr (Ok (A1 _)).
by apply/matrixP=> i j; rewrite !mxE (bgetE u i ord0) (bgetE v i ord0).
Qed.

Lemma add22 m n (M N : 'M[R]_(m, n)) : add (A2 M) (A2 N) = Ok (A2 (M + N)).
Proof. by rewrite /add bop22; congr (Ok (A2 _)); apply/matrixP=> i j; rewrite !mxE. Qed.
Lemma sub22 m n (M N : 'M[R]_(m, n)) : sub (A2 M) (A2 N) = Ok (A2 (M - N)).
Proof. by rewrite /sub bop22; congr (Ok (A2 _)); apply/matrixP=> i j; rewrite !mxE. Qed.
Lemma add11 n (u v : 'cV[R]_n) : add (A1 u) (A1 v) = Ok (A1 (u + v)).
Proof.
by rewrite /add bop11; congr (Ok (A1 _)); apply/matrixP=> i j; rewrite !mxE (ord1 j).
Qed.
Lemma sub11 n (u v : 'cV[R]_n) : sub (A1 u) (A1 v) = Ok (A1 (u - v)).
Proof.
by rewrite /sub bop11; congr (Ok (A1 _)); apply/matrixP=> i j; rewrite !mxE (ord1 j).
Qed.
Lemma iadd22 m n (M N : 'M[R]_(m, n)) : iadd (A2 M) (A2 N) = Ok (A2 (M + N)).
Proof. by rewrite /iadd add22 /= eqxx. Qed.
Lemma iadd11 n (u v : 'cV[R]_n) : iadd (A1 u) (A1 v) = Ok (A1 (u + v)).
Proof. by rewrite /iadd add11 /= eqxx. Qed.

Lemma mulr_dynE m n q (M : 'M[R]_(m, n)) (N : 'M[R]_(n, q)) :
  mulr_dyn M N = Ok (M *m N).
Proof. by rewrite /mulr_dyn; case: eqP => // e; rewrite castmx_id. Qed.

Lemma mulr_dyn_err m n p q (M : 'M[R]_(m, n)) (N : 'M[R]_(p, q)) :
  p != n -> mulr_dyn M N = Err ValueError.
Proof. by rewrite /mulr_dyn; case: eqP. Qed.

Lemma dot22 m n q (M : 'M[R]_(m, n)) (N : 'M[R]_(n, q)) :
  dot (A2 M) (A2 N) = Ok (A2 (M *m N)).
Proof. by rewrite /= mulr_dynE. Qed.
Lemma dot21 m n (M : 'M[R]_(m, n)) (v : 'cV[R]_n) :
  dot (A2 M) (A1 v) = Ok (A1 (M *m v)).
Proof. by rewrite /= mulr_dynE. Qed.
Lemma tr2 m n (M : 'M[R]_(m, n)) : tr (A2 M) = Ok (A2 M^T).
Proof. by []. Qed.
Lemma outer11 m n (u : 'cV[R]_m) (v : 'cV[R]_n) :
  outer (A1 u) (A1 v) = Ok (A2 (u *m v^T)).
Proof. by []. Qed.
Lemma pinv2 m n (M : 'M[R]_(m, n)) : np_pinv (A2 M) = Ok (A2 (pinv M)).
Proof. by []. Qed.
Lemma assign1E n (v : 'cV[R]_n) : assign1 n (A1 v) = Ok (A1 v).
Proof. by rewrite /= eqxx. Qed.
Lemma assign2E m n (M : 'M[R]_(m, n)) : assign2 m n (A2 M) = Ok (A2 M).
Proof. by rewrite /= /assign2_mx !eqxx. Qed.

Lemma eye2E n : @eye2 R n n = A2 (1%:M : 'M_n).
Proof. by rewrite /eye2; congr A2; apply/matrixP=> i j; rewrite !mxE. Qed.

Lemma as_squareE T n (M : 'M[R]_n) (k : forall n, 'M[R]_n -> res T) :
  as_square (A2 M) k = k n M.
Proof. by rewrite /as_square /=; case: eqP => // e; rewrite castmx_id. Qed.

Lemma cholE n (M : 'M[R]_n) :
  np_cholesky_lower (A2 M) = if chol M is Some L then Ok (A2 L) else Err LinAlgError.
Proof. by rewrite /np_cholesky_lower as_squareE. Qed.

Lemma solveE n q (M : 'M[R]_n) (N : 'M[R]_(n, q)) :
  np_solve (A2 M) (A2 N) =
  if M \in unitmx then Ok (A2 (invmx M *m N)) else Err LinAlgError.
Proof.
by rewrite /np_solve as_squareE; case: eqP => // e; rewrite castmx_id.
Qed.

End Facts.

Definition npE := (add22, sub22, add11, sub11, iadd22, iadd11, dot22, dot21, tr2,
  outer11, pinv2, assign1E, assign2E, cholE, solveE).

#[global] Arguments dot : simpl never.
#[global] Arguments add : simpl never.
#[global] Arguments sub : simpl never.
#[global] Arguments iadd : simpl never.
#[global] Arguments outer : simpl never.
#[global] Arguments np_pinv : simpl never.
#[global] Arguments tr : simpl never.
#[global] Arguments assign1 : simpl never.
#[global] Arguments assign2 : simpl never.
#[global] Arguments np_cholesky_lower : simpl never.
#[global] Arguments np_solve : simpl never.

(** evaluate statically shaped array code *)
Ltac np := repeat (rewrite npE /=).
