(** Sampling with functions that work in place, and refutations for C65. *)
From Coq Require Import String List.
From mathcomp Require Import all_ssreflect all_algebra.
From mathcomp Require Import ring.
From Verif Require Import Prelude Zmod LinAlg Numpy NumpyFacts Sklearn Standard Model StandardInit Rng Unscented
  UscSpec UscFacts UscRefine UscLoop UscInit UscProps InPlace InPlaceSpec InPlaceFacts.
Import GRing.Theory Num.Theory Order.Theory.

Set Implicit Arguments.
Unset Strict Implicit.
Unset Printing Implicit Defensive.
Local Open Scope ring_scope.

Section Sample.
Variables (R : rcfType) (G : Type) (rl : rng_lib R G).
Notation arr := (arr R).

Definition rmap T U (f : T -> U) (x : G * res T) : G * res U := (x.1, r <-- x.2 ;; Ok (f r)).
Lemma rbind_rlift T U (x : res T) (k : T -> rnd G U) g :
  rbind (rlift x) k g = match x with Ok v => k v g | Err e => (g, Err e) end.
Proof. by []. Qed.
Lemma rbind_match T U (x : rnd G T) (k : T -> rnd G U) g :
  rbind x k g = match x g with (g', Ok v) => k v g' | (g', Err e) => (g', Err e) end.
Proof. by rewrite /rbind; case: (x g) => g' []. Qed.

Variables (app : pyfun R -> arr -> arr -> res arr) (app_ip : ipfun R -> arr -> arr -> res (arr * arr)).
Hypothesis Happ : forall f x w, quiet f -> app_ip f x w = (y <-- app (value_of f) x w ;; Ok (y, x)).
Variables (jf jg : ipcont R) (p : uparams R).
Hypotheses (Ef : u_f p = jvalues (jarray1d jf)) (Eg : u_g p = jvalues (jarray1d jg)) (Qf : all_quiet jf) (Qg : all_quiet jg).

Lemma jfun_at (j : ipcont R) t : all_quiet j ->
  (exists2 f, quiet f & jat (jarray1d j) t = Ok f /\ fun_at (jvalues (jarray1d j)) t = Ok (value_of f)) \/
  (exists e, jat (jarray1d j) t = Err e /\ fun_at (jvalues (jarray1d j)) t = Err e).
Proof.
move=> Q; rewrite fun_at_jvalues; case E: (jat _ _) => [f|e]; [left|right; by exists e].
by exists f => //; apply: jat_quiet E.
Qed.

Lemma step_values n m t init prev g :
  usample_step_ip rl app_ip (jarray1d jf) (jarray1d jg) p n m t init prev g =
  rmap (fun xz => (prev, xz.1, xz.2)) (usample_step rl app p n m t init prev g).
Proof.
rewrite /usample_step_ip /usample_step !(rbind_match _ _ g).
have E2 x g' : ((g0 <~~ rlift (jat (jarray1d jg) t);; v <~~ multivariate_normal rl (zeros1 m) (u_oc p);;
     '(z, x') <~~ rlift (app_ip g0 x v);; z' <~~ rlift (assign1 m z);; rlift (Ok (prev, x', z'))) g') =
    rmap (fun xz => (prev, xz.1, xz.2)) ((g0 <~~ rlift (fun_at (u_g p) t);; v <~~ multivariate_normal rl (zeros1 m) (u_oc p);;
     z <~~ rlift (app g0 x v);; z' <~~ rlift (assign1 m z);; rlift (Ok (x, z'))) g').
  rewrite !rbind_rlift Eg; case: (jfun_at t Qg) => [[h Qh [-> ->]]|[e [-> ->]]] //.
  rewrite !(rbind_match _ _ g'); case: (multivariate_normal _ _ _ _) => g2 [v|e] //.
  rewrite !rbind_rlift Happ //; case: (app _ _ _) => [y|e] //; rewrite bO.
  by rewrite !rbind_rlift; case: (assign1 _ _).
case: prev E2 => [s|] E2.
- rewrite !rbind_rlift Ef; case: (jfun_at t.-1 Qf) => [[h Qh [-> ->]]|[e [-> ->]]] //.
  rewrite !(rbind_match _ _ g); case: (multivariate_normal _ _ _ _) => g2 [w|e] //.
  rewrite !rbind_rlift Happ //; case: (app _ _ _) => [y|e] //; rewrite bO.
  by rewrite !rbind_rlift; case: (assign1 _ _) => [x|e] //; rewrite -E2.
- by rewrite !rbind_rlift; case: (assign1 _ _) => [x|e] //; rewrite -E2.
Qed.

Lemma usample_loop_ipS n m init k t prev : usample_loop_ip rl app_ip (jarray1d jf) (jarray1d jg) p n m init k.+1 t prev =
  ('(prev', x, z) <~~ usample_step_ip rl app_ip (jarray1d jf) (jarray1d jg) p n m t init prev ;;
   '(x', rest) <~~ usample_loop_ip rl app_ip (jarray1d jf) (jarray1d jg) p n m init k t.+1 (Some x) ;;
   rlift (Ok (prev', (odflt x x', z) :: rest))).
Proof. exact: erefl. Qed.
Lemma usample_loopS n m init k t prev : usample_loop rl app p n m init k.+1 t prev =
  ('(x, z) <~~ usample_step rl app p n m t init prev ;;
   rest <~~ usample_loop rl app p n m init k t.+1 (Some x) ;;
   rlift (Ok ((x, z) :: rest))).
Proof. exact: erefl. Qed.
Lemma loop_values n m init k t prev g :
  usample_loop_ip rl app_ip (jarray1d jf) (jarray1d jg) p n m init k t prev g =
  rmap (pair prev) (usample_loop rl app p n m init k t prev g).
Proof.
elim: k t prev g => [//|k IH] t prev g.
rewrite usample_loop_ipS usample_loopS !rbind_match step_values.
case: (usample_step _ _ _ _ _ _ _ _ _) => g2 [[x z]|e] //; rewrite /rmap bO.
rewrite !rbind_match IH; by case: (usample_loop _ _ _ _ _ _ _ _ _ _) => g3 [rows|e].
Qed.
End Sample.

Section Class.
Variables (R : rcfType) (G : Type) (rl : rng_lib R G).
Lemma sample_values (o : ukf R) jf jg T x0 rs w : seed_ok (o_rs o) -> all_quiet jf -> all_quiet jg ->
  aukf_sample_ip rl o jf jg T x0 rs w = aukf_sample rl (with_functions o jf jg) T x0 rs w /\
  ukf_sample_ip rl o jf jg T x0 rs w = ukf_sample rl (with_functions o jf jg) T x0 rs w.
Proof.
move=> Hs Qf Qg.
have M dflt app app_ip (Happ : forall f x w, quiet f -> app_ip f x w = (y <-- app (value_of f) x w ;; Ok (y, x))) :
    usample_ip rl dflt app_ip o jf jg T x0 rs w = usample rl dflt app (with_functions o jf jg) T x0 rs w.
  rewrite /usample_ip /usample; have [-> Ef Eg] := ip_params jf jg Hs dflt.
  case: (shape_m1 _) => [n|//]; case: (shape_m1 _) => [m|//]; rewrite [o_rs (with_functions _ _ _)]/=.
  case: (check_random_state _) => [h|//].
  have E g : (init <~~ (match x0 with None => multivariate_normal rl (u_im (uinit_value dflt (with_functions o jf jg))) (u_ic (uinit_value dflt (with_functions o jf jg))) | Some x => rlift (Ok x) end) ;;
       '(_, rows) <~~ usample_loop_ip rl app_ip (jarray1d jf) (jarray1d jg) (uinit_value dflt (with_functions o jf jg)) n m init T 0 None ;; rlift (Ok rows)) g =
     (init <~~ (match x0 with None => multivariate_normal rl (u_im (uinit_value dflt (with_functions o jf jg))) (u_ic (uinit_value dflt (with_functions o jf jg))) | Some x => rlift (Ok x) end) ;;
       usample_loop rl app (uinit_value dflt (with_functions o jf jg)) n m init T 0 None) g.
    rewrite !rbind_match; case: (match x0 with None => _ | Some x => _ end g) => g' [init|e] //.
    rewrite rbind_match (loop_values rl Happ Ef Eg Qf Qg).
    by case: (usample_loop _ _ _ _ _ _ _ _ _ _) => g2 [rows|e].
  by rewrite /run_on; case: h => [|z|i]; rewrite E.
split.
- apply: M => f x v Hf; rewrite /add_apply_ip /add_apply /value_of.
  case E: (f _) => [r|//]; rewrite !bO (Hf _ _ E); by case: (add _ _).
- apply: M => f x v Hf; rewrite /aug_apply_ip /aug_apply /value_of.
  by case E: (f _) => [r|//]; rewrite !bO (Hf _ _ E).
Qed.
End Class.
