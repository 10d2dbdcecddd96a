(** Model of pykalman/utils/_sklearn.py. *)
From mathcomp Require Import all_ssreflect all_algebra.
From Coq Require Import String.
From Verif Require Import Prelude LinAlg Numpy.
Import GRing.Theory Num.Theory.

Set Implicit Arguments.
Unset Strict Implicit.
Unset Printing Implicit Defensive.
Local Open Scope ring_scope.

Section Sklearn.
Variable R : rcfType.
Notation arr := (arr R).

(** _sklearn.py:40-42 (dtype/order arguments not used by pykalman) *)
Definition array1d (a : arr) : arr := atleast_1d a.
(** _sklearn.py:45-47 *)
Definition array2d (a : arr) : arr := atleast_2d a.

(** ** log_multivariate_normal_density, _sklearn.py:50-68

    Restricted to the single use in pykalman: one sample [x] (passed as
    [x[np.newaxis, :]]), one mean [mu] and one covariance [cv]; the returned
    value is [log_prob[0, 0]].  [ln] and [ln2pi] stand for [np.log] and
    [np.log(2 * np.pi)]. *)
Section Density.
Variables (ln : R -> R) (ln2pi : R).

(** [min_covar], default 1e-7 (_sklearn.py:50) *)
Definition min_covar : R := (10%:R ^+ 7)^-1.

(** [np.sum(np.log(np.diagonal(a)))], utils/_sklearn.py:62 *)
Definition sum_log_diag (a : arr) : res R :=
  match a with
  | @A2 _ m n M => Ok (\sum_(i < minn m n) ln (mget M i i))
  | _ => Err NotModelled
  end.
(** [np.sum(a ** 2)], utils/_sklearn.py:65 *)
Definition sum_sq (a : arr) : res R :=
  match a with
  | A2 _ _ M => Ok (\sum_i \sum_j M i j ^+ 2)
  | _ => Err NotModelled
  end.

(** body of the loop, utils/_sklearn.py:55-66; the sample is [x], so [X - mu] is
    [x - mu] as a row and [(X - mu).T] a column *)
Definition lmnd (x mu cv : arr) : res R :=
  n_dim <-- np_len x ;;
  cv_chol <-- (match np_cholesky_lower cv with
               | Err LinAlgError =>
                   cv' <-- add cv (scal min_covar (eye2 n_dim n_dim)) ;; np_cholesky_lower cv'
               | r => r
               end) ;;
  sld <-- sum_log_diag cv_chol ;;
  dif <-- sub (atleast_2d x) mu ;;
  dift <-- tr dif ;;
  cv_sol <-- np_solve cv_chol dift ;;
  sq <-- sum_sq cv_sol ;;
  Ok (- 2%:R^-1 * (sq + n_dim%:R * ln2pi + 2%:R * sld)).
End Density.

(** ** Random state, _sklearn.py:71-87

    Possible values of a [random_state] argument other than [None]. *)
Inductive rspec :=
  | RsModule            (* the module [np.random] *)
  | RsSeed of int       (* an integer *)
  | RsGen of nat        (* an existing RandomState instance, identified by a number *)
  | RsOther.            (* anything else *)

(** generator handles: the global generator, a fresh one, an existing one,
    utils/_sklearn.py:71-87 *)
Inductive genh := HGlobal | HFresh of int | HInst of nat.

(** Last branch: [raise ValueError(...).format(seed)] looks up the attribute
    [format] on the exception object, which raises [AttributeError].
    [np.random.RandomState(seed)] rejects seeds outside [0, 2^32). *)
Definition check_random_state (seed : option rspec) : res genh :=
  match seed with
  | None | Some RsModule => Ok HGlobal
  | Some (RsSeed z) => if (0 <= z) && (z < 2%:R ^+ 32) then Ok (HFresh z) else Err ValueError
  | Some (RsGen i) => Ok (HInst i)
  | Some RsOther => Err AttributeError
  end.

(** ** preprocess_arguments, _sklearn.py:115-151

    Dictionaries are association lists with distinct keys. *)
Section Preprocess.
Variable V : Type.

(** dictionary lookup [d[k]], utils/_sklearn.py:138-143 *)
Fixpoint dget T (d : seq (string * T)) (k : string) : option T :=
  match d with
  | [::] => None
  | (k', v) :: d' => if String.eqb k k' then Some v else dget d' k
  end.
(** [k in d], utils/_sklearn.py:134-138 *)
Definition dhas T (d : seq (string * T)) (k : string) : bool :=
  if dget d k is Some _ then true else false.

(** inner loop, utils/_sklearn.py:132-143 *)
Fixpoint pp_argset (converters : seq (string * (V -> res V)))
    (argset : seq (string * option V)) (result : seq (string * V)) : res (seq (string * V)) :=
  match argset with
  | [::] => Ok result
  | (argname, argval) :: rest =>
      match dget converters argname with
      | None => Err ValueError
      | Some conv =>
          match argval with
          | Some v => if dhas result argname then pp_argset converters rest result
                      else v' <-- conv v ;;
                           pp_argset converters rest (rcons result (argname, v'))
          | None => pp_argset converters rest result
          end
      end
  end.

(** outer loop and final check, utils/_sklearn.py:130-151 *)
Fixpoint pp_argsets (converters : seq (string * (V -> res V)))
    (argsets : seq (seq (string * option V))) (result : seq (string * V)) : res (seq (string * V)) :=
  match argsets with
  | [::] => Ok result
  | a :: rest => r <-- pp_argset converters a result ;; pp_argsets converters rest r
  end.

(** utils/_sklearn.py:115-151 *)
Definition preprocess_arguments (argsets : seq (seq (string * option V)))
    (converters : seq (string * (V -> res V))) : res (seq (string * V)) :=
  result <-- pp_argsets converters argsets [::] ;;
  if size converters == size result then Ok result else Err ValueError.
End Preprocess.

End Sklearn.
