# Formal model of pykalman in Rocq (Coq 8.16.1)

The pinned source in `/repo` is read as text; nothing of it is executed.
`rocq/theories` contains a hand-written model of the Python code, a separate
specification layer, the proofs, and property files that contain only the
final theorems.

## Modelling decisions

* **Numbers.** Exact arithmetic over an arbitrary real closed field
  (`R : rcfType` of mathcomp), so every theorem holds for the real numbers.
  Floating-point rounding, overflow, NaN/inf propagation and dtype conversion
  are *not* modelled.  A division `0/0` that numpy would turn into NaN is an
  explicit error value in the few places where it can occur.
* **Arrays.** `arr` is a dynamically shaped array of rank 0..3 (shape carried
  in the value, mismatches are run-time errors).  numpy broadcasting, `dot`,
  `atleast_1d/2d`, indexing along the first axis and assignment into a
  preallocated array are modelled for ranks <= 2 (rank 3 only as a time stack);
  an operation outside that fragment returns the pseudo exception
  `NotModelled`, which no theorem identifies with a Python result.
* **Arrays with a time axis that the code fills row by row** are lists of rows.
* **Exceptions** are values of a result monad (`ValueError`, `IndexError`,
  `TypeError`, `AttributeError`, `LinAlgError`, ...).
* **Linear algebra.** `pinv` is defined concretely (full-rank factorisation)
  and proved to satisfy the four Penrose equations, which determine it
  uniquely.  `cholesky` is defined concretely by recursion.  `qr` is universally
  quantified with its specification.
* **Random numbers.** A generator is an abstract state; `multivariate_normal`
  is an arbitrary function of (mean, covariance, state).
* **Logarithm.** `ln` and `2 pi` are parameters with the laws used spelled out
  as hypotheses of the theorems that need them.  `RealInstance.v` makes the
  standard library's reals a real closed field and proves the laws of its `ln`.
* **User callbacks** (transition/observation functions) are arbitrary total
  functions.
* **Probability.** An `L2` space is a record (sample space, class of
  square-integrable variables closed under linear combination, expectation,
  linear and positive on products).  Every real probability space is an
  instance; a finite instance is constructed to show non-vacuity.

## Trusted base

* **The Coq kernel** (8.16.1) with its guard, universe and conversion checks
  all switched on.  Tactics are not trusted: `ring`/`field` of mathcomp's
  algebra-tactics (which loads the elpi plugin) and the reflexive tactic of
  `Zmod.v` produce proof terms that the kernel checks.  `coqchk` has not been
  run on the final state.
* **Axioms.** `Print Assumptions` is run under every property theorem and
  reports `Closed under the global context` for each one, except the two of
  `Properties_Real.v`: they speak about the standard library's real numbers and
  depend on `ClassicalDedekindReals.sig_not_dec`,
  `ClassicalDedekindReals.sig_forall_dec`,
  `FunctionalExtensionality.functional_extensionality_dep`,
  `ClassicalEpsilon.constructive_indefinite_description` and
  `Classical_Prop.classic`, all of the standard library.  The list is at the
  end of this file.  No axiom is added.
* **The model.** Nothing connects the Coq definitions to the Python text
  mechanically.  Each definition cites the file and lines it transcribes;
  that transcription is trusted, together with the statements in the
  `Properties_*.v` files and the definitions they mention.
* **Library behaviour** assumed of numpy/scipy: the functions of `Numpy.v`,
  `Sqrt.v` and `Bierman.v` (broadcasting, `dot`, assignment into a row of a
  preallocated array, `pinv` as the Moore-Penrose inverse, `cholesky` as the
  factorisation that fails exactly on matrices that are not positive definite,
  `qr` as any factorisation with orthogonal and triangular factors, `lstsq` as
  multiplication by the pseudo-inverse, `isclose` with default tolerances);
  masks survive `ndarray.dot(masked_array)` (used by
  `decorrelate_observations`).  `scipy.linalg.cholesky` rejects arrays of rank
  3, as scipy did before 1.16; later versions factor a stack slice by slice, and
  the theorems on stacked covariances in the square-root classes (C28, C29)
  speak about the former only.
* **Context entries.** Tools that list everything a loaded library declares show
  primitive integers and floats and the parameters of mathcomp's module types;
  `Print Assumptions` shows that no theorem here uses them.

### Code that is modelled

| source | model |
| --- | --- |
| `standard.py` all functions and all methods of `KalmanFilter` | `Standard.v`, `Sample.v`, `Client.v` |
| the constructor, `filter`, `smooth`, `loglikelihood`, `filter_update`, `em` of `KalmanFilter` on arrays in memory | `Heap.v`, `HeapClient.v` |
| `unscented.py` all functions and all methods of both classes | `Unscented.v` |
| `unscented.py` with user functions that overwrite their arguments | `InPlace.v` |
| `sqrt/cholesky.py` all | `Cholesky.v` |
| `sqrt/bierman.py` all | `Bierman.v` |
| `sqrt/unscented.py` all | `SqrtUnscented.v` |
| `utils/_sklearn.py` `array1d`, `array2d`, `log_multivariate_normal_density` (one sample, one component), `check_random_state`, `preprocess_arguments` | `Sklearn.v` |
| `sqrt/bierman.py` on integer `initial_state_covariance` and `observation_matrices` | `BiermanInt.v` |
| `utils/_numpy.py` `newbyteorder` on float64 arrays | `ByteOrder.v` |
| `datasets/base.py` `load_robot` as a function of the file's contents | `Datasets.v` |

### Code that is not modelled

* rounding, overflow, infinities and NaN as numbers (see above); dtypes other
  than float64, except the two stores into integer arrays of
  `sqrt/bierman.py` (`BiermanInt.v`, C61);
* arrays of rank above 3 and rank-3 arrays in places other than a time stack;
* aliasing: outside `Heap.v` arrays are values, so writes through shared buffers
  are invisible.  `Heap.v` keeps arrays in memory for the constructor, `filter`,
  `smooth`, `loglikelihood`, `filter_update` and `em` of `KalmanFilter`,
  `HeapSample.v` for `sample`, and C66 proves that the value model of these is
  exact as long as the user writes to no shared array (sequences of calls: without
  `sample`); the other classes have no memory model, except for
  writes of user functions to their arguments (`InPlace.v`, C65).  In `Heap.v`
  the rows of an array indexed by time are kept as a list of arrays, a masked
  array (data and mask) is one buffer, results of arithmetic are values until
  stored, and the user's own writes are `overwrite` of a whole buffer;
* `get_params` (its result, the constructor arguments read back from the
  object, is written out as an association list), `Bunch`, `inspect`;
* keyword handling of Python calls, warnings, docstrings, logging;
* file reading in `load_robot`, the test suites, documentation and examples.

## What the statuses in MANIFEST.json mean

`proved`: the statement of properties.jsonl is proved as written.  `partial`:
everything else.  A note starting with REFUTED means the statement is false of
the modelled code and a theorem shows it; otherwise the note says what is
missing.  Theorems covering part of such a property end in `_partial`.  Until
commit 3bcd602 these properties were listed as `proved` under theorem names
without the suffix; older lines of seeded/LOG.jsonl use those names.

Two exclusions run through the data theorems and are part of the quantifiers:
a single row of two or more components (hypothesis `keeps`, the defect of C18)
and, for loglikelihood, time-varying observation covariances (C47).

## Defects of the code found on the way

Each is a theorem whose name ends in `_refuted` (or the exact behaviour).

1. `sample` uses the first slice of a stacked covariance at every step (C35).
2. `loglikelihood` fails on stacked observation covariances (C47).
3. A 1 x m observation array is transposed into m scalar observations (C18).
4. One-dimensional arrays of functions: only element 0 is ever called (C42).
5. `CholeskyKalmanFilter.em` and `BiermanKalmanFilter.em` raise `TypeError`
   with default arguments, after the attributes have been filled in (C33).
6. `filter_update` of the square-root filters returns a covariance with an
   extra leading axis that cannot be passed to the next call, except by
   `BiermanKalmanFilter` with a scalar state (C32).
7. The square-root unscented filter is wrong for two or more observed
   components, for non-diagonal transition covariance and for more than three
   states (C44); its smoother produces NaN, with two or more
   states, if the last observation is missing, and whenever m + 2 <= n (C46).
8. Unscented covariances may be indefinite: transform and additive filter from
   four states on, augmented filter from two states on (C49).
9. A single observation column is silently broadcast by the unscented filters;
   `CholeskyKalmanFilter` accepts other widths when m = 1 (C43).
10. `check_random_state` raises `AttributeError` instead of `ValueError` (C36).
11. `sample` reinterprets the bytes of covariances stored in the other byte
    order (C51).
12. `BiermanKalmanFilter` raises `IndexError` on an empty series (C29).
13. A single EM variable given as a string estimates nothing (C19).
14. `em` may lower the likelihood when an estimated parameter was given per
    time step (C22).
15. The square-root filters reject covariances that vary with time (C28, C29;
    with scipy before 1.16, see the trusted base).
16. `BiermanKalmanFilter` truncates integer arrays: `udu` stores into an array of
    the dtype of `initial_state_covariance`, `decorrelate_observations` into a
    copy of the stacked `observation_matrices` (C61).
17. `em` sets parameters the data say nothing about to zero: all selected
    observation parameters when every row is masked, all selected transition
    parameters when the series has one row (C62).
18. User functions of the unscented classes are called on rows of the arrays
    they are computed from; one that works in place (`x *= 2; return x`)
    silently gives wrong filtered and smoothed estimates and corrupts the
    states returned by `sample` (C65).
19. The constructor keeps references to the arrays it is given: writing to them
    later changes the filter (C67).

## Plan per property

- **C01 KalmanFilter.filter is the optimal estimate given the past.** Standard.v `filter` model; static kernel refinement; L2 space record (SpecL2.v); induction over t: error uncorrelated with past observations, Cov(error)=P; ker S <= ker(P C^T) lemma lets the pseudo-inverse handle singular S.  Minimality from orthogonality.
- **C02 KalmanFilter.smooth is the optimal estimate given all observations.** Backward induction; the backward residual is uncorrelated with all observations.
- **C03 The lag-one covariances fed to EM are the true posterior cross-covariances.** Covariance algebra on the same L2 space.
- **C04 loglikelihood is the log density of the observed data.** `log` and `2 pi` are parameters satisfying ln(xy)=ln x+ln y on positives; block (Schur) factorisation of the stacked Gaussian; induction over time.
- **C05 Filtering is causal.** Induction over the list of observation rows, for arbitrary dynamic (possibly ill-formed) parameters: prefix of the output list / same error.
- **C06 Data hidden by a mask never influences any result.** Relational induction on the dynamic model, errors included.
- **C07 A missing observation is a pure prediction step.** Unfolding + induction.
- **C08 Covariances depend on the mask pattern only.** Relational induction; affinity: explicit coefficients.
- **C09 Returned covariances are symmetric positive semidefinite and shrink with information.** Invariant by induction; Schur-complement PSD lemma; information comparison by optimality.
- **C10 Online updates reproduce batch filtering.** Induction on the remaining observations, dynamic model.
- **C11 filter_update refuses time-varying parameters that are not supplied.** Case analysis on the six parameters of the dynamic model.
- **C12 A constant parameter means the same as its time-varying repetition.** Dynamic model: same slices are read.
- **C13 Too short parameter stacks are rejected, never wrapped or repeated.** Dynamic model: IndexError as a value.
- **C14 Output shapes.** Dynamic model.
- **C15 Constructor dimension inference is sound and complete.** Dynamic model of __init__; spec = set of all reported sizes is a singleton.
- **C16 Omitted parameters get the documented defaults and supplied ones are kept.** Dynamic model of preprocess_arguments over association lists and of _initialize_parameters.
- **C17 Observation parsing.** Dynamic model of _parse_observations.
- **C18 A single multi-dimensional observation is one time step.** Refuted: 1 x m is transposed; witness theorem.
- **C19 em changes only the variables it is asked to estimate.** State-passing model of em.
- **C20 em iterations compose.** State-passing model of em; iteration lemma.
- **C21 Each M-step formula maximises the expected complete-data log likelihood.** Completing the square (PSD Gram matrices), log-det/trace inequality through Cholesky and ln x <= x-1.
- **C22 em never decreases the likelihood.** Pointwise Gaussian Bayes identities, conditional Gibbs inequality, C21; no integrals needed: expectation of quadratics is a trace formula. A three-step scalar model with per-step transition offsets refutes the time-varying case.
- **C23 em keeps covariances valid.** PSD of the M-step formulas.
- **C24 A failing em leaves the parameters of the last completed iteration.** em modelled as returning (state, result) so that the state at every crash point is visible.
- **C25 Query methods are pure and history independent.** Object state machine over arbitrary call sequences.
- **C26 Filtering is equivariant under change of state coordinates.** Relational induction on the static kernel (P invertible-congruence, pinv only through PSD normal equations).
- **C27 Filtering is invariant under invertible recoding of the observations.** Same; refuted for singular observation noise.
- **C28 CholeskyKalmanFilter computes the same estimates as KalmanFilter.** QR routine universally quantified: any function returning an upper triangular R with R^T R = A^T A.
- **C29 BiermanKalmanFilter computes the same estimates as KalmanFilter.** Composition of C30, C31, decorrelation; refuted for empty series and stacked observation covariances.
- **C30 udu factorises every PSD matrix.** Loop modelled as recursion over the column index; invariant.
- **C31 Bierman's scalar measurement update is the exact conditional covariance.** Loop invariant.
- **C32 Square-root filters' filter_update has the documented shape and can be chained.** Refuted: witness with covariance of shape (1,n,n).
- **C33 em with default em_vars works for every filter class.** Refuted: em(X) raises TypeError in the two square-root classes for every object built without em_vars; KalmanFilter part proved.
- **C34 sample draws from the stated model.** Generator = abstract state with a draw function mean -> cov -> state -> vector * state.
- **C35 sample honours time-varying covariances.** Refuted by a witness (three time steps).
- **C36 Seeding is reproducible.** State machine with a global generator and object-owned generators; error branch refuted (AttributeError).
- **C37 Sigma points carry exactly the given mean and covariance.** Static kernel of the unscented transform; cholesky concretely defined.
- **C38 The unscented transform is exact on affine functions.** Linear algebra on the sums.
- **C39 AdditiveUnscentedKalmanFilter equals KalmanFilter on linear models.** Refinement to the static Kalman kernel by induction.
- **C40 UnscentedKalmanFilter equals KalmanFilter on linear models with additive noise.** Same through block matrices.
- **C41 Unscented filters: online equals batch.** Induction.
- **C42 Time-varying transition/observation functions are honoured.** Refuted: model follows `_last_dims(f, t, ndims=1)[0]`; theorem: function 0 is always used.
- **C43 Observations of the wrong dimension are rejected.** Width mismatch by case analysis of the gain product. KalmanFilter, BiermanKalmanFilter: holds; unscented filters: one column is broadcast; CholeskyKalmanFilter: m = 1 accepts any width.
- **C44 The square-root unscented filter equals the plain one.** The square-root filter is modelled over an arbitrary QR routine. Proved by showing each step carries a factor S with S^T S the plain covariance (the triangular factor is unique up to row signs, and the sigma point sums do not depend on them). Refuted for vector observations, correlated transition noise and n > 3.
- **C45 cholupdate is the rank-k update of a Cholesky factor.** Loop invariant over columns and vectors (A^T A + sg * rest rest^T is preserved; pivots positive by positive definiteness). A downdate to a singular matrix is modelled as a NaN error, with the clamp of the code kept.
- **C46 The square-root smoother returns the plain smoother's finite result.** Refuted for whole classes of models: the downdate of the smoothing step has a target of rank at most m + (terms), so a pivot before the last one is exactly zero. In floating point the missing-last case is bitwise 0/0; in the other case the code divides by rounding noise. Where C44 holds, finite results are proved equal to the plain smoother's by induction from the last step.
- **C47 loglikelihood supports every parameterisation filter supports.** Refuted for every model with a stacked observation covariance and a visible first row.
- **C48 log_multivariate_normal_density is the Gaussian log density, with jitter only as a fallback.** Direct.
- **C49 Unscented covariances stay positive semidefinite.** Proved for n <= 3 (default kappa), refuted for every n > 3, and for n > 1 in the augmented filter.
- **C50 The robot data set loader pads and masks exactly the first observation.** load_robot is modelled as a function of the contents of robot.mat (loadmat, file paths and the description text are not modelled). Direct computation; composed with the KalmanFilter model.
- **C51 sample does not depend on the byte order of covariance arrays.** float64 arrays as bytes with a byte order; IEEE 754 decoding; newbyteorder keeps the bytes and changes the order. Native order: holds. Foreign order: refuted (1.0 becomes 61503 / 2^1074).
- **C52 The classes draw the same trajectories on linear models.** Trajectory specification with general noise; each class realises it; the specification has a unique solution for a given generator state.
- **C53 Masked rows at the end forecast.** The recursion with missing rows is iterated prediction; a smoother step towards a pure prediction leaves the filtered estimate unchanged (A P A' + Q absorbs the gain).
- **C54 Restarting from an earlier estimate.** The filter recursion from time s+1 on depends on the past only through the predicted moments; the smoother from the end; the log-likelihood is a sum over time.
- **C55 Only the ratios of the covariances matter to the means.** pinv (c S) = c^-1 pinv S; induction over the recursions.
- **C56 A known state stays known.** With zero predicted covariance the gain is zero; induction.
- **C57 Larger modelled noise is the safe side.** Error of any linear estimator with fixed weights is linear in the noises, so its covariance is monotone in the noise covariances; optimality (C01, C02) of the estimator of the larger model then gives both claims. Processes are the second-order spaces of C01.
- **C58 Independent subsystems do not interact.** pinv, product and sum of block-diagonal matrices; induction over the recursions; the density of a block-diagonal normal factorises.
- **C59 Change of units shifts the log-likelihood.** Mahalanobis terms are invariant (C27), the determinant of each innovation covariance is multiplied by det N squared; stated with 1/2 ln (det N ^2), which is ln |det N|.
- **C60 A shorter sample is the beginning of a longer one.** Induction on the loop of sample; no assumption on the object.
- **C61 BiermanKalmanFilter reads integer arrays as the numbers they hold.** BiermanInt.v models the class with the two stores into arrays of the caller's dtype passing through an arbitrary conversion that truncates towards zero in range. Refuted by [[2, 1], [1, 2]] and by a stack of observation matrices; exact description of the matrix used instead for two states; diagonal covariances and single observation matrices proved right.
- **C62 em leaves alone what the data say nothing about.** With no visible row every sum of the M-step over observations is empty and pinv 0 = 0, so the selected observation parameters become zero (induction over the iterations); with one row the same for the transition parameters. The statement is refuted; what is kept is proved.
- **C63 A masked row may be dropped by merging its two transitions.** A masked step is a pure prediction, and two predictions compose to one with the merged parameters; for the smoother the two gains compose (A P A' + Q absorbs the gain, positive semidefinite covariances); loglikelihood is a sum over visible rows.
- **C64 Independent sensors can be read together or one after the other.** For positive definite observation noise the corrected covariance is (1 + P J)^-1 P with J = C' R^-1 C, and J adds up over the sensors.
- **C65 Unscented filters use only what the functions return.** InPlace.v models both unscented classes with functions that return a value and a new content of their arguments (they are called on rows of the arrays of points and states). filter and filter_update: the transformed points are not used again when only transition functions write; smooth and sample: all functions must leave their arguments alone. Refuted in the other cases by a one-dimensional object.
- **C66 Arrays can be shared.** Heap.v models the constructor, filter, smooth, loglikelihood, filter_update and em of KalmanFilter on a heap of array buffers: attributes, arguments and results are references, np.zeros allocates, a[t] = v and a += v write through the reference, slices and np.atleast_2d are views. Simulation: each heap function, started in any memory, computes what its counterpart in Standard.v computes on values and only appends to the memory. HeapSample.v adds sample, on memory and one generator. Induction over the loops and over the sequence of calls.
- **C67 The constructor takes a snapshot of its arrays.** Same model. Refuted by a one-dimensional object whose initial_state_mean is overwritten. Proved instead: writes to arrays the object does not refer to change nothing, and after a successful em with em_vars='all' the object refers to no array that existed before.
- **C68 Unscented filters in other units.** The Cholesky factor is unique, so the factor of G A G' is G L D with D the signs of the diagonal of G; the sigma points are the images of the old ones with some pairs exchanged, and all sums over points carry equal weights on a pair. Symmetry of the covariances is kept along the filter. For the smoother, the predicted covariance is invertible because the next filter step factored it. UnscentedKalmanFilter.smooth is left out: its predicted covariance may be singular or indefinite, where the pseudo-inverse depends on the units.
- **C69 Unscented filters do not depend on the order of the state components.** Refuted by two states, initial covariance [[25,15],[15,25]] and f(x) = (0, x2^4): predicted mean 1011 in one order and 1875 in the other, because the lower Cholesky factor singles out the first component. Proved instead: linear models, any invertible change of coordinates (through C39 and C26); lower triangular changes are C68.
- **C70 Unscented filter_update: functions needed, arguments win.** The three filter_update functions with default_function (assert of length one) and arg_or_default; the parameter resolution of _initialize_parameters is computed (uinitializeE). An array of exactly one row of functions (2-d) is not modelled (NotModelled) and excluded from the refusal statement.
- **C71 filter and smooth are least squares estimates.** The same model of filter and smooth. KfLsSpec.v defines the criterion (cost, best_path) from the model parameters and the data only. Proof: the filter recursion completes the square of the criterion (cost = minimum + a sum of squares weighted by positive definite matrices), by induction over time; the smoother pass solves the remaining squares backwards.
- **C72 A constant state gives regularised linear regression.** As C71 with the criterion scost of a single vector (best_fit) and the matrix precision; positive definiteness of the transition covariance is not needed since it is 0.
- **C73 em does not depend on units.** The model of em as for C21 to C23. The second object is related to the first by coord_model or recode_model (KfSpec.v); EmEquiv.v shows that the smoothed moments, gains and lag-one covariances transform accordingly, that each of the eight updates (closed forms of EmForm.v) does, and iterates. Positive definiteness makes the matrix inverted in the two matrix updates invertible; there the pseudo-inverse used by the code is not equivariant otherwise.
- **C74 Estimates are linear in data, offsets and initial mean.** Modelled as for C05. with_means, mix and moving_origin (KfSuperSpec.v) are the inputs of the compared filters; the recursion is affine in them with gains that depend on covariances only (KfSuper.v). No semidefiniteness is used.
- **C75 Uncertainty is monotone in a periodic model.** Modelled as for C05. periodic and the order lep are specification; the filter restarted at time p (as in C54) is compared with the original by monotonicity in the noise covariances (as in C57), KfSteady.v.
- **C76 The order of readings of a constant state does not matter.** From C72: both results are the unique minimiser of the same sum, taken in another order (KfSteady.v).
- **C77 Covariances measure how sharply the criterion determines each state.** As C71; curvature (KfCurvSpec.v) is the specification. Completing squares backwards from the last state (KfCurv.v).
- **C78 Smoothing does not depend on the direction of time.** The backward description is reversed (KfCurvSpec.v), built from the marginals of the states only. Its criterion is that of the forward description with the trajectory reversed (telescoping completion of squares, KfReverse.v); means by uniqueness of the minimiser (C71), covariances by equality of curvatures (C77).
- **C79 Innovations are white.** Probability as for C01; innovation and one_step_cov (KfInnovSpec.v) are computed from the returned values. The innovation is orthogonal to affine functions of earlier visible observations (KfInnov.v).
- **C80 Turning or uniformly rescaling the observation axes changes nothing.** similarity (RotSpec.v): N'N is a non-zero multiple of the identity. For such N the pseudo-inverse satisfies N' (N S N')^+ N = S^+ for every matrix S, so gains absorb N; induction along filter and smooth for three classes (UscRecode.v).
- **C81 Only the information in a reading counts.** reading (SuffSpec.v) is the pair of precision and weighted value. Matrix inversion lemma and Sylvester's determinant identity put the correction step and the likelihood term in information form (KfSuff.v); averages and fused sensors are instances (KfSuffApi.v).
- **C82 Noise-free equations hold exactly in the estimates.** Corrections by later data stay in the range of the predicted covariance, on which the pseudo-inverse of that covariance is an inverse (KfExact.v); the invertibility condition is stated with one_step_cov (KfInnovSpec.v) of the returned filtered covariances.
- **C83 Filtering a state that remembers gives smoothed estimates.** memo_model (MemoSpec.v) is the extended model. Invariant: the covariance between the copy and the current state is the product of smoother gains times the covariance of the current state, and smoothed estimates grow by that product times the correction (KfMemo.v).
- **C84 State components nothing depends on can be left out.** reduces (RedSpec.v) relates the two models. Filter and innovations map through W by induction; for the smoother, later data move both estimates by P W' c and P W' B W P with the same c and B (KfRed.v). The filter and log-likelihood need no semidefiniteness.

## Print Assumptions

Every theorem below: Closed under the global context.

* `Properties_KF.v`: `C01_filter_optimal`, `C02_smooth_optimal`, `C01_models_realised`, `C03_pair_covariance`, `C04_loglikelihood_is_joint_density`, `C04_joint_covariance_pd`, `C05_filter_causal`, `C05_future_irrelevant`, `C06_mask_hides_data`, `C06_mask_hides_data_1d`, `C07_missing_is_prediction`, `C07_missing_loglikelihood`, `C08_filter_mask_only`, `C08_smooth_mask_only`, `C09_covariances_valid_and_shrink`, `C14_filter_shapes`, `C14_smooth_shapes`, `C14_smooth_empty`, `C26_state_coordinates`, `C26_state_coordinates_loglikelihood`, `C27_observation_recoding_partial`, `C47_stacked_covariance_refuted`, `C47_constant_covariance_partial`, `C48_density`, `C48_jitter`, `C48_failure`
* `Properties_Struct.v`: `C10_online_equals_batch`, `C11_update_refuses`, `C11_explicit_arguments_win`, `C11_all_explicit`, `C12_stacked_filter`, `C12_stacked_smooth`, `C13_stack_lengths`, `C15_constructor_succeeds_iff`, `C15_constructor_error`, `C15_constructor_keeps_arguments`, `C16_defaults_and_promotion`, `C16_first_value_wins`, `C16_unknown_name`, `C16_missing_name`, `C17_no_entry_lost`, `C17_idempotent`, `C17_arrays_unchanged`, `C17_series_is_column`, `C18_single_row_refuted`, `C18_single_row_always_fails`, `C18_one_dimension_partial`, `C43_wrong_width_rejected_partial`
* `Properties_EM.v`: `C19_only_selected`, `C19_all`, `C19_default`, `C19_constructor`, `C19_single_string_selects_nothing`, `C20_iterations_compose`, `C20_failure_is_final`, `C20_zero_iterations`, `C21_mstep_maximises`, `C22_likelihood_never_decreases_partial`, `C23_covariances_stay_valid`, `C24_last_completed_iteration`, `C24_settings_unchanged`, `C24_bad_seed_unchanged`
* `Properties_Sample.v`: `C25_queries_keep_the_object`, `C25_replies_do_not_depend_on_history`, `C25_only_em_matters`, `C34_sample_follows_the_model`, `C35_time_varying_covariances_refuted`, `C35_first_slice_always`, `C36_seeded_calls_repeat`, `C36_frame`, `C36_explicit_argument_wins`, `C36_invalid_rejected`
* `Properties_Unscented.v`: `C37_sigma_points_exact`, `C37_not_positive_definite`, `C38_exact_on_affine`, `C39_additive_equals_kalman`, `C40_augmented_equals_kalman`, `C41_additive_online_equals_batch`, `C41_augmented_online_equals_batch`, `C41_additive_one_more`, `C41_augmented_one_more`, `C42_one_dimensional_arrays_refuted`, `C42_only_first_transition_function`, `C42_only_first_observation_function`, `C42_two_dimensional_arrays_partial`, `C42_two_dimensional_arrays_augmented_partial`, `C49_transform_psd_up_to_three_partial`, `C49_additive_never_fails_up_to_three_partial`, `C49_negative_variance_refuted`, `C49_additive_fails_refuted`, `C49_augmented_fails_refuted`, `C05_additive_unscented_causal`, `C05_unscented_causal`, `C43_unscented_wrong_width_rejected_partial`, `C43_augmented_wrong_width_rejected_partial`, `C43_one_column_broadcast`, `C43_one_column_broadcast_augmented`, `C43_one_column_refuted`
* `Properties_Sqrt.v`: `C28_cholesky_equals_kalman_partial`, `C28_em_equals_kalman`, `C28_em_estimates_states`, `C28_not_positive_definite`, `C28_varying_covariance_rejected`, `C05_cholesky_causal`, `C05_cholesky_future_irrelevant`, `C06_cholesky_mask_hides`, `C32_cholesky_shape_refuted`, `C32_cholesky_chain_refuted`, `C33_cholesky_refuted`, `C33_kalman_partial`, `C43_cholesky_wrong_width_rejected_partial`, `C43_cholesky_one_dimension_refuted`
* `Properties_Bierman.v`: `C29_bierman_equals_kalman_partial`, `C29_em_equals_kalman`, `C29_em_estimates_states`, `C29_no_observations_refuted`, `C29_singular_noise_rejected`, `C30_udu_factors`, `C30_empty_rejected`, `C30_asymmetric_rejected`, `C30_indefinite_silent`, `C31_scalar_update`, `C05_bierman_causal_partial`, `C05_bierman_future_irrelevant`, `C06_bierman_mask_hides`, `C32_bierman_shape_refuted`, `C32_bierman_chain_refuted`, `C32_bierman_scalar_state_chains_partial`, `C33_bierman_refuted`, `C43_bierman_wrong_width_rejected_partial`
* `Properties_SqrtUnscented.v`: `C45_cholupdate`, `C45_cholupdate_vector`, `C44_equals_plain_partial`, `C44_vector_observations_refuted`, `C44_correlated_noise_refuted`, `C44_negative_weight_refuted`, `C46_missing_last_refuted`, `C46_few_observations_refuted`, `C46_finite_is_right_partial`, `C46_scalar_state_partial`, `C05_sqrt_unscented_causal`, `C05_sqrt_unscented_future_irrelevant`, `C06_unscented_mask_hides`, `C06_unscented_update_mask_hides`, `C32_sqrt_unscented_shape_refuted`, `C32_sqrt_unscented_chain_refuted`, `C43_sqrt_unscented_wrong_width_rejected_partial`, `C43_sqrt_unscented_one_column_broadcast`
* `Properties_Datasets.v`: `C50_loader`, `C50_filter_starts_at_prior`
* `Properties_UscSample.v`: `C34_additive_unscented_sample`, `C34_unscented_sample`, `C34_trajectory_unique`, `C36_unscented_seeded_calls_repeat`, `C36_unscented_frame`, `C36_unscented_invalid_rejected`, `C51_values_used`, `C51_native_order_partial`, `C51_byte_order_refuted`, `C52_classes_draw_the_same`
* `Properties_Limits.v`: `C22_time_varying_refuted`, `C27_singular_noise_refuted`, `C28_varying_covariance_refuted`, `C29_varying_covariance_rejected`, `C29_varying_covariance_refuted`, `C36_augmented_invalid_rejected`, `C43_augmented_one_column_refuted`, `C43_sqrt_unscented_one_column_refuted`
* `Properties_More.v`: `C53_forecast_filter`, `C53_forecast_smooth`, `C53_forecast_loglikelihood`, `C54_restart_filter`, `C54_restart_smooth`, `C54_restart_loglikelihood`, `C55_scaled_covariances`, `C56_known_state`, `C57_more_noise_less_certainty`, `C57_conservative_filter`, `C57_conservative_smooth`, `C58_subsystems`, `C58_subsystems_loglikelihood`, `C59_recoding_shifts_loglikelihood`, `C60_sample_prefix`, `C60_unscented_sample_prefix`
* `Properties_BiInt.v`: `C61_integer_covariance_refuted`, `C61_matrix_used`, `C61_behaves_as_other_matrix`, `C61_integer_observation_matrices_refuted`, `C61_diagonal_covariance_partial`, `C61_single_observation_matrix_partial`
* `Properties_EmIdle.v`: `C62_uninformed_parameter_changed_refuted`, `C62_all_masked_sets_zero`, `C62_single_row_sets_zero`, `C62_state_parameters_kept_partial`
* `Properties_Merge.v`: `C63_filter_without_the_gap`, `C63_smooth_without_the_gap`, `C63_loglikelihood_without_the_gap`, `C64_sensors_one_at_a_time`, `C64_first_update_succeeds`, `C64_order_of_sensors`
* `Properties_Tight.v`: `C07_unscented_missing`, `C07_augmented_missing`, `C15_unscented_constructor_succeeds_iff`, `C15_unscented_constructor_error`, `C15_unscented_constructor_keeps_arguments`, `C16_unscented_defaults`, `C16_unscented_defaults_update`, `C16_unscented_defaults_sample`, `C20_in_call_sequences`, `C42_two_dimensional_arrays_smooth_partial`, `C42_two_dimensional_arrays_smooth_augmented_partial`
* `Properties_InPlace.v`: `C65_filter_partial`, `C65_filter_update_partial`, `C65_smooth_partial`, `C65_sample_partial`, `C65_filter_refuted`, `C65_smooth_refuted`, `C65_sample_refuted`
* `Properties_Heap.v`: `C66_constructor`, `C66_filter`, `C66_smooth`, `C66_loglikelihood`, `C66_em`, `C66_filter_update`, `C66_sample`, `C66_many_objects`, `C67_snapshot_refuted`, `C67_unrelated_writes_partial`, `C67_after_em_partial`
* `Properties_Units.v`: `C68_additive_units`, `C68_additive_smooth_units`, `C68_augmented_units`, `C69_component_order_refuted`, `C69_linear_partial`
* `Properties_Tight2.v`: `C70_needs_functions`, `C70_arguments_win`, `C24_resumes`, `C36_call_sequences`
* `Properties_Ls.v`: `C71_smooth_least_squares`, `C71_filter_least_squares`, `C72_constant_state_is_regression`
* `Properties_EmUnits.v`: `C73_state_units`, `C73_observation_units`
* `Properties_Super.v`: `C74_superposition`, `C74_moving_origin`, `C75_monotone`, `C75_known_start`, `C76_order_of_readings`
* `Properties_Curv.v`: `C77_smooth_curvature`, `C77_filter_curvature`, `C78_backwards`
* `Properties_Innov.v`: `C79_innovations_white`
* `Properties_Rot.v`: `C80_kalman`, `C80_additive`, `C80_augmented`, `C80_additive_invertible`
* `Properties_Suff.v`: `C81_readings_suffice`, `C81_loglikelihood`, `C81_average`, `C81_two_sensors`
* `Properties_Exact.v`: `C82_noise_free_components`
* `Properties_Memo.v`: `C83_filter_of_remembering_state`
* `Properties_Red.v`: `C84_filter_reduced`, `C84_smooth_reduced`, `C84_loglikelihood_reduced`

Theorems with axioms of the standard library:

* `Properties_Real.v`: `C04_density_over_the_reals`: `ClassicalDedekindReals.sig_not_dec`, `ClassicalDedekindReals.sig_forall_dec`, `FunctionalExtensionality.functional_extensionality_dep`, `ClassicalEpsilon.constructive_indefinite_description`, `Classical_Prop.classic`
* `Properties_Real.v`: `C22_logarithm_exists`: `ClassicalDedekindReals.sig_not_dec`, `ClassicalDedekindReals.sig_forall_dec`, `FunctionalExtensionality.functional_extensionality_dep`, `ClassicalEpsilon.constructive_indefinite_description`, `Classical_Prop.classic`
