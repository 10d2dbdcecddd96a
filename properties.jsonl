{"id": "C01", "title": "KalmanFilter.filter is the optimal estimate given the past", "statement": "For a well-formed linear model (any constant or time-varying A,b,Q,C,d,R, any symmetric positive semidefinite, possibly singular, covariances) KalmanFilter.filter(X) returns one mean and one covariance per time step, and at every time t the returned mean is the best affine estimate of the hidden state x_t from the non-missing observations up to and including t: the estimation error has zero mean, is uncorrelated with every one of those observations, its covariance is exactly the returned covariance, and no affine estimator based on the same observations has a smaller error covariance (Loewner order).  For Gaussian noise this is the posterior mean and covariance of x_t.", "quantifier": "all dimensions n, m >= 1, all horizons T, all parameter values, all missing-data patterns, all square-integrable random vectors obeying the model; a single row of two or more components is excluded: the code transposes it, see C18", "why_tests_cant": "optimality is a statement about every competing estimator and every joint distribution; a test compares floating-point output with one recorded trace", "anchors": ["pykalman/standard.py: KalmanFilter.filter, _filter, _filter_predict, _filter_correct, _last_dims"]}
{"id": "C02", "title": "KalmanFilter.smooth is the optimal estimate given all observations", "statement": "At every time t KalmanFilter.smooth(X) returns the best affine estimate of x_t from all non-missing observations 0..T-1: the error is unbiased, uncorrelated with every non-missing observation (past and future), its covariance is exactly the returned covariance, and no affine estimator based on all the observations does better.", "quantifier": "all n, m, T >= 1, all parameter values with symmetric PSD (possibly singular) covariances, all missing patterns, all joint distributions obeying the model; a single row of two or more components is excluded: the code transposes it, see C18", "why_tests_cant": "same as C01, and depends on the whole future of the trace", "anchors": ["pykalman/standard.py: KalmanFilter.smooth, _smooth, _smooth_update"]}
{"id": "C03", "title": "The lag-one covariances fed to EM are the true posterior cross-covariances", "statement": "The pairwise covariance that em() uses for times (t, t-1) is the covariance between the smoothing errors at t and t-1 of the state given all observations.", "quantifier": "all n, m, T, t, parameters, missing patterns", "why_tests_cant": "cross-covariances are never returned by the API and no test inspects them", "anchors": ["pykalman/standard.py: _smooth_pair, KalmanFilter.em"]}
{"id": "C04", "title": "loglikelihood is the log density of the observed data", "statement": "KalmanFilter.loglikelihood(X) equals the logarithm of the multivariate normal density, with the mean vector and covariance matrix that the model induces on the stacked vector of all non-missing observations, evaluated at those observations (0 if everything is missing).", "quantifier": "all n, m, T, all parameters with PSD state covariances and positive definite observation covariance, all missing patterns, all data; a single row of two or more components is excluded: the code transposes it, see C18; loglikelihood: observation covariance constant in time, see C47", "why_tests_cant": "the chain rule must hold for every horizon and missing pattern; tests check five recorded values", "anchors": ["pykalman/standard.py: KalmanFilter.loglikelihood, _loglikelihoods", "pykalman/utils/_sklearn.py: log_multivariate_normal_density"]}
{"id": "C05", "title": "Filtering is causal", "statement": "The first k filtered means and covariances of filter(X) are exactly filter(X[:k]); in particular changing observations (or their masks) at times >= k cannot change any output before k.  The same holds for the unscented and square-root filters.", "quantifier": "all models, all X, all k <= T; a single row of two or more components is excluded: the code transposes it, see C18", "why_tests_cant": "quantifies over every prefix and every alteration of the future", "anchors": ["pykalman/standard.py: _filter", "pykalman/sqrt/bierman.py: _filter", "pykalman/sqrt/cholesky.py: _filter", "pykalman/unscented.py: additive_unscented_filter, augmented_unscented_filter", "pykalman/sqrt/unscented.py: _additive_unscented_filter"]}
{"id": "C06", "title": "Data hidden by a mask never influences any result", "statement": "If two observation arrays have the same mask and agree on every row without a masked component, then filter, smooth, loglikelihood and em give identical results (including identical exceptions) on both.  One masked component hides the whole row.", "quantifier": "all models, all T, all masks, all values under the mask, all filter classes; a single row of two or more components is excluded: the code transposes it, see C18", "why_tests_cant": "non-interference relates pairs of runs for all hidden values", "anchors": ["pykalman/standard.py: _filter_correct, _loglikelihoods, _em_observation_matrix, _em_observation_covariance, _em_observation_offset"]}
{"id": "C07", "title": "A missing observation is a pure prediction step", "statement": "At a time step with a masked row the filtered mean and covariance equal the predicted ones, the contribution to loglikelihood is zero; filtering a series with rows masked out gives the state estimate obtained by running only the prediction equations over the gap.", "quantifier": "all models, all t, all masks; a single row of two or more components is excluded: the code transposes it, see C18", "why_tests_cant": "all gap lengths and positions", "anchors": ["pykalman/standard.py: _filter_correct, _loglikelihoods"]}
{"id": "C08", "title": "Covariances depend on the mask pattern only", "statement": "The covariances returned by KalmanFilter.filter and KalmanFilter.smooth are the same for any two observation arrays with the same set of missing time steps; the means are affine functions of the observed values.", "quantifier": "all models, all pairs of data sets with equal missing pattern; a single row of two or more components is excluded: the code transposes it, see C18", "why_tests_cant": "relational property over all pairs of inputs", "anchors": ["pykalman/standard.py: _filter, _smooth"]}
{"id": "C09", "title": "Returned covariances are symmetric positive semidefinite and shrink with information", "statement": "Every covariance returned by filter and smooth is symmetric PSD; the filtered covariance at t is <= the predicted one, the smoothed covariance at t is <= the filtered one (Loewner order), and hiding more observations never makes any filtered covariance smaller.", "quantifier": "all models with PSD covariances, all T, t, all masks; a single row of two or more components is excluded: the code transposes it, see C18", "why_tests_cant": "an inductive invariant over unbounded recursion; tests sample a trace", "anchors": ["pykalman/standard.py: _filter, _smooth"]}
{"id": "C10", "title": "Online updates reproduce batch filtering", "statement": "Starting from the batch result at time s and feeding the remaining observations one at a time through filter_update, passing the parameters of each step (or relying on the constructor's constant ones), yields exactly the means and covariances of the batch filter.  filter_update with observation=None is the masked update.", "quantifier": "all models, all T, all split points, all masks, for KalmanFilter; a single row of two or more components is excluded: the code transposes it, see C18", "why_tests_cant": "equivalence of two code paths for every history length", "anchors": ["pykalman/standard.py: KalmanFilter.filter_update, _arg_or_default, _filter"]}
{"id": "C11", "title": "filter_update refuses time-varying parameters that are not supplied", "statement": "If any of the six transition/observation parameters of the object is time-varying and the corresponding argument of filter_update is omitted, filter_update raises ValueError; an explicit argument of the right dimensionality always takes precedence over the constructor's value.", "quantifier": "all parameter combinations, all subsets of supplied arguments", "why_tests_cant": "combinatorial in the 2^6 argument subsets and all shapes", "anchors": ["pykalman/standard.py: _arg_or_default, KalmanFilter.filter_update"]}
{"id": "C12", "title": "A constant parameter means the same as its time-varying repetition", "statement": "Replacing any constant transition_matrices/offsets/covariance or observation_matrices/offsets/covariance by a stack repeating it at every time step does not change filter or smooth; at step t exactly the slice with index t-1 (transition) or t (observation) is used.", "quantifier": "all models, all T, any subset of the parameters stacked; a single row of two or more components is excluded: the code transposes it, see C18", "why_tests_cant": "every parameter subset and horizon", "anchors": ["pykalman/standard.py: _last_dims, _filter, _smooth"]}
{"id": "C13", "title": "Too short parameter stacks are rejected, never wrapped or repeated", "statement": "filter(X) with T observations raises IndexError when a time-varying parameter has fewer slices than the steps that need it (T-1 for transition, T for observation parameters) and succeeds when all are long enough; extra slices are ignored.", "quantifier": "all T and all stack lengths; a single row of two or more components is excluded: the code transposes it, see C18", "why_tests_cant": "boundary (off by one) at every horizon", "anchors": ["pykalman/standard.py: _last_dims, _filter"]}
{"id": "C14", "title": "Output shapes", "statement": "filter and smooth return exactly T means of length n_dim_state and T n_dim_state x n_dim_state covariances for T x n_dim_obs observations (T >= 1 for smooth).", "quantifier": "all n, m, T for well-formed models; a single row of two or more components is excluded: the code transposes it, see C18", "why_tests_cant": "all sizes", "anchors": ["pykalman/standard.py: KalmanFilter.filter, KalmanFilter.smooth"]}
{"id": "C15", "title": "Constructor dimension inference is sound and complete", "statement": "The constructor succeeds exactly when all supplied parameters (after promotion of scalars and 1-d arrays) and n_dim_state/n_dim_obs agree on the state dimension and on the observation dimension; the inferred dimension is the common value, or 1 when nothing is supplied; otherwise ValueError.", "quantifier": "all combinations of supplied and omitted parameters and all their shapes", "why_tests_cant": "combinatorial in shapes and omissions", "anchors": ["pykalman/standard.py: KalmanFilter.__init__, _determine_dimensionality", "pykalman/utils/_sklearn.py: array1d, array2d"]}
{"id": "C16", "title": "Omitted parameters get the documented defaults and supplied ones are kept", "statement": "Each omitted parameter behaves as the zero vector / identity matrix (rectangular identity for observation_matrices) of the inferred size; each supplied one is used with the promoted shape; user values always win over defaults, independently of order, and unknown or missing names raise ValueError.", "quantifier": "all subsets of supplied parameters", "why_tests_cant": "2^8 subsets times all values", "anchors": ["pykalman/standard.py: KalmanFilter._initialize_parameters", "pykalman/utils/_sklearn.py: preprocess_arguments, get_params"]}
{"id": "C17", "title": "Observation parsing", "statement": "A 1-d series of length T is treated as T scalar observations, a T x m array with T >= 2 is left alone, the conversion is idempotent, keeps masks attached to their values, and never loses or duplicates entries.", "quantifier": "all lengths, shapes, values and masks", "why_tests_cant": "all shapes", "anchors": ["pykalman/standard.py: KalmanFilter._parse_observations", "pykalman/unscented.py: UnscentedMixin._parse_observations"]}
{"id": "C18", "title": "A single multi-dimensional observation is one time step", "statement": "filter(X) on a 1 x m array (m >= 2), e.g. the output of sample(1), processes one time step.", "quantifier": "all m >= 2", "why_tests_cant": "boundary T = 1 that the test-suite does not exercise for m >= 2", "anchors": ["pykalman/standard.py: KalmanFilter._parse_observations"]}
{"id": "C19", "title": "em changes only the variables it is asked to estimate", "statement": "After em(X, n_iter, em_vars) every parameter whose name is not in em_vars has exactly its initial (default-filled, promoted) value, for every n_iter; em_vars='all' estimates all eight, em_vars=None uses the constructor's choice or the documented default four.", "quantifier": "all em_vars subsets, all n_iter, all data", "why_tests_cant": "all 2^8 subsets and unbounded iteration counts", "anchors": ["pykalman/standard.py: KalmanFilter.em, _em"]}
{"id": "C20", "title": "em iterations compose", "statement": "em(X, n_iter=a) followed by em(X, n_iter=b) leaves the object in the same state as em(X, n_iter=a+b); em with n_iter=0 only fills in defaults.", "quantifier": "all a, b, X, em_vars", "why_tests_cant": "unbounded iteration counts", "anchors": ["pykalman/standard.py: KalmanFilter.em"]}
{"id": "C21", "title": "Each M-step formula maximises the expected complete-data log likelihood", "statement": "Given the E-step moments, every parameter computed by em maximises the expected complete-data log likelihood over all values of that parameter (covariances: over all positive definite matrices) with the remaining parameters held at the values em uses for them.", "quantifier": "all moments with the stated rank conditions, all competing parameter values, all T, masks; a single row of two or more components is excluded: the code transposes it, see C18", "why_tests_cant": "global optimality over an uncountable set", "anchors": ["pykalman/standard.py: _em_observation_matrix, _em_observation_covariance, _em_transition_matrix, _em_transition_covariance, _em_initial_state_mean, _em_initial_state_covariance, _em_transition_offset, _em_observation_offset"]}
{"id": "C22", "title": "em never decreases the likelihood", "statement": "One em iteration never decreases loglikelihood(X), for any em_vars, and hence neither does any number of iterations.", "quantifier": "all models with positive definite covariances before and after, all X, masks, em_vars, n_iter; a single row of two or more components is excluded: the code transposes it, see C18", "why_tests_cant": "a monotonicity theorem over all data; tests check one data set", "anchors": ["pykalman/standard.py: KalmanFilter.em, KalmanFilter.loglikelihood"]}
{"id": "C23", "title": "em keeps covariances valid", "statement": "After em, transition_covariance, observation_covariance and initial_state_covariance are symmetric positive semidefinite whenever they were before.", "quantifier": "all data, masks, em_vars, n_iter; a single row of two or more components is excluded: the code transposes it, see C18", "why_tests_cant": "invariant over unbounded iterations", "anchors": ["pykalman/standard.py: _em_transition_covariance, _em_observation_covariance, _em_initial_state_covariance"]}
{"id": "C24", "title": "A failing em leaves the parameters of the last completed iteration", "statement": "If an exception is raised inside em, the object's parameters are exactly those produced by the iterations completed before it (all eight are replaced together, never a mixture), and n_dim/em_vars settings are unchanged.", "quantifier": "every crash point (every iteration), every failure cause", "why_tests_cant": "quantifies over every crash point", "anchors": ["pykalman/standard.py: KalmanFilter.em"]}
{"id": "C25", "title": "Query methods are pure and history independent", "statement": "filter, smooth, loglikelihood and filter_update never change the object: after any sequence of such calls (including failing ones) every call returns what it would have returned on the fresh object; only em and attribute assignment change results.", "quantifier": "all finite call sequences", "why_tests_cant": "all histories", "anchors": ["pykalman/standard.py: KalmanFilter.filter, smooth, loglikelihood, filter_update, em"]}
{"id": "C26", "title": "Filtering is equivariant under change of state coordinates", "statement": "If the state is re-expressed in coordinates x' = G x + h with G invertible (all parameters transformed accordingly), filtered and smoothed means and covariances transform as m' = G m + h, P' = G P G^T and loglikelihood is unchanged.", "quantifier": "all invertible G, all h, all models, all data and masks; a single row of two or more components is excluded: the code transposes it, see C18; loglikelihood: observation covariance constant in time, see C47", "why_tests_cant": "relates infinitely many pairs of models", "anchors": ["pykalman/standard.py: _filter, _smooth, _loglikelihoods"]}
{"id": "C27", "title": "Filtering is invariant under invertible recoding of the observations", "statement": "If every observation z_t is replaced by N z_t + g with N invertible (C, d, R transformed accordingly), filter and smooth return the same result.", "quantifier": "all invertible N, all g, all models, data, masks; a single row of two or more components is excluded: the code transposes it, see C18", "why_tests_cant": "relates infinitely many pairs of models", "anchors": ["pykalman/standard.py: _filter_correct", "pykalman/sqrt/bierman.py: decorrelate_observations"]}
{"id": "C28", "title": "CholeskyKalmanFilter computes the same estimates as KalmanFilter", "statement": "For positive definite covariances, CholeskyKalmanFilter.filter, smooth and loglikelihood return exactly (in exact arithmetic) what KalmanFilter returns, whatever QR factorisation (sign convention) the linear-algebra library picks.", "quantifier": "all n, m, T, parameters, data, masks, all valid QR routines; a single row of two or more components is excluded: the code transposes it, see C18", "why_tests_cant": "equivalence of two algorithms for all inputs", "anchors": ["pykalman/sqrt/cholesky.py: _filter, _filter_predict, _filter_correct, _reconstruct_covariances"]}
{"id": "C29", "title": "BiermanKalmanFilter computes the same estimates as KalmanFilter", "statement": "For PSD state covariances and positive definite observation covariance, BiermanKalmanFilter.filter, smooth and loglikelihood return exactly what KalmanFilter returns.", "quantifier": "all n, m, T, parameters, data, masks; a single row of two or more components is excluded: the code transposes it, see C18; n >= 1", "why_tests_cant": "equivalence of two algorithms for all inputs", "anchors": ["pykalman/sqrt/bierman.py: _filter, _filter_predict, _filter_correct, _filter_correct_single, decorrelate_observations, udu"]}
{"id": "C30", "title": "udu factorises every PSD matrix", "statement": "For every symmetric PSD matrix M (including singular ones) udu(M) gives a unit upper-triangular U and a non-negative diagonal D with U D U^T = M.", "quantifier": "all sizes n and all PSD M; n >= 1", "why_tests_cant": "index-juggling nested loops, all sizes, singular pivots", "anchors": ["pykalman/sqrt/bierman.py: udu, UDU_decomposition.reconstruct"]}
{"id": "C31", "title": "Bierman's scalar measurement update is the exact conditional covariance", "statement": "_filter_correct_single on a UDU' factorisation of P returns a unit upper-triangular/non-negative factorisation of P - P h h^T P/(h^T P h + R) and the gain P h/(h^T P h + R), for every R > 0.", "quantifier": "all n, P, h, R > 0; n >= 1", "why_tests_cant": "loop invariant over all sizes", "anchors": ["pykalman/sqrt/bierman.py: _filter_correct_single"]}
{"id": "C32", "title": "Square-root filters' filter_update has the documented shape and can be chained", "statement": "For every filter class, filter_update returns an n_dim_state x n_dim_state covariance that can be passed directly to the next filter_update call.", "quantifier": "all models and inputs, every filter class", "why_tests_cant": "tests assign the result into a pre-allocated array, which hides the extra axis by broadcasting", "anchors": ["pykalman/sqrt/bierman.py: BiermanKalmanFilter.filter_update, _reconstruct_covariances", "pykalman/sqrt/cholesky.py: CholeskyKalmanFilter.filter_update, _reconstruct_covariances", "pykalman/sqrt/unscented.py: AdditiveUnscentedKalmanFilter.filter_update, _reconstruct_covariances"]}
{"id": "C33", "title": "em with default em_vars works for every filter class", "statement": "Calling em(X) on an object built without em_vars estimates the default four parameters, for KalmanFilter, CholeskyKalmanFilter and BiermanKalmanFilter.", "quantifier": "all models and data", "why_tests_cant": "tests always pass em_vars to the square-root classes", "anchors": ["pykalman/standard.py: KalmanFilter.em", "pykalman/sqrt/bierman.py: BiermanKalmanFilter.em", "pykalman/sqrt/cholesky.py: CholeskyKalmanFilter.em"]}
{"id": "C34", "title": "sample draws from the stated model", "statement": "sample(T, initial_state) returns T states and T observations with x_0 = initial_state (or a draw from N(mu0, Sigma0)), x_{t+1} = A_t x_t + b_t + w_t, z_t = C_t x_t + d_t + v_t where w_t is the generator's draw for covariance Q_t and v_t the draw for covariance R_t; each draw is used exactly once, in order.", "quantifier": "all models with constant covariances (time-varying ones: see C35), all T, all generators", "why_tests_cant": "all horizons and all random streams", "anchors": ["pykalman/standard.py: KalmanFilter.sample"]}
{"id": "C35", "title": "sample honours time-varying covariances", "statement": "sample uses transition_covariance[t-1] and observation_covariance[t] at step t when these are stacks, as filter does.", "quantifier": "all T and stacks", "why_tests_cant": "needs horizons >= 3 with varying covariances; never tested", "anchors": ["pykalman/standard.py: KalmanFilter.sample"]}
{"id": "C36", "title": "Seeding is reproducible", "statement": "With an integer random_state (argument or constructor) every call of sample returns the same result regardless of earlier calls; an explicit argument wins over the constructor's; a RandomState instance is advanced, and only it; with neither, only the global generator is advanced; anything else is rejected (an object that is no seed with AttributeError, a seed out of range with ValueError) and no generator changes.", "quantifier": "all seeds, all call sequences, all generators", "why_tests_cant": "all call histories", "anchors": ["pykalman/standard.py: KalmanFilter.sample", "pykalman/utils/_sklearn.py: check_random_state"]}
{"id": "C37", "title": "Sigma points carry exactly the given mean and covariance", "statement": "For every mean, every positive definite covariance and every alpha, beta, kappa with alpha^2 (n+kappa) > 0, moments2points yields 2n+1 points whose mean weights sum to one and points2moments of them returns the same mean and covariance; if the covariance is not positive definite LinAlgError is raised.", "quantifier": "all n, means, covariances, alpha, beta, kappa", "why_tests_cant": "all sizes and parameters", "anchors": ["pykalman/unscented.py: moments2points, points2moments"]}
{"id": "C38", "title": "The unscented transform is exact on affine functions", "statement": "For f(x) = F x + c, unscented_transform of the sigma points of (mu, Sigma) has mean F mu + c and covariance F Sigma F^T (+ the additive noise covariance).", "quantifier": "all n, p, F, c, mu, PD Sigma", "why_tests_cant": "all sizes", "anchors": ["pykalman/unscented.py: unscented_transform, points2moments, moments2points"]}
{"id": "C39", "title": "AdditiveUnscentedKalmanFilter equals KalmanFilter on linear models", "statement": "With affine transition and observation functions AdditiveUnscentedKalmanFilter.filter and smooth return exactly what KalmanFilter returns for the corresponding matrices and offsets.", "quantifier": "all n, m, T, affine models with PD covariances, data, masks; a single row of two or more components is excluded: the code transposes it, see C18", "why_tests_cant": "equivalence of two algorithms", "anchors": ["pykalman/unscented.py: additive_unscented_filter, additive_unscented_smoother, unscented_filter_correct, unscented_correct"]}
{"id": "C40", "title": "UnscentedKalmanFilter equals KalmanFilter on linear models with additive noise", "statement": "With f(x,w) = A x + b + w and g(x,v) = C x + d + v the augmented UnscentedKalmanFilter.filter and smooth return exactly what KalmanFilter returns.", "quantifier": "all n, m, T, affine models with PD covariances, data, masks; a single row of two or more components is excluded: the code transposes it, see C18", "why_tests_cant": "equivalence of two algorithms through the augmented 2n+m dimensional representation", "anchors": ["pykalman/unscented.py: augmented_unscented_filter, augmented_unscented_smoother, augmented_points"]}
{"id": "C41", "title": "Unscented filters: online equals batch", "statement": "For both unscented filters, iterating filter_update reproduces filter for arbitrary (non-linear) transition and observation functions, any missing pattern.", "quantifier": "all functions, models, T, masks; a single row of two or more components is excluded: the code transposes it, see C18", "why_tests_cant": "equivalence of code paths for every history", "anchors": ["pykalman/unscented.py: AdditiveUnscentedKalmanFilter.filter_update, UnscentedKalmanFilter.filter_update"]}
{"id": "C42", "title": "Time-varying transition/observation functions are honoured", "statement": "When transition_functions (observation_functions) is an array of functions, function t-1 (t) is used for the step to time t, as documented.", "quantifier": "all T >= 2 and all arrays of functions", "why_tests_cant": "no test uses more than one function", "anchors": ["pykalman/unscented.py: additive_unscented_filter, augmented_unscented_filter, additive_unscented_smoother, augmented_unscented_smoother, sample", "pykalman/standard.py: _last_dims"]}
{"id": "C43", "title": "Observations of the wrong dimension are rejected", "statement": "filter(X) raises when the number of columns of X differs from the model's observation dimension (and some row is not masked).", "quantifier": "all n, m, column counts k <> m, all filter classes; a single row of two or more components is excluded: the code transposes it, see C18", "why_tests_cant": "broadcasting makes this depend on sizes in ways tests do not sample", "anchors": ["pykalman/standard.py: _filter_correct, _filter", "pykalman/unscented.py: unscented_correct"]}
{"id": "C44", "title": "The square-root unscented filter equals the plain one", "statement": "pykalman.sqrt.AdditiveUnscentedKalmanFilter.filter returns the same means and covariances as pykalman.AdditiveUnscentedKalmanFilter.filter for the same model and data.", "quantifier": "all functions, n, m, T, PD covariances, masks; a single row of two or more components is excluded: the code transposes it, see C18", "why_tests_cant": "equivalence of two algorithms; the test-suite only covers one linear model with a scalar observation", "anchors": ["pykalman/sqrt/unscented.py: points2moments, _unscented_correct, cholupdate, _additive_unscented_filter"]}
{"id": "C45", "title": "cholupdate is the rank-k update of a Cholesky factor", "statement": "If A2 is upper triangular with positive diagonal and A2^T A2 + weight * sum x x^T is positive definite, cholupdate(A2, X, weight) is its upper-triangular Cholesky factor.", "quantifier": "all n, number of vectors, weights of either sign", "why_tests_cant": "loop invariant over all sizes", "anchors": ["pykalman/sqrt/unscented.py: cholupdate"]}
{"id": "C46", "title": "The square-root smoother returns the plain smoother's finite result", "statement": "sqrt AdditiveUnscentedKalmanFilter.smooth returns finite numbers equal to the plain smoother's, in particular when the last observation is missing and when fewer components are observed than the state has.", "quantifier": "all n, m, T, models, patterns of missing observations, QR routines; a single row of two or more components is excluded: the code transposes it, see C18", "why_tests_cant": "boundary case never tested", "anchors": ["pykalman/sqrt/unscented.py: _additive_unscented_smoother, cholupdate"]}
{"id": "C47", "title": "loglikelihood supports every parameterisation filter supports", "statement": "Whenever filter(X) succeeds, loglikelihood(X) succeeds (for positive definite innovation covariances), also for time-varying observation covariances.", "quantifier": "all parameterisations; a single row of two or more components is excluded: the code transposes it, see C18", "why_tests_cant": "time-varying observation covariance is never tested", "anchors": ["pykalman/standard.py: _loglikelihoods"]}
{"id": "C48", "title": "log_multivariate_normal_density is the Gaussian log density, with jitter only as a fallback", "statement": "For every mean, point and positive definite covariance the result is -1/2((x-mu)^T S^-1 (x-mu) + n log 2 pi + log det S); when the Cholesky factorisation fails the same formula with S + 1e-7 I is used; if that fails too LinAlgError is raised.", "quantifier": "all n, x, mu, symmetric S", "why_tests_cant": "all inputs", "anchors": ["pykalman/utils/_sklearn.py: log_multivariate_normal_density"]}
{"id": "C49", "title": "Unscented covariances stay positive semidefinite", "statement": "The covariance computed by the unscented transform is symmetric PSD for every function and every state dimension, so that the next filtering step can factorise it.", "quantifier": "all n, all functions; a single row of two or more components is excluded: the code transposes it, see C18", "why_tests_cant": "depends on the sign of the centre weight, which changes at n = 4", "anchors": ["pykalman/unscented.py: points2moments, moments2points"]}
{"id": "C50", "title": "The robot data set loader pads and masks exactly the first observation", "statement": "load_robot's observations have one more row than the stored measurements; row 0 is fully masked, every other row is unmasked and equal to the stored row shifted by one.", "quantifier": "all stored arrays", "why_tests_cant": "all sizes/values", "anchors": ["pykalman/datasets/base.py: load_robot.pad_and_mask"]}
{"id": "C51", "title": "sample does not depend on the byte order of covariance arrays", "statement": "KalmanFilter.sample gives the same draws for two covariance arrays that hold the same numbers and differ only in the byte order of their dtype (for instance '>f8' as read from a big-endian file, and '<f8').", "quantifier": "all n, m, T, all covariance values, both byte orders, all generators", "why_tests_cant": "needs arrays of foreign byte order, which no test builds; the effect is a silently wrong noise level", "anchors": ["pykalman/utils/_numpy.py: newbyteorder", "pykalman/standard.py: KalmanFilter.sample"]}
{"id": "C52", "title": "The classes draw the same trajectories on linear models", "statement": "For a linear model with constant noise covariances, KalmanFilter.sample, AdditiveUnscentedKalmanFilter.sample and UnscentedKalmanFilter.sample return the same states and observations and leave the generators in the same state, when started from the same generator state (seed, instance or global).", "quantifier": "all n, m, T, all linear models, all generators, all ways of giving the random state, with and without an initial state", "why_tests_cant": "relates three implementations on all inputs and all generators", "anchors": ["pykalman/standard.py: KalmanFilter.sample", "pykalman/unscented.py: UnscentedKalmanFilter.sample, AdditiveUnscentedKalmanFilter.sample"]}
{"id": "C53", "title": "Masked rows at the end forecast", "statement": "Let KalmanFilter hold parameters for T + h time steps, T >= 1. Appending h fully or partly masked rows to a series of T rows leaves the first T rows of filter and of smooth as they were, and row T + k of both is the k-step forecast of the last estimate: mean A x + b and covariance A P A' + Q applied k times with the parameters of the respective steps. loglikelihood does not change.", "quantifier": "all n, m, all T >= 1, all h, all parameters (singular covariances and time-varying parameters included), all data; loglikelihood: observation covariance constant in time, see C47; a single row of two or more components is excluded: the code transposes it, see C18", "why_tests_cant": "forecast horizons, series lengths and parameters are unbounded", "anchors": ["pykalman/standard.py: KalmanFilter.filter, KalmanFilter.smooth, KalmanFilter.loglikelihood, _filter, _smooth"]}
{"id": "C54", "title": "Restarting from an earlier estimate", "statement": "Cut a series after time s. A second KalmanFilter that holds the parameters of the remaining times and whose initial mean and covariance are the one-step forecast of the filtered estimate at time s returns, on the remaining rows, exactly the rows the first one returns for those times, both from filter and from smooth; and loglikelihood of the whole series is loglikelihood of the first part plus that of the second part under the second object.", "quantifier": "all n, m, T, all cut points, all parameters (singular covariances included), all data, any missing pattern; loglikelihood: observation covariance constant in time, see C47; a single row of two or more components is excluded: the code transposes it, see C18", "why_tests_cant": "all cut points of all series; a property of state carried across calls", "anchors": ["pykalman/standard.py: KalmanFilter.filter, KalmanFilter.smooth, KalmanFilter.loglikelihood, _filter"]}
{"id": "C55", "title": "Only the ratios of the covariances matter to the means", "statement": "Multiplying transition_covariance, observation_covariance and initial_state_covariance by the same non-zero number c leaves all means of filter and smooth unchanged and multiplies all their covariances by c.", "quantifier": "all n, m, T, all c <> 0, all parameters (singular covariances included), all data, any missing pattern; a single row of two or more components is excluded: the code transposes it, see C18", "why_tests_cant": "relates two runs for all scale factors; exact arithmetic", "anchors": ["pykalman/standard.py: KalmanFilter.filter, KalmanFilter.smooth, _filter_correct, _smooth_update"]}
{"id": "C56", "title": "A known state stays known", "statement": "With initial_state_covariance = 0 and transition_covariance = 0, filter and smooth return the deterministic path x_0 = initial_state_mean, x_{t+1} = A_t x_t + b_t with covariance 0 at every time, whatever the observations say, whatever the observation covariance is.", "quantifier": "all n, m, T, all A, b, C, d and all observation covariances (singular or zero included), all data; a single row of two or more components is excluded: the code transposes it, see C18", "why_tests_cant": "holds for every data set and every degenerate observation model", "anchors": ["pykalman/standard.py: KalmanFilter.filter, KalmanFilter.smooth, _filter_correct, _smooth_update"]}
{"id": "C57", "title": "Larger modelled noise is the safe side", "statement": "If a second model differs from the first only by covariances that are at least as large (Loewner order; transition, observation and initial covariance, per time step), every filtered and smoothed covariance it reports is at least as large. And if data really come from the first process (same offsets and initial mean) while the object holds the second, larger covariances, then filter and smooth are unbiased and every reported covariance is an upper bound of the true error covariance.", "quantifier": "all n, m, T, all pairs of models ordered this way (positive semidefinite covariances, singular ones included), all processes with the stated moments, any missing pattern; a single row of two or more components is excluded: the code transposes it, see C18", "why_tests_cant": "statement about all second-order processes and all orderings of noise covariances", "anchors": ["pykalman/standard.py: KalmanFilter.filter, KalmanFilter.smooth, _filter_correct, _smooth_update"]}
{"id": "C58", "title": "Independent subsystems do not interact", "statement": "For two models put side by side (all matrices block diagonal, vectors stacked, the same time steps missing) filter and smooth of the joint KalmanFilter return the two stacked means and the block-diagonal covariances of the two separate KalmanFilters, and loglikelihood is the sum of the two.", "quantifier": "all n1, n2, m1, m2, T, all pairs of models, all data; filter and smooth for all parameters, loglikelihood for positive definite observation covariances constant in time; a single row of two or more components is excluded: the code transposes it, see C18", "why_tests_cant": "all dimensions and all pairs of models", "anchors": ["pykalman/standard.py: KalmanFilter.filter, KalmanFilter.smooth, KalmanFilter.loglikelihood, _filter_correct, _smooth_update, _loglikelihoods"]}
{"id": "C59", "title": "Change of units shifts the log-likelihood", "statement": "If all observations are recoded by z -> N z + g with invertible N and the observation parameters accordingly, loglikelihood decreases by exactly (number of observed rows) * log |det N|.", "quantifier": "all n, m, T, all invertible N, all g, positive definite observation covariance constant in time, positive semidefinite other covariances, all data, any missing pattern; a single row of two or more components is excluded: the code transposes it, see C18", "why_tests_cant": "relates two runs for all invertible recodings", "anchors": ["pykalman/standard.py: KalmanFilter.loglikelihood, _loglikelihoods, _log_multivariate_normal_density"]}
{"id": "C60", "title": "A shorter sample is the beginning of a longer one", "statement": "If sample(n_timesteps=K) succeeds, then for every k <= K sample(n_timesteps=k), called in the same state of the random generators with the same other arguments, succeeds and returns the first k states and the first k observations.", "quantifier": "all objects of KalmanFilter, UnscentedKalmanFilter, AdditiveUnscentedKalmanFilter (no assumption on their parameters), all k <= K, all generators, all ways of giving the random state, with and without an initial state", "why_tests_cant": "all lengths and all generators", "anchors": ["pykalman/standard.py: KalmanFilter.sample", "pykalman/unscented.py: UnscentedKalmanFilter.sample, AdditiveUnscentedKalmanFilter.sample"]}
{"id": "C61", "title": "BiermanKalmanFilter reads integer arrays as the numbers they hold", "statement": "BiermanKalmanFilter gives the same results from filter, smooth and loglikelihood when initial_state_covariance or observation_matrices is an integer array (for instance from [[2, 1], [1, 2]]) as when it holds the same numbers as floats.", "quantifier": "all n, m, T, all integer entries below the range of the dtype, any way of truncating larger numbers, all other parameters, all data", "why_tests_cant": "the error is silent and depends on the values: diagonal covariances and single observation matrices are unaffected, which is what examples use", "anchors": ["pykalman/sqrt/bierman.py: udu, decorrelate_observations, BiermanKalmanFilter.filter, BiermanKalmanFilter.smooth, BiermanKalmanFilter.loglikelihood", "pykalman/utils/_sklearn.py: array2d"]}
{"id": "C62", "title": "em leaves alone what the data say nothing about", "statement": "If every row is masked, em does not change observation_matrices, observation_offsets and observation_covariance; if the series has one row, em does not change transition_matrices, transition_offsets and transition_covariance.", "quantifier": "all n, m, T >= 1, all models, all em_vars, all n_iter", "why_tests_cant": "degenerate data sets of every size; tests of em use informative data", "anchors": ["pykalman/standard.py: KalmanFilter.em, _em, _em_observation_matrix, _em_observation_offset, _em_observation_covariance, _em_transition_matrix, _em_transition_offset, _em_transition_covariance"]}
{"id": "C63", "title": "A masked row may be dropped by merging its two transitions", "statement": "Let row k + 1 of a series (neither the first nor the last) be masked. A second KalmanFilter for the series without that row, whose transition from k is the composition of the two (A' = A2 A1, b' = A2 b1 + b2, Q' = A2 Q1 A2' + Q2), returns from filter and smooth the rows of the first one without row k + 1, and the same loglikelihood. So irregularly sampled data can be given either way.", "quantifier": "all n, m, T, all k, all parameters (time-varying and, for filter, arbitrary covariances; positive semidefinite ones for smooth), all data, any other missing pattern; loglikelihood: observation covariance constant in time, see C47; a single row of two or more components is excluded: the code transposes it, see C18", "why_tests_cant": "relates two parameterisations for all series and all positions of the gap", "anchors": ["pykalman/standard.py: KalmanFilter.filter, KalmanFilter.smooth, KalmanFilter.loglikelihood, _filter, _smooth"]}
{"id": "C64", "title": "Independent sensors can be read together or one after the other", "statement": "filter_update with the readings of two sensors stacked (observation_matrix [C1; C2], observation_offset [d1; d2], block-diagonal observation_covariance) returns the same state as filter_update with the first reading followed by filter_update with the second reading and the parameters of no time passing (transition_matrix I, transition_offset 0, transition_covariance 0). The order of the sensors does not matter.", "quantifier": "all n, m1, m2, all states with positive semidefinite covariance, all transition parameters, all observation matrices and offsets, all positive definite observation covariances, all readings", "why_tests_cant": "holds for all dimensions and readings; a test fixes both", "anchors": ["pykalman/standard.py: KalmanFilter.filter_update, _filter_predict, _filter_correct"]}
{"id": "C65", "title": "Unscented filters use only what the functions return", "statement": "filter, filter_update, smooth and sample of UnscentedKalmanFilter and AdditiveUnscentedKalmanFilter depend on transition_functions and observation_functions only through the values they return: a function written as x *= 2; return x gives the results of return 2 * x.", "quantifier": "all objects, all functions (arbitrary values, arbitrary effect on their argument), all data, all generators", "why_tests_cant": "quantifies over all user functions, their side effects included; the tests use functions without side effects", "anchors": ["pykalman/unscented.py: unscented_transform, unscented_filter_correct, augmented_unscented_filter, additive_unscented_filter, augmented_unscented_smoother, additive_unscented_smoother, UnscentedKalmanFilter.sample, AdditiveUnscentedKalmanFilter.sample"]}
{"id": "C66", "title": "Arrays can be shared", "statement": "The constructor, filter, smooth, loglikelihood, filter_update and em of KalmanFilter never write to an array that exists when they are called (data, parameters, results of earlier calls); the arrays returned by filter, smooth and filter_update are new and do not overlap. So any number of KalmanFilter objects may share arrays, be called in any order and be given each other's results: each ends up and replies as it would alone with private copies, as long as the user writes to no array. sample, called with whatever sharing, also writes to no existing array, returns two new arrays that do not overlap, and gives the values and leaves the generators as the call with private copies would.", "quantifier": "all objects, all contents of memory, all ways references may coincide, all finite sequences of calls other than sample (raising ones included), all calls of sample, all arguments, all generators", "why_tests_cant": "quantifies over all sharing patterns and call sequences; tests use fresh arrays for each object", "anchors": ["pykalman/standard.py: KalmanFilter.__init__, KalmanFilter.filter, KalmanFilter.smooth, KalmanFilter.loglikelihood, KalmanFilter.filter_update, KalmanFilter.em, KalmanFilter.sample, _filter, _smooth, _smooth_pair, _em"]}
{"id": "C67", "title": "The constructor takes a snapshot of its arrays", "statement": "Writing to an array after it was passed to the constructor of KalmanFilter does not change what filter, smooth and loglikelihood return.", "quantifier": "all constructor arguments, all arrays written to, all new contents", "why_tests_cant": "quantifies over all later writes of the user", "anchors": ["pykalman/standard.py: KalmanFilter.__init__, KalmanFilter._initialize_parameters, KalmanFilter.filter, KalmanFilter.em, _em", "pykalman/utils/_sklearn.py: array1d, array2d, preprocess_arguments"]}
{"id": "C68", "title": "Unscented filters in other units", "statement": "If the state is re-expressed as x' = G x + h with G lower triangular without zeros on the diagonal (other units, reversed axes, a component replaced by itself plus a combination of earlier ones), and functions and parameters are transformed accordingly, AdditiveUnscentedKalmanFilter.filter and smooth and UnscentedKalmanFilter.filter return the transformed moments G m + h, G P G^T, and raise LinAlgError in exactly the same cases. The noises of UnscentedKalmanFilter may be given in other units as well.", "quantifier": "all dimensions, all (also non-linear, time-varying) functions, all such G and shifts h, all symmetric covariances, all data with missing rows; a single row of two or more components is excluded: the code transposes it, see C18", "why_tests_cant": "quantifies over all functions and changes of units; a test fixes both", "anchors": ["pykalman/unscented.py: moments2points, points2moments, unscented_transform, unscented_filter_predict, unscented_filter_correct, additive_unscented_filter, additive_unscented_smoother, augmented_unscented_filter"]}
{"id": "C69", "title": "Unscented filters do not depend on the order of the state components", "statement": "Listing the state components in another order (functions and parameters permuted accordingly) permutes the moments returned by AdditiveUnscentedKalmanFilter.filter.", "quantifier": "all functions, all permutations, all symmetric positive definite covariances, all data; a single row of two or more components is excluded: the code transposes it, see C18", "why_tests_cant": "quantifies over all functions and permutations; tests fix one order", "anchors": ["pykalman/unscented.py: moments2points, unscented_transform, additive_unscented_filter, AdditiveUnscentedKalmanFilter.filter"]}
{"id": "C70", "title": "Unscented filter_update: functions needed, arguments win", "statement": "In filter_update of UnscentedKalmanFilter, AdditiveUnscentedKalmanFilter and the square-root AdditiveUnscentedKalmanFilter, omitting a function argument while the object holds an array of functions of length other than one raises AssertionError (never a silent choice of one of them). Supplied functions and covariances (matrices) replace the attributes: the call returns or raises exactly what an object holding them as attributes does without arguments.", "quantifier": "all objects with a valid random_state, all moments, observations and combinations of supplied and omitted arguments", "why_tests_cant": "quantifies over all objects and all combinations of optional arguments", "anchors": ["pykalman/unscented.py: UnscentedKalmanFilter.filter_update, AdditiveUnscentedKalmanFilter.filter_update", "pykalman/sqrt/unscented.py: AdditiveUnscentedKalmanFilter.filter_update"]}
{"id": "C71", "title": "filter and smooth are least squares estimates", "statement": "With positive definite initial, transition and observation covariances, the means returned by KalmanFilter.smooth are the one trajectory minimising the sum of squared distances of the first state from the initial mean, of each state from the transition of the previous one and of each unmasked observation from its prediction, each weighted by the inverse of its covariance. The mean returned by KalmanFilter.filter at time k is the last state of the minimiser for the rows up to k. Masked rows contribute nothing.", "quantifier": "all n, m, T, all time-varying parameters with positive definite covariances (observation covariance: at unmasked rows), all data, all competing trajectories; a single row of two or more components is excluded: the code transposes it, see C18", "why_tests_cant": "minimality over all trajectories is an infinite claim; a test can compare with finitely many", "anchors": ["pykalman/standard.py: KalmanFilter.filter, KalmanFilter.smooth, _filter, _smooth, _filter_correct, _smooth_update"]}
{"id": "C72", "title": "A constant state gives regularised linear regression", "statement": "With transition matrix I, transition offset 0 and transition covariance 0, KalmanFilter.filter returns at row k the one minimiser of the weighted least squares criterion of a single state vector (distance from the initial mean plus misfit to the unmasked rows up to k), with covariance the inverse of P0^-1 + sum C' R^-1 C; KalmanFilter.smooth returns the last row of filter at all times.", "quantifier": "all n, m, T, all time-varying observation parameters, all positive definite initial and (at unmasked rows) observation covariances, all data; a single row of two or more components is excluded: the code transposes it, see C18", "why_tests_cant": "equality with a batch estimate for all data and all dimensions", "anchors": ["pykalman/standard.py: KalmanFilter.filter, KalmanFilter.smooth, _filter, _smooth"]}
{"id": "C73", "title": "em does not depend on units", "statement": "Let a second KalmanFilter describe the same system in other state coordinates x' = G x (G invertible), with the same em_vars. After em on the same data its parameters are those of the first one after em, expressed in the new coordinates. For em_vars without transition_matrices, transition_offsets, observation_matrices and observation_offsets (such as the default) this also holds when the origin moves, x' = G x + h. Likewise for data recoded as z' = U z + g (U invertible): em on the recoded data yields the recoded parameters.", "quantifier": "all n, m, T, all n_iter, all em_vars, all time-varying parameters with positive definite covariances (estimated observation covariances on the way included), all data with masked rows (at least one unmasked row if observation_offsets is estimated from recoded data); a single row of two or more components is excluded: the code transposes it, see C18", "why_tests_cant": "relates two runs for all changes of units and all data", "anchors": ["pykalman/standard.py: KalmanFilter.em, _em, _em_observation_matrix, _em_observation_covariance, _em_observation_offset, _em_transition_matrix, _em_transition_covariance, _em_transition_offset, _em_initial_state_mean, _em_initial_state_covariance"]}
{"id": "C74", "title": "Estimates are linear in data, offsets and initial mean", "statement": "Take three KalmanFilters that differ only in offsets and initial mean, and three observation arrays with the same masked rows. If the offsets, the initial mean and the visible observations of the third are a1 times those of the first plus a2 times those of the second, then the means that filter and smooth of the third return are a1 times the first's plus a2 times the second's at every time, and all three return the same covariances. Likewise, measuring the state from an origin that moves by h(t) (transition offset + h(t+1) - A_t h(t), observation offset - C_t h(t), initial mean + h(0)) adds h(t) to the mean returned for time t and changes no covariance.", "quantifier": "all dimensions, numbers a1 and a2, sequences h, offsets, initial means, (time-varying) matrices and covariances whether or not positive semidefinite, observation arrays with any rows masked; smooth for at least one time step; a single row of two or more components is excluded: the code transposes it, see C18", "why_tests_cant": "a test combines two recordings; the superposition principle says the response to every input is determined by the responses to a basis, at every time and for every model", "anchors": ["pykalman/standard.py: KalmanFilter.filter, KalmanFilter.smooth, _filter_predict, _filter_correct, _smooth_update"]}
{"id": "C75", "title": "Uncertainty is monotone in a periodic model", "statement": "Let matrices, covariances and the pattern of masked rows repeat after p time steps (p = 1: constant model, nothing masked). If the covariance predicted for time p by the transition equation from the p-th covariance that filter returns is at least the initial covariance (in the order of positive semidefinite matrices), then every covariance filter returns is at most the one p steps later; if it is at most the initial covariance, every covariance is at least the one p steps later; if they are equal, the covariances repeat with period p. In particular uncertainty never decreases from period to period when the initial state is known exactly (zero initial covariance).", "quantifier": "all dimensions, periods 0 < p < T, numbers of time steps T, positive semidefinite covariances, observation values", "why_tests_cant": "a test follows one covariance sequence for finitely many steps; monotonicity at every step and for every model is what makes a long run converge", "anchors": ["pykalman/standard.py: KalmanFilter.filter, _filter_predict, _filter_correct"]}
{"id": "C76", "title": "The order of readings of a constant state does not matter", "statement": "When the state never changes (identity transition, no offset, no transition noise), let a second filter receive the same observation rows, each with its own observation matrix, offset and noise covariance, in any other order. Then the last mean and covariance filter returns are the same, and smooth returns the same sequence.", "quantifier": "all dimensions, permutations of T >= 1 rows, positive definite initial covariance and, at visible rows, positive definite observation covariances, rows masked or not; a single row of two or more components is excluded: the code transposes it, see C18", "why_tests_cant": "T! orders for every data set; a test tries a few", "anchors": ["pykalman/standard.py: KalmanFilter.filter, KalmanFilter.smooth, _filter_correct"]}
{"id": "C77", "title": "Covariances measure how sharply the criterion determines each state", "statement": "With positive definite covariances, forcing the state at time t to be c raises the least value of the least squares criterion of C71 by exactly the squared distance of c from the mean smooth returns for time t, weighted by the inverse of the covariance smooth returns for time t. For filter the same holds at row k with the criterion for the rows up to k.", "quantifier": "all n, m, T, all time-varying parameters with positive definite covariances (observation covariance: at unmasked rows), all data, all t and all values c; a single row of two or more components is excluded: the code transposes it, see C18", "why_tests_cant": "an equality between a returned matrix and the curvature of a minimum over all trajectories, for every c", "anchors": ["pykalman/standard.py: KalmanFilter.filter, KalmanFilter.smooth, _filter_correct, _smooth_update"]}
{"id": "C78", "title": "Smoothing does not depend on the direction of time", "statement": "Describe the same system backwards: the initial state is the marginal of the last state, the transition from time t+1 to time t is the regression of x_t on x_{t+1}, and observations come in opposite order. KalmanFilter.smooth of the backward description on the reversed rows returns the forward means and covariances in opposite order.", "quantifier": "all n, m, T >= 1, all time-varying parameters with positive definite initial, transition and (at unmasked rows) observation covariances, all data with any rows masked; a single row of two or more components is excluded: the code transposes it, see C18", "why_tests_cant": "relates two different recursions for all models and data; a test compares one pair up to rounding", "anchors": ["pykalman/standard.py: KalmanFilter.smooth, _filter, _smooth, _smooth_update"]}
{"id": "C79", "title": "Innovations are white", "statement": "When the data come from the model, the one-step prediction errors of the observations, computed from what filter returns (transition of the previous filtered mean, then observation equation), have mean zero, covariance C (A P A' + Q) C' + R with the previous filtered covariance P, are mutually uncorrelated over unmasked rows, and are uncorrelated with every earlier unmasked observation.", "quantifier": "all probability spaces with second moments, processes obeying the model (no Gaussian assumption), time-varying parameters, singular covariances included, all mask patterns; a single row of two or more components is excluded: the code transposes it, see C18", "why_tests_cant": "a statement about expectations; samples only approximate it", "anchors": ["pykalman/standard.py: KalmanFilter.filter, _filter, _filter_predict, _filter_correct"]}
{"id": "C80", "title": "Turning or uniformly rescaling the observation axes changes nothing", "statement": "Let N be a rotation, reflection or permutation of the observation axes times a non-zero scale, and d a shift. Passing N z + d for every observed row z, with the model rewritten accordingly (KalmanFilter: N C, N d_t + d, N R N'; AdditiveUnscentedKalmanFilter: observation function N g + d, covariance N R N'; UnscentedKalmanFilter: observation function N g(x, v) + d, noise unchanged), leaves what filter and smooth return unchanged, exceptions included, with no assumption on any covariance. For the additive class with at most three states and a positive definite observation covariance the same holds for every invertible N.", "quantifier": "all dimensions, T, time-varying parameters and functions, any covariances (singular or not positive semidefinite), any rows masked; smooth for T >= 1; a single row of two or more components is excluded: the code transposes it, see C18", "why_tests_cant": "an exact equality for a continuum of coordinate changes, including singular innovation covariances where the pseudo-inverse decides; a test compares a few up to rounding", "anchors": ["pykalman/standard.py: KalmanFilter.filter, KalmanFilter.smooth, _filter_correct", "pykalman/unscented.py: AdditiveUnscentedKalmanFilter, UnscentedKalmanFilter, unscented_correct"]}
{"id": "C81", "title": "Only the information in a reading counts", "statement": "filter and smooth depend on an unmasked row z, its observation matrix C, offset d and covariance R only through C'R^-1C and C'R^-1(z - d): two observation models of any dimensions for the same state equation that agree in these two quantities at every row (both zero for a masked row) give equal results. The log-likelihoods then differ exactly by the difference of the log densities N(z; d, R). In particular k independent readings of one scalar, each of variance k r, may be replaced by their average with variance r, and two independent sensors of the same quantity by their precision-weighted mean.", "quantifier": "all n, T, observation dimensions, time-varying parameters, positive semidefinite state covariances, positive definite observation covariances at unmasked rows, any rows masked; smooth for T >= 1; log-likelihood: constant observation covariance (C47); a single row of two or more components is excluded: the code transposes it, see C18", "why_tests_cant": "an equality between models of different dimension for all data; a test compares one pair up to rounding", "anchors": ["pykalman/standard.py: KalmanFilter.filter, KalmanFilter.smooth, KalmanFilter.loglikelihood, _filter_correct, _loglikelihoods"]}
{"id": "C82", "title": "Noise-free equations hold exactly in the estimates", "statement": "Let U select combinations of state components whose transition has no noise (U Q_t = 0, for instance position = position + velocity). The smoothed means then obey the transition equation exactly, U x_{t+1} = U (A_t x_t + b_t), and so do the smoothed covariances, U P_{t+1} U' = U A_t P_t A_t' U'. Let V select noise-free combinations of observed components (V R_t = 0). At an unmasked row whose one-step covariance C (A P A' + Q) C' + R is invertible, filter and smooth both reproduce the reading, V (C x_t + d) = V z, with V C P_t = 0.", "quantifier": "all n, m, T >= 1, all time-varying positive semidefinite models, all data (consistent with the model or not), all U, V, all mask patterns; a single row of two or more components is excluded: the code transposes it, see C18", "why_tests_cant": "an exact identity for singular covariances, where the code goes through a pseudo-inverse; a test checks a few models up to rounding", "anchors": ["pykalman/standard.py: KalmanFilter.filter, KalmanFilter.smooth, _filter_correct, _smooth_update"]}
{"id": "C83", "title": "Filtering a state that remembers gives smoothed estimates", "statement": "Extend the state by a copy of the state at time s (the copy follows the state up to time s and is then kept, without noise). KalmanFilter.filter of the extended model returns at every time t >= s the plain filtered mean and covariance in the first half, and in the second half exactly the mean and covariance that smooth of the plain model returns for time s from the rows up to t.", "quantifier": "all n, m, T, s, all time-varying positive semidefinite models, all data with any rows masked; a single row of two or more components is excluded: the code transposes it, see C18", "why_tests_cant": "relates a forward recursion of twice the dimension, with singular covariances throughout, to the backward recursion, for every prefix of every series", "anchors": ["pykalman/standard.py: KalmanFilter.filter, KalmanFilter.smooth, _filter, _smooth, _smooth_update"]}
{"id": "C84", "title": "State components nothing depends on can be left out", "statement": "Let W x be k linear combinations of the state such that their next values depend on the state only through them (W A_t = A'_t W) and so do the observations (C_t = C'_t W); for instance a running sum of states that feeds back into nothing may be dropped. A KalmanFilter for the reduced model (A', W b, W Q W', C', d, R, W mu, W P0 W') returns from filter and from smooth, at every time step, W times the means and W P W' for the covariances P that the full model returns, and the same log-likelihood, or the same error.", "quantifier": "all n, k, m, T, all matrices W (of any rank), all time-varying parameters, all data with any rows masked; smooth: positive semidefinite covariances and T >= 1; log-likelihood: constant observation covariance (C47); a single row of two or more components is excluded: the code transposes it, see C18", "why_tests_cant": "an equality between models of different dimension, with pseudo-inverses of different, possibly singular, matrices; a test compares one pair up to rounding", "anchors": ["pykalman/standard.py: KalmanFilter.filter, KalmanFilter.smooth, KalmanFilter.loglikelihood, _filter_predict, _filter_correct, _smooth_update"]}
