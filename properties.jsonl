{"id": "C01", "title": "nrg, qd and int compute the exact CRPS of the ensemble", "statement": "crps_ensemble(obs, fct, estimator=e) with e in {nrg, qd, int}, no weights and finite inputs returns, at every grid point, the integral over the real line of (F(t) - 1{obs<=t})^2 where F is the empirical distribution function of the members at that grid point. This holds for the array implementation and for the numba implementation.", "quantifier": "every ensemble size M>=1, every real observation and member values (ties included, any order), every broadcastable array shape, every position of the ensemble axis, both implementations", "why_tests_cant": "The claim equates a finite formula with an integral for every real input; tests compare a few random draws to tolerance.", "anchors": ["scoringrules/core/crps/_approx.py: _crps_ensemble_nrg, _crps_ensemble_qd, _crps_ensemble_int", "scoringrules/core/crps/_gufuncs.py: _crps_ensemble_nrg_gufunc, _crps_ensemble_qd_gufunc, _crps_ensemble_int_gufunc", "scoringrules/_crps.py: crps_ensemble"]}
{"id": "C02", "title": "fair and pwm compute the fair CRPS", "statement": "crps_ensemble with estimator fair or pwm returns mean_i |x_i - y| - sum_{i,j} |x_i - x_j| / (2 M (M-1)) for every finite input with M>=2; the two estimators agree with each other on both implementations.", "quantifier": "every M>=2, every real input, shape, axis, both implementations", "why_tests_cant": "pwm is computed from order statistics and equality with the kernel form needs an argument over all orderings.", "anchors": ["scoringrules/core/crps/_approx.py: _crps_ensemble_fair, _crps_ensemble_pwm", "scoringrules/core/crps/_gufuncs.py: _crps_ensemble_fair_gufunc, _crps_ensemble_pwm_gufunc"]}
{"id": "C03", "title": "fair estimators are unbiased", "statement": "If the M>=2 members are drawn independently (with replacement) from any finite population, the average of crps_ensemble(estimator='fair') over all M-samples equals the exact CRPS of the population distribution; the nrg estimator exceeds it by the mean absolute difference of the population divided by 2M.", "quantifier": "every population size N>=1, every sample size M>=2, every real values", "why_tests_cant": "An expectation over N^M samples for every N and M cannot be enumerated by tests.", "anchors": ["scoringrules/core/crps/_approx.py: _crps_ensemble_fair, _crps_ensemble_nrg"]}
{"id": "C04", "title": "array and numba implementations of crps_ensemble agree (unweighted)", "statement": "For every estimator (nrg, fair, pwm, qd, int, akr, akr_circperm) crps_ensemble with backend='numba' and with an array backend return the same values for finite float inputs, and both raise ValueError for an unknown estimator name.", "quantifier": "all finite float inputs, all M>=1 (M>=2 for fair/pwm), all shapes and axes, all estimator strings", "why_tests_cant": "Two independent algorithms (vectorised formula vs. loop with state) have to agree on every input, including ties and every parity of M.", "anchors": ["scoringrules/core/crps/_approx.py: ensemble", "scoringrules/core/crps/_gufuncs.py: _estimator_gufuncs"]}
{"id": "C05", "title": "array and numba implementations of crps_ensemble agree (weighted)", "statement": "For every estimator and every non-negative weight array with positive sum, crps_ensemble(..., ens_w=w) gives the same values on both implementations. False for akr_circperm with an even number of members: the array code pairs members at the wrong lag.", "quantifier": "all finite inputs, all weights, all M>=1", "why_tests_cant": "Needs all weights and all sizes; the deviation appears only for even M with this estimator.", "anchors": ["scoringrules/core/crps/_approx_w.py: ensemble_w, _crps_ensemble_akr_circperm_w", "scoringrules/core/crps/_gufuncs_w.py: _estimator_gufuncs_w"]}
{"id": "C06", "title": "uniform weights reproduce the unweighted score", "statement": "crps_ensemble(obs, fct, ens_w=c) with any constant c>0 equals crps_ensemble(obs, fct) for each estimator nrg, fair, pwm, qd, int, akr, and for akr_circperm with odd M. It is false for akr_circperm with even M on the array implementation.", "quantifier": "every c>0, every M, every real input, both implementations", "why_tests_cant": "Universal over M, c and the inputs.", "anchors": ["scoringrules/core/crps/_approx_w.py", "scoringrules/core/crps/_gufuncs_w.py", "scoringrules/core/utils.py: univariate_weight_check"]}
{"id": "C07", "title": "weighted nrg, qd and int compute the exact CRPS of the weighted ensemble", "statement": "With weights w, crps_ensemble(..., estimator in {nrg,qd,int}, ens_w=w) is the integral of (F_w(t)-1{obs<=t})^2 where F_w is the distribution putting mass w_i/sum(w) on member i; fair gives the same with the spread term divided by 1 - sum (w_i/sum w)^2. For pwm this is false unless the weights are equal: it computes a different functional of the weighted ensemble.", "quantifier": "all non-negative weights with positive sum, all real inputs, ties included, any valid (even unstable) argsort order", "why_tests_cant": "Integral identity for all weights and order; the sort used by numpy is not stable, so the result must not depend on tie order.", "anchors": ["scoringrules/core/crps/_approx_w.py", "scoringrules/core/crps/_gufuncs_w.py", "scoringrules/core/utils.py: univariate_sort_ens"]}
{"id": "C08", "title": "weights matter only up to scale and are validated", "statement": "Multiplying ens_w by any positive constant (per grid point) does not change the score; any negative weight raises ValueError; a weight array whose shape does not match the forecasts raises ValueError. The normalised weights are non-negative and sum to one.", "quantifier": "all weight arrays, constants and shapes", "why_tests_cant": "Universal over weights and shapes.", "anchors": ["scoringrules/core/utils.py: univariate_weight_check"]}
{"id": "C09", "title": "zero-weight members are irrelevant and integer weights mean repetition", "statement": "Deleting members of weight 0 does not change a weighted score (nrg, fair, pwm, qd, int); repeating member i k_i times in an unweighted ensemble equals giving it weight k_i (nrg, qd, int).", "quantifier": "all finite inputs, all integer weight vectors not all zero", "why_tests_cant": "Universal over repetition patterns.", "anchors": ["scoringrules/core/crps/_approx_w.py", "scoringrules/core/crps/_gufuncs_w.py"]}
{"id": "C10", "title": "permutation invariance", "statement": "Reordering the members of an ensemble (and its weights) does not change crps_ensemble for nrg, fair, pwm, qd, int. It may change the akr and akr_circperm values.", "quantifier": "all permutations of all ensembles", "why_tests_cant": "M! permutations for each M.", "anchors": ["scoringrules/core/crps/_approx.py", "scoringrules/core/crps/_approx_w.py", "scoringrules/core/utils.py: univariate_sort_ens"]}
{"id": "C11", "title": "translation and scale equivariance", "statement": "For every real c and s, crps_ensemble(s*obs+c, s*fct+c) = |s| * crps_ensemble(obs, fct) for every estimator and implementation.", "quantifier": "all real c and s (including negative s for all estimators), all finite inputs", "why_tests_cant": "Universal over transformations; negative s reverses the order of the members, which exercises the sort-based estimators differently.", "anchors": ["scoringrules/core/crps/_approx.py", "scoringrules/core/crps/_gufuncs.py"]}
{"id": "C12", "title": "non-negativity and zero", "statement": "The nrg, qd and int scores are never negative and are zero exactly when every member (of positive weight) equals the observation; the fair score can be negative.", "quantifier": "all finite inputs and weights", "why_tests_cant": "A lower bound over all inputs.", "anchors": ["scoringrules/core/crps/_approx.py", "scoringrules/core/crps/_approx_w.py"]}
{"id": "C13", "title": "propriety of the ensemble CRPS", "statement": "If the observation is drawn from the (weighted) empirical distribution of a finite sample G, no forecast ensemble has a lower expected nrg score than G itself, and a forecast reaching the minimum has the same distribution function.", "quantifier": "all finite distributions with arbitrary weights, all forecast ensembles", "why_tests_cant": "An optimality statement over all pairs of distributions.", "anchors": ["scoringrules/core/crps/_approx.py: _crps_ensemble_nrg", "scoringrules/core/crps/_approx_w.py: _crps_ensemble_nrg_w"]}
{"id": "C14", "title": "nan_policy='omit' equals deleting the NaN members", "statement": "With nan_policy='omit', crps_ensemble returns at every grid point the score of the ensemble with the members whose value or weight is NaN removed (estimators nrg, fair, pwm, qd, both implementations, any axis); grid points whose members are all NaN give NaN.", "quantifier": "all NaN patterns, all remaining values and weights, all shapes and axes", "why_tests_cant": "2^M NaN patterns for each M, interacting with sort, zero replacement and weight normalisation.", "anchors": ["scoringrules/core/utils.py: apply_nan_policy_ens_uv", "scoringrules/_crps.py: crps_ensemble"]}
{"id": "C15", "title": "nan_policy='propagate' yields NaN exactly where an input is NaN", "statement": "With the default policy, every grid point where the observation or any member is NaN yields NaN for every estimator and implementation, and the other grid points are unaffected by it.", "quantifier": "all arrays with any NaN pattern, also with infinities elsewhere", "why_tests_cant": "All patterns and positions; sort-based and early-return code paths treat NaN differently.", "anchors": ["scoringrules/core/crps/_approx.py", "scoringrules/core/crps/_gufuncs.py", "scoringrules/core/crps/_approx_w.py", "scoringrules/core/crps/_gufuncs_w.py", "scoringrules/core/utils.py: apply_nan_policy_ens_uv"]}
{"id": "C16", "title": "nan_policy validation", "statement": "nan_policy='raise' raises ValueError iff some entry of obs, fct or ens_w is NaN and otherwise equals 'propagate'; any policy string other than propagate/omit/raise raises ValueError; omit with int, akr, akr_circperm raises NotImplementedError.", "quantifier": "all policy strings, all inputs", "why_tests_cant": "Universal over strings and inputs, including inputs with no NaN at all.", "anchors": ["scoringrules/core/utils.py: apply_nan_policy_ens_uv"]}
{"id": "C17", "title": "ensemble axis and batching semantics", "statement": "For any axis argument that is valid for fct (negative or not), the result has the shape of obs and each entry depends only on the corresponding observation and members; incompatible shapes raise ValueError.", "quantifier": "all shapes of any rank, all axes", "why_tests_cant": "All ranks and axes.", "anchors": ["scoringrules/core/utils.py: univariate_array_check, _shape_compatibility_check", "scoringrules/_crps.py: crps_ensemble"]}
{"id": "C18", "title": "sorted_ensemble flag", "statement": "If the members are already in ascending order along the ensemble axis, sorted_ensemble=True and False give the same result for every estimator, and estimators nrg, fair, akr, akr_circperm ignore the flag.", "quantifier": "all sorted finite ensembles", "why_tests_cant": "All inputs.", "anchors": ["scoringrules/core/utils.py: univariate_sort_ens"]}
{"id": "C19", "title": "twcrps is the threshold-weighted CRPS and reduces to the CRPS", "statement": "twcrps_ensemble with thresholds a<=b and an exact estimator equals the integral of (F(t)-1{obs<=t})^2 over [a,b]; with the default infinite thresholds it equals crps_ensemble with the same arguments.", "quantifier": "all a<=b (possibly infinite), all finite inputs, exact estimators, both implementations", "why_tests_cant": "Integral identity over all thresholds and inputs, including thresholds coinciding with data.", "anchors": ["scoringrules/_crps.py: twcrps_ensemble", "scoringrules/core/utils.py: uv_weighted_score_chain"]}
{"id": "C20", "title": "owcrps is the weighted CRPS of the conditional ensemble", "statement": "owcrps_ensemble equals w(obs) times the exact CRPS of the ensemble re-weighted by w (normalised); with weight identically one it equals the nrg CRPS; both implementations agree; a weight function returning a negative value raises ValueError.", "quantifier": "all non-negative weight functions with positive ensemble mass, all finite inputs, with and without ens_w", "why_tests_cant": "Universal over weight functions.", "anchors": ["scoringrules/_crps.py: owcrps_ensemble", "scoringrules/core/crps/_approx.py: ow_ensemble", "scoringrules/core/crps/_approx_w.py: ow_ensemble_w", "scoringrules/core/crps/_gufuncs.py: _owcrps_ensemble_nrg_gufunc"]}
{"id": "C21", "title": "vrcrps reduces to the CRPS and agrees across implementations", "statement": "vrcrps_ensemble with weight identically one equals crps_ensemble nrg and the array and numba implementations agree. This is false of the array implementation without ens_w unless fct is two-dimensional: it averages over axis 1 instead of the last axis and raises for one-dimensional fct.", "quantifier": "all finite inputs and array ranks", "why_tests_cant": "Rank-dependent behaviour for every rank.", "anchors": ["scoringrules/core/crps/_approx.py: vr_ensemble", "scoringrules/core/crps/_gufuncs.py: _vrcrps_ensemble_nrg_gufunc", "scoringrules/core/crps/_approx_w.py: vr_ensemble_w"]}
{"id": "C22", "title": "owcrps/vrcrps respect the ensemble axis under nan_policy='omit'", "statement": "owcrps_ensemble(obs, moveaxis(fct,-1,k), m_axis=k, nan_policy='omit') equals owcrps_ensemble(obs, fct, nan_policy='omit'). False: the mask is moved a second time, giving a shape error, or silently a transposed mask for square arrays.", "quantifier": "all shapes and axes, NaN patterns", "why_tests_cant": "Axis and NaN handling interplay over all ranks.", "anchors": ["scoringrules/_crps.py: owcrps_ensemble, vrcrps_ensemble", "scoringrules/core/utils.py: apply_nan_policy_ens_uv"]}
{"id": "C23", "title": "integer-typed inputs are scored as numbers", "statement": "The dtype of the inputs does not change the score: integer-valued observations/forecasts give the same result as the equal float values. False for numba estimators that allocate the output with the dtype of obs (truncated to integers), and for ens_w, which is cast to the dtype of fct (fractional weights become 0).", "quantifier": "all integer-typed inputs", "why_tests_cant": "Tests use float draws only.", "anchors": ["scoringrules/core/utils.py: lazy_gufunc_wrapper_uv, apply_nan_policy_ens_uv"]}
{"id": "C24", "title": "crps_quantile is twice the mean pinball loss", "statement": "crps_quantile returns 2/K sum_k pinball(alpha_k, q_k, obs) on both implementations, raises ValueError iff a level is outside (0,1) or the number of levels does not match, and with levels (i-1/2)/M on the sorted ensemble equals the exact CRPS of the ensemble.", "quantifier": "all levels, quantiles, observations, axes", "why_tests_cant": "Universal over levels and inputs.", "anchors": ["scoringrules/_crps.py: crps_quantile", "scoringrules/core/crps/_approx.py: quantile_pinball", "scoringrules/core/crps/_gufuncs.py: quantile_pinball_gufunc"]}
{"id": "C25", "title": "quantile score is non-negative and consistent for the quantile", "statement": "quantile_score(obs, fct, alpha) = pinball loss >= 0, zero iff obs = fct; a value q minimises the expected score under a finite distribution G whenever G(X<q) <= alpha <= G(X<=q); levels outside [0,1] raise ValueError.", "quantifier": "all levels, all finite distributions, all candidate values", "why_tests_cant": "Optimality over all reals.", "anchors": ["scoringrules/_quantile.py: quantile_score"]}
{"id": "C26", "title": "interval score decomposes into quantile scores", "statement": "interval_score(obs, l, u, alpha) = (2/alpha) (QS_{alpha/2}(l) + QS_{1-alpha/2}(u)); consequently it is minimised in expectation by the central interval.", "quantifier": "all l<=u, obs, alpha in (0,1)", "why_tests_cant": "Universal identity.", "anchors": ["scoringrules/_interval.py: interval_score", "scoringrules/core/interval/_score.py"]}
{"id": "C27", "title": "weighted interval score implementations agree", "statement": "weighted_interval_score returns the same value for array and numba backends. False: the array implementation adds w_median*median instead of w_median*|obs-median|.", "quantifier": "all finite inputs", "why_tests_cant": "All inputs with median != |obs-median|.", "anchors": ["scoringrules/core/interval/_score.py: weighted_interval_score", "scoringrules/core/interval/_gufunc.py"]}
{"id": "C28", "title": "weighted interval score is a weighted mean of quantile scores (numba implementation)", "statement": "With the default weights, the numba weighted interval score equals (2 QS-type) average of the pinball losses at the 2K+1 quantile levels.", "quantifier": "all K, all alpha vectors in (0,1), all real inputs", "why_tests_cant": "Universal over K.", "anchors": ["scoringrules/core/interval/_gufunc.py", "scoringrules/_interval.py"]}
{"id": "C29", "title": "Brier score: range, validation, strict propriety", "statement": "brier_score(obs, fct) = (fct-obs)^2 lies in [0,1] for probabilities; its expectation under event probability p is uniquely minimised at fct=p; values outside [0,1+1e-5] or observations other than 0/1 raise ValueError.", "quantifier": "all probabilities and observations", "why_tests_cant": "Optimality over the continuum.", "anchors": ["scoringrules/_brier.py: brier_score", "scoringrules/core/utils.py: binary_array_check"]}
{"id": "C30", "title": "RPS: one-hot and category inputs are equivalent; propriety", "statement": "rps_score with category indices 1..K equals rps_score with the corresponding one-hot arrays; RPS is the sum over categories of Brier scores of cumulative probabilities; it is strictly proper. Categories outside 1..K are not rejected.", "quantifier": "all numbers of categories, all probability vectors, axes", "why_tests_cant": "Universal over K.", "anchors": ["scoringrules/_brier.py: rps_score", "scoringrules/core/brier.py"]}
{"id": "C31", "title": "log score and ranked log score: propriety", "statement": "log_score(obs,fct) is minimised in expectation exactly at the true probability; rls_score is the sum over thresholds of log scores of the cumulative probabilities.", "quantifier": "all probabilities in (0,1), all K", "why_tests_cant": "Optimality over the continuum.", "anchors": ["scoringrules/_brier.py: log_score, rls_score"]}
{"id": "C32", "title": "energy score generalises the CRPS", "statement": "For one-dimensional variables es_ensemble equals crps_ensemble with the same estimator (nrg, fair, akr, akr_circperm; with weights nrg, fair, akr), on both implementations.", "quantifier": "all finite inputs", "why_tests_cant": "Universal over inputs.", "anchors": ["scoringrules/core/energy", "scoringrules/_energy.py"]}
{"id": "C33", "title": "energy score: implementations agree and uniform weights reproduce the unweighted score", "statement": "es_ensemble gives the same value on both implementations for each estimator, unweighted; with weights, nrg, fair and akr agree; akr_circperm agrees for even M and disagrees for odd M with non-uniform weights. Equal weights reproduce the unweighted score.", "quantifier": "all M, D, finite inputs, weights", "why_tests_cant": "Universal over sizes.", "anchors": ["scoringrules/core/energy/_score.py", "scoringrules/core/energy/_score_w.py", "scoringrules/core/energy/_gufuncs.py", "scoringrules/core/energy/_gufuncs_w.py"]}
{"id": "C34", "title": "energy score: translation, rotation, scale and permutation behaviour", "statement": "es_ensemble is invariant under translations and orthogonal maps of the outcome space applied to obs and members, homogeneous of degree 1, invariant under member permutations (nrg, fair).", "quantifier": "all finite inputs and isometries", "why_tests_cant": "Universal over isometries.", "anchors": ["scoringrules/core/energy/_score.py"]}
{"id": "C35", "title": "energy score nrg is non-negative and proper", "statement": "The nrg energy score is never negative and in expectation over a finite distribution G no forecast distribution beats G.", "quantifier": "all dimensions, all finite weighted distributions", "why_tests_cant": "Negative-definiteness of the Euclidean distance over all configurations.", "anchors": ["scoringrules/core/energy/_score.py"]}
{"id": "C36", "title": "variogram score: implementations agree, invariance, propriety", "statement": "vs_ensemble gives the same value on both implementations (nrg and fair, weighted or not); it is non-negative for non-negative pair weights (nrg), invariant to adding a constant to every coordinate, and proper.", "quantifier": "all M, D, p>0, finite inputs, pair weights", "why_tests_cant": "Universal.", "anchors": ["scoringrules/core/variogram", "scoringrules/_variogram.py"]}
{"id": "C37", "title": "kernel scores: implementations agree; non-negativity; propriety", "statement": "gksuv/gksmv_ensemble agree across implementations (unweighted); the nrg score is non-negative, and proper. False for weighted fair estimators (array does not remove the diagonal) and for weighted akr_circperm univariate on arrays (raises ValueError).", "quantifier": "all finite inputs", "why_tests_cant": "Positive semidefiniteness of the Gaussian kernel over all configurations.", "anchors": ["scoringrules/core/kernels", "scoringrules/_kernels.py"]}
{"id": "C38", "title": "Dawid-Sebastiani and error-spread implementations agree", "statement": "dssuv_ensemble and error_spread_score return the same values for array and numba implementations, and depend on the ensemble only through its first moments (permutation invariance, shift invariance).", "quantifier": "all finite inputs with M large enough", "why_tests_cant": "Universal.", "anchors": ["scoringrules/core/dss", "scoringrules/core/error_spread"]}
{"id": "C39", "title": "closed-form CRPS equals the CRPS integral", "statement": "crps_exponential, crps_exponentialM, crps_2pexponential, crps_laplace, crps_logistic, crps_uniform (with point masses), crps_gpd equal the integral of (F - 1{obs<=.})^2 for the documented distribution function.", "quantifier": "all admissible parameters and observations", "why_tests_cant": "Improper integrals over continuum of parameters.", "anchors": ["scoringrules/core/crps/_closed.py"]}
{"id": "C40", "title": "closed-form CRPS: location-scale equivariance", "statement": "For location-scale families crps(a+s*obs; a+s*loc, s*scale) = s * crps(obs; loc, scale).", "quantifier": "all parameters, s>0, a", "why_tests_cant": "Universal; holds without knowing special functions.", "anchors": ["scoringrules/core/crps/_closed.py"]}
{"id": "C41", "title": "logarithmic scores are minus log densities", "statement": "logs_* equal -log f(obs) with f the documented density, which is non-negative and integrates to one; hence expected logs is minimised by the true distribution (Gibbs).", "quantifier": "all admissible parameters and observations", "why_tests_cant": "Integrals over the continuum.", "anchors": ["scoringrules/core/logarithmic.py", "scoringrules/core/stats.py"]}
{"id": "C42", "title": "conditional and censored likelihood scores reduce to the log score", "statement": "clogs_ensemble with infinite bounds equals logs_ensemble for both the conditional and the censored variant.", "quantifier": "all finite ensembles and bandwidths", "why_tests_cant": "Universal.", "anchors": ["scoringrules/_logs.py: clogs_ensemble", "scoringrules/core/logarithmic.py: clogs_ensemble"]}
{"id": "C43", "title": "parameter validation of the parametric scores", "statement": "Functions accepting alternative parametrisations (crps_gamma, crps_csg0, crps_negbinom, ...) raise ValueError iff not exactly one of the alternatives is given; equivalent parametrisations give equal scores.", "quantifier": "all combinations", "why_tests_cant": "Universal over values.", "anchors": ["scoringrules/_crps.py"]}
{"id": "C44", "title": "scoring does not modify the caller's arrays", "statement": "Calling a score leaves the arrays passed in unchanged. False for crps_exponentialM and logs_exponential2 (in-place subtraction of the location).", "quantifier": "all inputs", "why_tests_cant": "Tests never look at the inputs after the call.", "anchors": ["scoringrules/core/crps/_closed.py: exponentialM", "scoringrules/core/logarithmic.py: exponential2"]}
{"id": "C45", "title": "backend registry history", "statement": "After any sequence of register/get/set_active calls: numpy stays registered, a registered backend is always one whose library is installed, getting an installed backend succeeds and is idempotent, getting one that is not installed raises BackendNotAvailable and does not change the registry; the active backend is the last one set (or the default).", "quantifier": "all call histories, all sets of installed libraries", "why_tests_cant": "Universal over histories.", "anchors": ["scoringrules/backend/registry.py: BackendsRegistry"]}
{"id": "C46", "title": "multivariate weights follow the documented axes", "statement": "For multivariate scores the weights array has the shape of fct without the variable axis, for any choice of m_axis and v_axis. False when v_axis precedes m_axis: the weights' ensemble axis is taken one position too far right, which raises AxisError if m_axis is the last axis and otherwise may transpose the weights silently.", "quantifier": "all ranks and axis choices", "why_tests_cant": "All axis combinations.", "anchors": ["scoringrules/core/utils.py: multivariate_weight_check, multivariate_array_check"]}
{"id": "C47", "title": "CRPS of a point forecast is the absolute error", "statement": "With one member (or all members equal) the exact estimators return |x-y|; every estimator lies between 0 and the mean absolute error for nrg/qd/int.", "quantifier": "all real values, M>=1", "why_tests_cant": "Universal.", "anchors": ["scoringrules/core/crps/_approx.py"]}
{"id": "C48", "title": "weighted energy scores", "statement": "twes_ensemble is the energy score of the vectors mapped by v_func; owes_ensemble is w(obs) times the exact energy score of the ensemble re-weighted by w; vres_ensemble is the kernel score of the vertically re-scaled kernel; with w = 1 the last two equal es_ensemble nrg; all are non-negative. With ens_w this holds for arrays and is false for numba, where owes_ensemble and vres_ensemble always raise (the kernels index a scalar and cannot be compiled).", "quantifier": "all finite inputs, all non-negative weight functions, all batch shapes and axes", "why_tests_cant": "Universal over functions; the numba failure needs ens_w, which no test combines with numba.", "anchors": ["scoringrules/_energy.py: twes_ensemble, owes_ensemble, vres_ensemble", "scoringrules/core/energy/_gufuncs_w.py"]}
{"id": "C49", "title": "energy score input types", "statement": "The array implementation of es_ensemble gives the same result for integer and float arrays of equal values. False for numba: integer observations raise (nrg, fair), integer ensembles raise (akr, akr_circperm).", "quantifier": "all integer-valued inputs", "why_tests_cant": "Universal; tests only use floats.", "anchors": ["scoringrules/core/energy/_gufuncs.py", "scoringrules/core/utils.py: lazy_gufunc_wrapper_mv"]}
{"id": "C50", "title": "multivariate inputs are validated", "statement": "es_, owes_, vres_, vs_, owvs_ and vrvs_ensemble raise ValueError when the shape of obs is not that of fct without the ensemble axis, when an ensemble weight or a value of the weight function is negative, when the weights have another shape, and for unknown estimator names; the names of two internal numba kernels raise TypeError there.", "quantifier": "all inputs (NaN and infinities included), all weight functions, shapes, axes, estimator strings", "why_tests_cant": "Universal over shapes and strings; a negative entry may be anywhere.", "anchors": ["scoringrules/core/utils.py: multivariate_array_check, multivariate_weight_check, mv_weighted_score_weights", "scoringrules/_energy.py", "scoringrules/_variogram.py"]}
{"id": "C51", "title": "weighted variogram scores", "statement": "twvs_ensemble is the variogram score of the vectors mapped by v_func; owvs_ensemble is w(obs) times the variogram score of the re-weighted ensemble; vrvs_ensemble is sum_ij h_ij (w(obs) V_obs(i,j) - sum_k u_k V_k(i,j))^2 with u_k the weight times the probability of member k; on both implementations, with and without ens_w; with w = 1 the last two equal vs_ensemble nrg; all are non-negative for non-negative pair weights.", "quantifier": "all finite inputs, all non-negative weight functions, all batch shapes and axes, p>0", "why_tests_cant": "Universal over functions; the closed form of vrvs is not what the code computes.", "anchors": ["scoringrules/_variogram.py: twvs_ensemble, owvs_ensemble, vrvs_ensemble", "scoringrules/core/variogram"]}
{"id": "C52", "title": "variogram score input types", "statement": "The array implementation of vs_ensemble gives the same result for integer and float arrays of equal values. False for numba: with integer observations the nrg score is accumulated in an integer and truncated.", "quantifier": "all integer-valued inputs", "why_tests_cant": "Universal; tests only use floats.", "anchors": ["scoringrules/core/variogram/_gufuncs.py", "scoringrules/core/utils.py: lazy_gufunc_wrapper_mv"]}
{"id": "C53", "title": "weighted kernel scores", "statement": "twgksuv_ensemble is the kernel score of the values clipped to [a,b] (or mapped by v_func), twgksmv_ensemble of the vectors mapped by v_func; owgks*_ensemble is w(obs) times the kernel score of the ensemble re-weighted by w; vrgks*_ensemble is the kernel score of the vertically re-scaled kernel w(x)w(y)k(x,y); on both implementations; with w = 1 the last two equal the nrg kernel score; all are non-negative. With ens_w this holds except for the multivariate ow and vr scores on numba, which always raise.", "quantifier": "all finite inputs, all non-negative weight functions, all batch shapes and axes", "why_tests_cant": "Universal over functions; the numba failures need ens_w, which no test combines with numba.", "anchors": ["scoringrules/_kernels.py", "scoringrules/core/kernels"]}
{"id": "C54", "title": "kernel score inputs are validated", "statement": "gksuv_, owgksuv_, vrgksuv_, gksmv_, owgksmv_ and vrgksmv_ensemble raise ValueError for incompatible shapes, a negative ensemble weight or value of the weight function, weights of another shape and unknown estimator names; the names of two internal numba kernels raise TypeError there. A NaN observation or member makes the univariate score NaN on both implementations.", "quantifier": "all inputs (NaN and infinities included), all weight functions, shapes, axes, estimator strings", "why_tests_cant": "Universal over shapes and strings; a negative entry may be anywhere.", "anchors": ["scoringrules/core/utils.py", "scoringrules/_kernels.py", "scoringrules/core/kernels"]}
{"id": "C55", "title": "error-spread score is the published score", "statement": "error_spread_score equals (s^2 - e^2 - e s g)^2 of Christensen et al. (2015), with g the sample skewness M/((M-1)(M-2)) sum ((x_k-m)/s)^3. True when the sum of cubes is zero; false in general, the code lacks the factor M.", "quantifier": "all finite inputs with M>=3 and unequal members, both implementations", "why_tests_cant": "The tests compare the implementations with each other, and both lack the factor.", "anchors": ["scoringrules/core/error_spread/_score.py", "scoringrules/core/error_spread/_gufunc.py"]}
{"id": "C56", "title": "normal-family CRPS equals the CRPS integral", "statement": "crps_normal, crps_2pnormal, crps_gtcnormal, crps_tnormal and crps_cnormal equal the integral of (F - 1{obs<=.})^2 with F the normal distribution function, the two-piece one, and the normal distribution truncated or censored to [lower, upper] with point masses; either bound may be infinite.", "quantifier": "all finite observations, locations, positive scales, lower<upper finite or infinite, masses with lmass+umass<>1 and none at an infinite bound, all broadcastable shapes", "why_tests_cant": "Improper integrals of the Gaussian distribution function over a continuum of parameters.", "anchors": ["scoringrules/core/crps/_closed.py: normal, gtcnormal", "scoringrules/_crps.py: crps_2pnormal, crps_gtcnormal, crps_tnormal, crps_cnormal"]}
{"id": "C57", "title": "truncated and censored logistic CRPS equals the CRPS integral", "statement": "crps_gtclogistic, crps_tlogistic and crps_clogistic equal the integral of (F - 1{obs<=.})^2 for the logistic distribution truncated or censored to [lower, upper]. True when both bounds are finite or both infinite; false when exactly one is infinite: the result is NaN.", "quantifier": "all finite observations, locations, positive scales, lower<upper, masses with lmass+umass<>1, all broadcastable shapes", "why_tests_cant": "The tests only use two finite or two infinite bounds.", "anchors": ["scoringrules/core/crps/_closed.py: gtclogistic", "scoringrules/_crps.py: crps_gtclogistic, crps_tlogistic, crps_clogistic"]}
{"id": "C58", "title": "t-family CRPS equals the CRPS integral", "statement": "crps_t, crps_gtct, crps_tt and crps_ct equal the integral of (F - 1{obs<=.})^2 for the t distribution with more than one degree of freedom, truncated or censored to [lower, upper] with point masses. True unless a bound equals the location: then the result is NaN.", "quantifier": "all finite observations, df>1, locations, positive scales, lower<upper finite or infinite, masses with lmass+umass<>1 and none at an infinite bound, all broadcastable shapes", "why_tests_cant": "Improper integrals over a continuum of parameters; no test puts a bound at the location.", "anchors": ["scoringrules/core/crps/_closed.py: t, gtct", "scoringrules/_crps.py: crps_t, crps_gtct, crps_tt, crps_ct"]}
{"id": "C59", "title": "beta CRPS equals the CRPS integral", "statement": "crps_beta equals the integral of (F - 1{obs<=.})^2 for the beta distribution on [lower, upper] and observations in it. False outside: the result is NaN where the integral is finite.", "quantifier": "all a, b > 0, lower < upper, observations in the support, all broadcastable shapes", "why_tests_cant": "Improper integrals over a continuum of parameters; no test uses an observation outside the support.", "anchors": ["scoringrules/core/crps/_closed.py: beta", "scoringrules/_crps.py: crps_beta"]}
{"id": "C60", "title": "log-family CRPS equals the CRPS integral", "statement": "crps_loglaplace, crps_loglogistic and crps_lognormal equal the integral of (F - 1{obs<=.})^2 for F the distribution of exp X with X Laplace, logistic or normal, for positive observations. False for negative observations: the results are NaN where the integral is finite (crps_loglaplace already at 0).", "quantifier": "all finite positive observations, locations, scales in (0,1) (log-normal: any positive scale), all broadcastable shapes", "why_tests_cant": "Improper integrals over a continuum of parameters; no test uses a negative observation.", "anchors": ["scoringrules/core/crps/_closed.py: loglaplace, loglogistic, lognormal"]}
{"id": "C61", "title": "normal-mixture CRPS equals the CRPS integral", "statement": "crps_mixnorm equals the integral of (F - 1{obs<=.})^2 for F the mixture of M normal distributions with the given or equal weights.", "quantifier": "all finite observations, means, positive standard deviations, non-negative weights summing to one, all M, batch shapes and axes", "why_tests_cant": "A double sum of Gaussian integrals over a continuum of parameters and every number of components.", "anchors": ["scoringrules/core/crps/_closed.py: mixnorm", "scoringrules/_crps.py: crps_mixnorm"]}
{"id": "C62", "title": "gamma and censored shifted gamma CRPS equals the CRPS integral", "statement": "crps_gamma equals the integral of (F - 1{obs<=.})^2 for the gamma distribution with given shape and rate (or scale = 1/rate), for every observation; crps_csg0 equals it for the gamma distribution shifted left by shift and censored at zero, for non-negative observations. False for negative observations of crps_csg0.", "quantifier": "all shapes, rates > 0, all shifts, all broadcastable array shapes", "why_tests_cant": "Improper integrals over a continuum of parameters; the constant needs the duplication formula of the gamma function; no test uses a negative observation.", "anchors": ["scoringrules/core/crps/_closed.py: gamma, csg0", "scoringrules/_crps.py: crps_gamma, crps_csg0"]}
{"id": "C63", "title": "generalised extreme value CRPS equals the CRPS integral", "statement": "crps_gev equals the integral of (F - 1{obs<=.})^2 for the generalised extreme value distribution with any shape below one other than zero, for every observation inside or outside the support. For shape zero (Gumbel) the returned value falls short of the CRPS by the scale times one constant between 0 and 2e-36, because the code's Euler constant is the true one rounded down to 35 decimals.", "quantifier": "all shapes < 1, locations, scales > 0, all observations, all broadcastable array shapes", "why_tests_cant": "Improper integrals over a continuum of parameters; the size of the discrepancy at shape zero is far below double precision and needs certified bounds on Euler's constant.", "anchors": ["scoringrules/core/crps/_closed.py: gev", "scoringrules/_crps.py: crps_gev"]}
{"id": "C64", "title": "Poisson, negative binomial and hypergeometric CRPS equal the CRPS integral", "statement": "crps_poisson, crps_negbinom (by probability or by mean) and crps_hypergeometric return the integral of (F - 1{obs<=.})^2 for the distribution function F of the counts, for every real observation. The hypergeometric score does so only if no more successes can be drawn than there are failures: the code sums over 0..n; with 5 successes, 1 failure and 3 draws it is 0 for every observation while the CRPS is 9/4.", "quantifier": "all means >= 0, all sizes > 0, all probabilities in (0,1], all numbers of successes, failures and draws, all real observations, all broadcastable array shapes", "why_tests_cant": "The closed forms contain Bessel and Gauss hypergeometric functions that come from infinite sums over the probabilities; a test compares a few points to a truncated sum.", "anchors": ["scoringrules/core/crps/_closed.py: poisson, negbinom, hypergeometric", "scoringrules/core/stats.py: _pois_cdf, _pois_pdf, _negbinom_cdf, _hypergeo_pdf, _hypergeo_cdf"]}
{"id": "C65", "title": "Multivariate Dawid-Sebastiani score", "statement": "dssmv_ensemble returns (y-m)' C^-1 (y-m) + log det C, m and C the mean and the sample covariance matrix of the members, and det C is positive. It raises LinAlgError where C is singular, which is always the case with at most as many members as variables. Both implementations agree for two or more variables; for one variable the compiled kernel returns the univariate score and the other implementation raises. An invertible affine map of the space adds log det^2, the order of the members does not matter, and with bias=True the score is proper.", "quantifier": "all dimensions and member counts, all real arrays of all batch shapes, all axes, both implementations, both bias settings", "why_tests_cant": "Numerical tests compare two implementations that call the same linear algebra; positivity of the determinant, propriety and singularity for few members hold for every dimension.", "anchors": ["scoringrules/_dss.py:54-99", "scoringrules/core/dss/_score.py:24-64", "scoringrules/core/dss/_gufuncs.py:21-31"]}
{"id": "C66", "title": "CORP reliability curve and score decomposition", "statement": "corp_reliability returns the sorted forecasts, the outcomes in that order and the unique nondecreasing least-squares fit of the outcomes, which keeps their mean and bounds. The numbers in the diagram satisfy MCB >= 0, 0 <= DSC <= UNC and mean Brier score = MCB - DSC + UNC, with UNC the variance of the outcomes; MCB = 0 exactly for forecasts equal to the fit and DSC = 0 exactly for a constant fit. For distinct forecasts the order of the cases and the sorting algorithm do not matter; for equal forecasts they do. Surplus outcomes are ignored, missing ones raise IndexError.", "quantifier": "all numbers of cases, all real forecasts and outcomes, all sorting algorithms", "why_tests_cant": "Optimality among all nondecreasing sequences, uniqueness and the sign of the components are statements over all inputs; dependence on the order of tied forecasts is not visible in tests with continuous random forecasts.", "anchors": ["scoringrules/visualization/reliability.py:70-71", "scoringrules/visualization/reliability.py:85-87", "scoringrules/visualization/reliability.py:96-110"]}
{"id": "C67", "title": "CRPS of the binomial distribution", "statement": "For a probability below 1 crps_binomial is the integral of (F - 1{obs <= .})^2 for the binomial distribution up to 2 (n + |obs|) 1e-36 (4 (n + 1) - 2 ln (1 - prob)), the effect of the 1e-36 in the library's distribution function; for single numbers, for vectors of observations and probabilities with one number of trials, and for vectors of numbers of trials. For probability 1 the result is wrong and can be negative. Lengths that differ raise ValueError; matrices of observations raise ValueError or are scored with the wrong shape.", "quantifier": "all numbers of trials up to 1e35, all probabilities, all real observations, all lengths", "why_tests_cant": "The deviation caused by the regularisation is below floating-point resolution for common inputs and unbounded near probability 1; no test uses probability 1 or matrices of observations.", "anchors": ["scoringrules/core/crps/_closed.py:62-121", "scoringrules/core/stats.py:194-207", "scoringrules/_crps.py:643-690"]}
{"id": "C68", "title": "CRPS of the hypergeometric distribution with an array of numbers of failures", "statement": "When the array of numbers of failures has the common shape of the arguments, every entry of the result of crps_hypergeometric is the CRPS integral of its hypergeometric distribution, provided that no more successes are possible than there are failures. When it has fewer entries than the common shape, the call raises ValueError although the arguments broadcast.", "quantifier": "all shapes, all population sizes and numbers of draws, all real observations", "why_tests_cant": "The loop flattens, scores and reshapes: agreement of the flattened orders for every shape and rank is a statement about all arrays.", "anchors": ["scoringrules/core/crps/_closed.py:516-542"]}
{"id": "C69", "title": "Properties shared by all closed-form CRPS functions", "statement": "Every call listed in the catalogue (32 functions and parameterisations with admissible parameters) returns the CRPS integral of its distribution; hence the scores are not negative, move by no more than the observation moves, are multiplied by b under a change of units a + b y, are unchanged when observation and forecast change sign, depend on the distribution function only, and the mean score over n observations exceeds the mean crps_ensemble score of the observations used as ensemble by the integral of the squared difference of the distribution functions.", "quantifier": "all calls of the catalogue: all shapes, all finite observations and all admissible parameters", "why_tests_cant": "Relations between scores at different inputs, at all inputs; and the integral relation to the ensemble score involves an improper integral.", "anchors": ["scoringrules/_crps.py", "scoringrules/core/crps/_closed.py"]}
{"id": "C70", "title": "Families that are special cases of each other", "statement": "Two-piece families with equal scales are the symmetric families; exponentialM with location 0, no point mass is exponential; gpd with shape 0 and -1 is exponentialM and uniform; infinite bounds turn the truncated and censored normal, logistic and t scores into the plain ones; generalised truncated-censored scores with the outside probabilities as point masses are the censored ones; beta(1, 1) is uniform; gamma(1, .) is exponential; csg0 without shift is gamma; a normal mixture with equal components is normal; rate and scale, prob and mean are converted consistently.", "quantifier": "all shapes, all finite observations and all admissible parameters", "why_tests_cant": "The functions are implemented by unrelated formulas (incomplete gamma and beta functions, hypergeometric functions, error functions); agreement at all inputs is not testable.", "anchors": ["scoringrules/_crps.py", "scoringrules/core/crps/_closed.py"]}
{"id": "C71", "title": "Identities between different scores", "statement": "The CRPS (ensemble and closed-form) is the integral over all thresholds of the Brier score of the forecast probability of not exceeding the threshold; the threshold-weighted CRPS over adjoining intervals add up to the one over the union, and over the whole line to the CRPS; the ranked probability score is the weighted ensemble CRPS of the category numbers; with two categories RPS is the Brier score and RLS the logarithmic score; the weighted interval score is the quantile CRPS of the interval ends and median; the Dawid-Sebastiani score is twice the normal logarithmic score with the ensemble mean and standard deviation, up to ln(2 pi).", "quantifier": "all shapes, axes, ensemble sizes, estimators, weights, thresholds, finite observations and forecasts", "why_tests_cant": "The scores live in different modules with separate implementations per backend; the identities relate outputs of different functions at all inputs, two of them through an integral over infinitely many calls.", "anchors": ["scoringrules/_crps.py", "scoringrules/_brier.py", "scoringrules/_quantile.py", "scoringrules/_interval.py", "scoringrules/_dss.py", "scoringrules/_logs.py"]}
{"id": "C72", "title": "Properties shared by all closed-form logarithmic scores", "statement": "Every call listed in the catalogue (all functions and parameterisations of logs_* with admissible parameters) returns minus the logarithm of the density at the observation; hence a change of units a + b y changes the score by ln |b|, the scores of the log families at exp y are the scores of the base families at y plus y, and the expected score is smallest for the true density. Special cases agree: two-piece with equal scales, exponential2, gpd with shape 0 and -1, infinite bounds, beta(1, 1), gamma(1, .), mixtures of equal components, rate and scale, prob and mean; the ensemble score is the mixture score; binomial with n = 1 is log_score.", "quantifier": "all calls of the catalogue: all shapes, all finite observations and all admissible parameters", "why_tests_cant": "Relations between scores of different functions at all inputs; propriety involves improper integrals over all observations.", "anchors": ["scoringrules/_logs.py", "scoringrules/core/logarithmic.py", "scoringrules/_brier.py"]}
{"id": "C73", "title": "Factorials, binomial coefficients and discrete log scores on the jax and torch backends", "statement": "The factorial and, on torch, the gamma and beta functions agree with scipy's. comb, computed as a quotient of factorials rounded down, is the binomial coefficient for naturals k <= n; outside it is 0 on torch and NaN on jax. The Poisson log score equals numpy's at every observation; the binomial and hypergeometric ones at every integer observation on torch and at every possible observation on jax, where impossible observations score NaN instead of infinity. The negative binomial log score equals numpy's for integer sizes; for other sizes its probabilities are rounded down, sum to less than one, and the score is larger than numpy's. An arbitrarily small rounding error in n! makes comb too small by one.", "quantifier": "both backends, all shapes, all observations, all admissible parameters", "why_tests_cant": "The tests of the negative binomial score are skipped for jax and torch ('investigate why results are different'); agreement at all parameters needs the recurrence of the gamma function.", "anchors": ["scoringrules/backend/jax.py:262-272", "scoringrules/backend/torch.py:254-289", "scoringrules/core/stats.py:75-256", "scoringrules/core/logarithmic.py:85-372"]}
{"id": "C74", "title": "Missing and infinite arguments of the parametric scores", "statement": "A NaN in the observation or in any parameter makes every one of these CRPS functions return NaN at that position, and makes the log scores return NaN or +inf, never a finite score; logs_uniform is the exception and returns the score of an observation inside the interval. An infinite observation scores +inf for the normal, Laplace, exponential, two-piece exponential and uniform CRPS and for the normal, Laplace, log-Laplace, log-logistic, lognormal, exponential, two-piece and truncated log scores. At -inf the logistic, lognormal and log-logistic CRPS and the logistic log score, and at +inf the Poisson, negative binomial and two-piece normal CRPS, are NaN.", "quantifier": "all shapes and positions, any subset of NaN arguments with arbitrary other arguments; infinite observations with all admissible parameters", "why_tests_cant": "A test fixes which argument is NaN and the values of the others; special values of the others (zero scale, infinite bounds, shape 0) select other branches, and a branch may discard the NaN.", "anchors": ["scoringrules/core/crps/_closed.py", "scoringrules/core/logarithmic.py", "scoringrules/core/stats.py"]}
{"id": "C75", "title": "Stability of the ensemble, quantile and interval scores", "statement": "If the observation moves by at most dy and every ensemble member by at most dx, then crps_ensemble moves by at most dy + 2 dx with every estimator, with and without ensemble weights (dy + 3 dx for the weighted pwm estimator), on both implementations; es_ensemble satisfies the same bound with Euclidean distances. quantile_score moves by at most max(alpha, 1 - alpha) times the moves of its arguments and interval_score by at most (1 + 2/alpha) times the moves of the bounds plus 4/alpha times the move of the observation.", "quantifier": "all shapes, axes, ensemble sizes and dimensions, all finite arguments, all estimators, both implementations, any non-negative weights with a positive total", "why_tests_cant": "A bound on how far a score can move holds for pairs of inputs; a wrong factor or a branch that jumps is only visible at the pairs that come close to the bound.", "anchors": ["scoringrules/core/crps/_approx.py", "scoringrules/core/crps/_gufuncs.py", "scoringrules/core/energy/_score.py", "scoringrules/core/energy/_gufuncs.py", "scoringrules/_quantile.py", "scoringrules/_interval.py"]}
{"id": "C76", "title": "Convexity in the observation and pooling of ensembles", "statement": "crps_ensemble (all estimators, weighted or not) and es_ensemble are convex functions of the observation. With the estimators nrg, qd and int, and the energy score with nrg, the score of two pooled ensembles is at most the mean of their scores weighted by their sizes, or by their total weights. The fair estimator does not satisfy the pooling inequality.", "quantifier": "all shapes, axes, sizes of the two ensembles and dimensions, all finite arguments, all weights with positive totals", "why_tests_cant": "The inequality compares three calls with ensembles of different sizes; tests compare a call with a reference value.", "anchors": ["scoringrules/_crps.py", "scoringrules/_energy.py", "scoringrules/core/crps/_approx.py", "scoringrules/core/energy/_score.py"]}
{"id": "C77", "title": "Array methods of the torch and jax backends", "statement": "On torch, expand_dims with a tuple of distinct axes in range inserts axes of length one exactly there and keeps the elements, as numpy does; otherwise it raises StopIteration. The tuples used by the scores give what the scores expect. On torch and jax, apply_along_axis along the last axis applies a function that vmap can trace to the vectors of the array, as numpy does. Along other axes it does not, and torch's fallback for functions that vmap cannot trace applies the function to the wrong slices.", "quantifier": "all arrays and tuples of axes (expand_dims); all arrays without empty axes and all functions from vectors to numbers (apply_along_axis)", "why_tests_cant": "The tests use one tuple of axes and weight functions that vmap can trace; the wrong branches return arrays of a plausible shape.", "anchors": ["scoringrules/backend/torch.py", "scoringrules/backend/jax.py", "scoringrules/core/utils.py"]}
{"id": "C78", "title": "Bootstrap band of the reliability diagram", "statement": "For any resampled indices and any 0/1 outcomes the two ends of the band are, at each forecast, the alpha and (1 - alpha) quantiles over the rounds of the piecewise linear curves through the sorted resampled forecasts and the isotonic fits of their outcomes. For alpha <= 1/2 the ends are ordered and lie in [0, 1] wherever some resample covers the forecast, and are NaN elsewhere. They are nondecreasing in the forecast as long as the covering resamples do not change, swap when alpha is replaced by 1 - alpha, and coincide at alpha = 1/2. A drawn probability outside [0, 1] and a level outside [0, 1] give ValueError, an unknown band type UnboundLocalError.", "quantifier": "all numbers of forecasts and rounds >= 1, all forecasts and recalibrated values, all draws, all levels", "why_tests_cant": "The band is random and only drawn, so tests at most check that a figure is produced.", "anchors": ["scoringrules/visualization/reliability.py"]}
{"id": "C79", "title": "NaN policy for multivariate ensembles", "statement": "apply_nan_policy_ens_mv with 'omit' returns the mask of the members that have a NaN in some variable and the forecasts with exactly those members set to 0 in all variables; the result has no NaN and a second application changes nothing. 'raise' gives ValueError exactly if the forecasts or the observations have a NaN and otherwise returns the arrays as they are. Every other policy string, known or not, returns the arrays unchecked, although the univariate helper rejects unknown strings. 'omit' on forecasts without axes gives AxisError.", "quantifier": "all arrays, shapes, numbers of variables including 0, policy strings", "why_tests_cant": "No public function and no test calls this helper.", "anchors": ["scoringrules/core/utils.py"]}
{"id": "C80", "title": "Propriety of the threshold-, outcome-weighted and vertically re-scaled scores", "statement": "Over any batch of observations, each scored with the same ensemble, the total of the weighted score is smallest for the ensemble that consists of the observations themselves: twcrps (nrg, qd, int), owcrps, vrcrps, and the tw, ow and vr versions of the energy, Gaussian kernel and variogram scores, for every chaining function and every nonnegative weight function (for ow: ensembles with positive total weight).", "quantifier": "all batch and ensemble sizes >= 1, dimensions >= 1, observations, ensembles, chaining and weight functions, pair weights >= 0, orders p > 0", "why_tests_cant": "Propriety compares the score of the true distribution with those of all other ensembles; a test compares finitely many.", "anchors": ["scoringrules/_crps.py", "scoringrules/_energy.py", "scoringrules/_kernels.py", "scoringrules/_variogram.py", "scoringrules/core/crps/_approx.py", "scoringrules/core/energy/_score.py"]}
{"id": "C81", "title": "Rounding in the quantile, interval and Brier scores", "statement": "Computed in binary64 with rounding to nearest even after every operation: the quantile score is never negative, zero for a perfect forecast and never decreases as the forecast moves away from the observation; the Brier score of a probability stays in [0, 1], is exact at 0 and 1 and monotone in the distance; the interval score is the rounded width inside the interval and never smaller outside. Away from underflow their relative errors are at most 3, 3 and 4 units of rounding (1 + 2^-53).", "quantifier": "all binary64 observations, forecasts, bounds and levels whose results do not overflow; error bounds for distances that are 0 or at least 2^-900 (Brier 2^-500)", "why_tests_cant": "Rounding depends on all 53 bits of each argument; tests compare a few values with a tolerance.", "anchors": ["scoringrules/_quantile.py", "scoringrules/core/interval/_score.py", "scoringrules/core/brier.py"]}
{"id": "C82", "title": "Rounding in the ensemble CRPS", "statement": "In binary64 with rounding to nearest even after every operation and any order of summation: qd (the default) has a relative error of at most h + 3 roundings in the array implementation (h the height of the summation tree) and M + 4 in the numba one, and is never negative even under underflow; nrg and fair have forward errors of that kind for each of their two terms; nrg is not negative if M (h1 + h2 + 5) <= 2^53 (numba: M <= 200000), but can be negative where intermediate results underflow. Without rounding the definitions are the exact scores and the kernels of the model.", "quantifier": "all ensemble sizes up to 2^26, binary64 observations and members whose differences are 0 or at least 2^-900 (where stated), all orders of summation, no overflow", "why_tests_cant": "The order of summation of np.mean depends on size and memory layout; tests compare a few ensembles with tolerance.", "anchors": ["scoringrules/core/crps/_approx.py", "scoringrules/core/crps/_gufuncs.py"]}
{"id": "C83", "title": "Rounding in the ensemble CRPS with underflow, and perfect ensembles", "statement": "In binary64 with rounding to nearest even after every operation, any order of summation and underflow included: nrg, fair, akr and akr_circperm have an absolute error of a few roundings of the sum of their two terms plus at most 3 errors of 2^-1075; for pwm the error is relative to the members themselves. If all members equal the observation, nrg, fair, qd, akr and akr_circperm return exactly 0, but pwm need not: four members and an observation of 2^53 - 6 get the score -1. Without rounding the definitions are the exact scores and the kernels of the model.", "quantifier": "all ensemble sizes up to 2^26, all binary64 members and observations without overflow, all orders of summation", "why_tests_cant": "Rounding depends on all bits of all members and on the order of summation; tests use ensembles of moderate values with tolerance.", "anchors": ["scoringrules/core/crps/_approx.py", "scoringrules/core/crps/_gufuncs.py"]}
{"id": "C84", "title": "The CRPS as a squared distance: triangle inequalities across ensembles and closed forms", "statement": "For any two calls of crps_ensemble (nrg, qd, int, with or without weights, either implementation) or of a closed-form crps_* with the same observation, the integral d of the squared difference of their distribution functions exists and the square roots of the scores differ by at most sqrt d; hence the score of an ensemble differs from the score of the distribution it represents by at most sqrt d (2 sqrt f + sqrt d), and by at most twice the area between the distribution functions. For two ensembles d is their energy distance. Moving the observation by h changes the square root of a score by at most sqrt h.", "quantifier": "all shapes, ensemble sizes, weights, members, observations and admissible parameters of the closed forms", "why_tests_cant": "Tests compare an ensemble score and a closed form for one large random sample with a loose tolerance; no finite sample gives the bound.", "anchors": ["scoringrules/_crps.py", "scoringrules/core/crps/_approx.py", "scoringrules/core/crps/_gufuncs.py", "scoringrules/core/crps/_closed.py"]}
{"id": "C85", "title": "Rounding of the integral form of the ensemble CRPS", "statement": "In binary64 with rounding to nearest even after every operation and any order of summation: the estimator int has a relative error of at most 8 (M - 1) + 5 roundings plus those of the sum in the array implementation, and of at most 8 M (M - 1) + M + 6 roundings in the numba kernel, which accumulates the forecast distribution; both are never negative, underflow included, and exactly 0 if all members equal the observation. Without rounding the definitions are the exact score and the kernel of the model.", "quantifier": "all ensemble sizes up to 2^26 (2^25 for the kernel), all ascending binary64 members and observations without overflow, differences 0 or at least 2^-900 for the relative errors", "why_tests_cant": "Rounding depends on all bits of all members and on the order of summation; tests use ensembles of moderate values with tolerance.", "anchors": ["scoringrules/core/crps/_approx.py", "scoringrules/core/crps/_gufuncs.py"]}
{"id": "C86", "title": "Threshold-weighted CRPS on adjacent and nested ranges", "statement": "The threshold-weighted ensemble CRPS of two adjacent ranges add up to that of their union, for every estimator, with and without weights; in particular those below and above a threshold add up to the CRPS. A wider range never gives a smaller score for every estimator without weights and for nrg, qd and int with weights; with weights, fair can decrease, to a negative value. Without weights the score is between 0 and the length of the range.", "quantifier": "all backends, estimators, shapes, real members, observations and weights, all finite or infinite thresholds a <= b <= c", "why_tests_cant": "Sums over ranges hold for all thresholds, also those between the members and at a member; tests compare one pair of thresholds with stored values.", "anchors": ["scoringrules/_crps.py", "scoringrules/core/crps/_approx.py", "scoringrules/core/crps/_approx_w.py", "scoringrules/core/crps/_gufuncs.py", "scoringrules/core/crps/_gufuncs_w.py"]}
{"id": "C87", "title": "Sampling averages of the estimators of the ensemble scores", "statement": "The average over all samples of size M > 1, drawn with replacement from a finite population, of the estimators fair, pwm, akr and akr_circperm of the (threshold-weighted) CRPS, and of fair, akr and akr_circperm of the energy score and of both kernel scores, and of fair of the variogram score, equals the score of the population itself. The average of nrg exceeds it by the mean distance of two values (kernel score: one minus the mean kernel value) divided by 2 M.", "quantifier": "all finite populations of real values or vectors, all observations, all sample sizes M > 1, both implementations", "why_tests_cant": "An average over N^M samples is not computed by tests; unbiasedness fails by an O(1/M) term that a tolerance hides.", "anchors": ["scoringrules/core/crps/_approx.py", "scoringrules/core/crps/_gufuncs.py", "scoringrules/core/energy/_score.py", "scoringrules/core/energy/_gufuncs.py", "scoringrules/core/kernels/_approx.py", "scoringrules/core/kernels/_gufuncs.py", "scoringrules/core/variogram/_score.py", "scoringrules/core/variogram/_gufuncs.py"]}
{"id": "C88", "title": "Exact scores depend only on the forecast distribution", "statement": "If two weighted ensembles, of any sizes, describe the same discrete distribution at every grid point, then the CRPS and threshold-weighted CRPS (nrg, qd, int), the energy score, both kernel scores and the variogram score (nrg) return the same values; also for a weighted against an unweighted ensemble. Multiplying the weights by a number, deleting members of weight zero and replacing integer weights by repeated members in any order keep the distribution.", "quantifier": "all weighted ensembles and observations, all sizes, all batch shapes and axis positions, both implementations", "why_tests_cant": "Equality over all pairs of ensembles with the same distribution; tests check a single duplicated member at most.", "anchors": ["scoringrules/_crps.py", "scoringrules/_energy.py", "scoringrules/_kernels.py", "scoringrules/_variogram.py", "scoringrules/core/crps/_approx_w.py", "scoringrules/core/crps/_gufuncs_w.py", "scoringrules/core/energy/_score_w.py", "scoringrules/core/kernels/_approx_w.py", "scoringrules/core/variogram/_score_w.py"]}
{"id": "C89", "title": "Rounding errors of the energy score", "statement": "In IEEE binary64 arithmetic, away from underflow: np.linalg.norm along an axis has a relative error of at most h / 2 + 2 roundings, h the height of its order of summation; the computed energy score differs from the exact one by at most the given multiples of the mean error and of half the spread, for nrg, fair, akr and akr_circperm, for the array implementation with any orders of summation and for the numba kernels with any norm of known relative error; the computed nrg score is not negative; members equal to the observation give exactly zero.", "quantifier": "all ensembles of binary64 vectors of up to 2^26 members, all dimensions, all orders of summation", "why_tests_cant": "Rounding errors depend on sizes and orders of summation; tests compare a few values up to a tolerance.", "anchors": ["scoringrules/core/energy/_score.py", "scoringrules/core/energy/_gufuncs.py", "scoringrules/backend/numpy.py"]}
{"id": "C90", "title": "Rounding of crps_quantile and of the weighted interval, ranked probability and log scores", "statement": "In IEEE binary64 arithmetic: crps_quantile and weighted_interval_score have relative errors of h + 4 and h + 7 roundings (h the height of the order of summation; numba Q + 4 and K + 7), are never negative and zero for a perfect forecast, and crps_quantile never decreases when quantiles move away from the observation; rps_score is the score of the computed cumulative probabilities up to h + 3 roundings, never negative, and zero for a perfect forecast; log_score is off by at most 2^-52 if the event does not happen and 2^-52 / f if an event of probability f >= 2^-51 happens, but infinite for every probability below 2^-54.", "quantifier": "all binary64 arguments without overflow, all orders of summation; up to 2^26 quantiles, intervals or categories; relative errors away from underflow", "why_tests_cant": "Rounding depends on all bits of all arguments and on the order of summation; tests compare a few values up to a tolerance and use no tiny probabilities.", "anchors": ["scoringrules/core/crps/_approx.py", "scoringrules/core/crps/_gufuncs.py", "scoringrules/core/interval/_score.py", "scoringrules/core/interval/_gufunc.py", "scoringrules/core/brier.py"]}
{"id": "C91", "title": "The kernel scores as squared distances, and their stability", "statement": "gksuv_ensemble and gksmv_ensemble with the estimator nrg return half the squared distance (maximum mean discrepancy of the Gaussian kernel) of the forecast from the observation; the distance satisfies the triangle inequality, so the square roots of the scores of two forecasts differ by at most the distance of the forecasts over sqrt 2, and the square root of a score moves by at most |y - y'| / sqrt 2 with the observation. With every estimator the score moves by at most (dy + 2 dx) / sqrt e when the observation moves by dy and members by at most dx, and this constant is the best possible; it is at most 1 - exp(-R^2/2) if all members are within R of the observation and at least 1/2 - exp(-R^2/2) if none is closer.", "quantifier": "all shapes, axes, dimensions and ensemble sizes, all finite arguments, with and without ensemble weights, both implementations; all estimators for the bounds", "why_tests_cant": "Bounds between two calls hold for pairs of inputs; a wrong bandwidth or factor shows only where they are nearly attained.", "anchors": ["scoringrules/core/kernels/_approx.py", "scoringrules/core/kernels/_approx_w.py", "scoringrules/core/kernels/_gufuncs.py", "scoringrules/core/kernels/_gufuncs_w.py"]}
{"id": "C92", "title": "The energy, variogram and ranked probability scores as squared distances", "statement": "es_ensemble with the estimator nrg returns half the generalised energy distance of the forecast from the observation, whose square root satisfies the triangle inequality; hence the square roots of the energy scores of two forecasts differ by at most the distance of the forecasts, and the square root of an energy score moves by at most the square root of the distance of two observations. The square roots of the variogram scores of two forecasts differ by at most the distance of their expected variograms, and for orders p <= 1 the square root moves by at most ((2 dy)^p + (2 dx)^p) sqrt(sum of pair weights) when coordinates of the observation and the members move by at most dy and dx. The square roots of two ranked probability scores differ by at most the distance of the cumulative probabilities plus sqrt |c - c'|.", "quantifier": "all shapes, axes, dimensions and ensemble sizes, all finite arguments, with and without ensemble weights, both implementations; non-negative pair weights; all categories from 1", "why_tests_cant": "Inequalities between two calls hold for pairs of inputs of different sizes; tests compare single values.", "anchors": ["scoringrules/core/energy/_score.py", "scoringrules/core/energy/_gufuncs.py", "scoringrules/core/variogram/_score.py", "scoringrules/core/variogram/_gufuncs.py", "scoringrules/core/brier.py"]}
{"id": "C93", "title": "Rounding of the weighted ensemble CRPS and of the weighted energy score", "statement": "In IEEE binary64 arithmetic: the renormalised ensemble weights are off by at most h + 2 roundings (h the height of the order of summation) and add up to one up to as many; the weighted CRPS and the weighted energy score (nrg, akr, akr_circperm) computed from them differ from the exact scores by at most a stated number of roundings of the weighted error plus a stated number of roundings of half the weighted spread; nrg is not negative unless a positive normalised weight is below the number of roundings times 2^-53; the scores are exactly zero if all members equal the observation, whatever the weights.", "quantifier": "all binary64 ensembles of up to 2^26 members and observations without overflow and away from underflow, all weights that are zero or between 2^-100 and 2^100, all orders of summation, any norm of given accuracy; both implementations", "why_tests_cant": "Rounding depends on all bits of all arguments and on the order of summation; tests compare a few values up to a tolerance.", "anchors": ["scoringrules/core/utils.py", "scoringrules/core/crps/_approx_w.py", "scoringrules/core/crps/_gufuncs_w.py", "scoringrules/core/energy/_score_w.py", "scoringrules/core/energy/_gufuncs_w.py"]}
{"id": "C94", "title": "Rounding of the fair estimators for weighted ensembles", "statement": "In IEEE binary64 arithmetic: the constant 1 - sum(w * w) of the fair estimators is off by at most a stated number of roundings of one; as long as it exceeds that error, the weighted fair CRPS and energy score are finite and differ from the exact ones by at most a stated number of roundings of the weighted error plus the spread term times an explicit factor in which the error of the constant is divided by the constant; if no normalised weight exceeds one half, the relative error of the constant is at most four times the number of roundings times 2^-53. If the constant is computed as zero, the array implementations and the numba energy score return minus infinity for an ensemble with spread and the numba CRPS returns NaN, although the exact score is finite: this happens for two members with weights 1 and 2^-60.", "quantifier": "all binary64 ensembles of up to 2^26 members and observations without overflow and away from underflow, all weights that are zero or between 2^-100 and 2^100, all orders of summation, any norm of given accuracy; both implementations", "why_tests_cant": "The loss of the constant needs weights of very different size; tests use weights of similar size and compare a few values up to a tolerance.", "anchors": ["scoringrules/core/crps/_approx_w.py", "scoringrules/core/crps/_gufuncs_w.py", "scoringrules/core/energy/_score_w.py", "scoringrules/core/energy/_gufuncs_w.py"]}
{"id": "C95", "title": "Rounding of the quantile decomposition for weighted ensembles", "statement": "In IEEE binary64 arithmetic, with the members in ascending order, the weighted CRPS of the estimator qd differs from the exact CRPS of the weighted ensemble by at most a stated number of roundings of five times the weighted mean absolute error, in the array implementation for every order of the sums and of the cumulative sums and in the numba kernel; the two therefore differ by at most the sum of the bounds. If all members equal the observation both return exactly zero. The computed score can be negative: this happens for the weights 1, 6, 3, 3, 2^-60, whose computed normalised values add up to 1 + 2^-52.", "quantifier": "all binary64 ensembles of up to 2^26 members and observations without overflow and away from underflow, all weights that are zero or between 2^-100 and 2^100, all orders of summation; both implementations", "why_tests_cant": "A bound for every ensemble and every order of summation is not a finite set of values, and the negative score is about 2^-115, below any tolerance used in tests.", "anchors": ["scoringrules/core/crps/_approx_w.py", "scoringrules/core/crps/_gufuncs_w.py", "scoringrules/core/utils.py"]}
{"id": "C96", "title": "Rounding of the probability weighted moments for weighted ensembles", "statement": "In IEEE binary64 arithmetic: as long as the constant 1 - sum(w * w) exceeds the error with which it is computed, the weighted CRPS of the estimator pwm is finite in both implementations and differs from the exact value of its formula by at most a stated number of roundings of the weighted error plus the weighted size of the members times an explicit factor, a term for the error of the constant and a number of smallest positive numbers for underflow. If the constant is computed as zero the result is minus infinity, plus infinity or NaN according to the sign of the computed second moment; this happens for the positive weights 1 and 2^-60.", "quantifier": "all binary64 ensembles of up to 2^26 members and observations without overflow whose differences are away from underflow, all weights that are zero or between 2^-100 and 2^100, all orders of summation; both implementations", "why_tests_cant": "The loss of the constant needs weights of very different size; a bound for every ensemble is not a finite set of values.", "anchors": ["scoringrules/core/crps/_approx_w.py", "scoringrules/core/crps/_gufuncs_w.py", "scoringrules/core/utils.py"]}
{"id": "C97", "title": "Rounding of the integral form of the CRPS for weighted ensembles", "statement": "In IEEE binary64 arithmetic, for members in ascending order, the weighted CRPS of the estimator int differs from the exact CRPS of the weighted ensemble by at most a stated number of roundings of four times the distance between the smallest and the largest of the members and the observation, in both implementations. The array implementation sorts the computed cumulative weights, and sorting moves no entry further than the largest error of the entries. The computed score is never negative and is exactly zero if every member equals the observation. No bound relative to the score holds: with the weights 1, 6, 3, 3 and 2^-60 the computed score is more than a million times the exact one.", "quantifier": "all binary64 ensembles of up to 2^26 members and observations without overflow whose differences are away from underflow, all weights that are zero or between 2^-100 and 2^100, all orders of summation; both implementations", "why_tests_cant": "The loss of all relative accuracy needs weights of very different size; a bound for every ensemble is not a finite set of values.", "anchors": ["scoringrules/core/crps/_approx_w.py", "scoringrules/core/crps/_gufuncs_w.py", "scoringrules/core/utils.py"]}
{"id": "C98", "title": "Rounding of the outcome-weighted ensemble CRPS", "statement": "In IEEE binary64 arithmetic the outcome-weighted CRPS differs from the weight of the observation times the exact CRPS of the ensemble weighted by the normalised weights by at most a stated number of roundings of twice the weighted mean distance to the observation, in both implementations. It is exactly zero if every member equals the observation. The computed score can be negative although the exact score is positive: with the members 0 and 1, the observation 0 and the weights 2^27 + 1 and 2^-60 both implementations return -2^-140.", "quantifier": "all binary64 ensembles of up to 2^26 members and observations without overflow whose differences are away from underflow, all weights that are zero or between 2^-100 and 2^100 and not all zero, all orders of summation; both implementations, without ensemble weights", "why_tests_cant": "The sign is lost only for special weights, whose squares are not representable; a bound for every ensemble is not a finite set of values.", "anchors": ["scoringrules/core/crps/_approx.py", "scoringrules/core/crps/_gufuncs.py"]}
{"id": "C99", "title": "Rounding of the vertically re-scaled ensemble CRPS", "statement": "In IEEE binary64 arithmetic the vertically re-scaled CRPS differs from the exact one by at most a stated number of roundings of the sum of the absolute values of its parts, in both implementations. If every member equals the observation both implementations return the same value, which is zero if the computed mean of the weights is the weight of the observation. A perfect forecast can nevertheless get a negative score: with three members and the observation equal to 7 and all weights equal to 7319843605468574 both implementations return -8, although the exact score is zero.", "quantifier": "all binary64 ensembles of up to 2^26 members and observations without overflow whose values and differences are away from underflow, all weights that are zero or between 2^-100 and 2^100, all orders of summation; both implementations, without ensemble weights", "why_tests_cant": "The means of equal numbers are rounded to other numbers only for some weights, and the signs of two such errors must differ; a bound for every ensemble is not a finite set of values.", "anchors": ["scoringrules/core/crps/_approx.py", "scoringrules/core/crps/_gufuncs.py"]}
{"id": "C100", "title": "Rounding of the outcome-weighted and the vertically re-scaled energy score", "statement": "In IEEE binary64 arithmetic the outcome-weighted and the vertically re-scaled energy score differ from the exact ones by at most a stated number of roundings of the sums of the absolute values of their parts, in both implementations. If every member equals the observation the outcome-weighted score is exactly zero, and so is the vertically re-scaled one if the computed mean of the weights is the weight of the observation. Both scores can nevertheless be negative: the outcome-weighted one although the exact score is positive, and the vertically re-scaled one for a perfect forecast.", "quantifier": "all binary64 ensembles of up to 2^26 vectors of any dimension and observations without overflow whose coordinates and differences are away from underflow, all weights that are zero or between 2^-100 and 2^100, all orders of summation, all computations of the norm with a stated relative error; both implementations, without ensemble weights", "why_tests_cant": "The errors of the norms, of the weights and of the sums combine differently in the two implementations, and the sign of the result changes only for few inputs; a bound for every ensemble is not a finite set of values.", "anchors": ["scoringrules/core/energy/_score.py", "scoringrules/core/energy/_gufuncs.py"]}
{"id": "C101", "title": "Rounding of the variogram score", "statement": "In IEEE binary64 arithmetic the variogram score differs from the exact one by at most a stated number of roundings of the weighted sum of squares with sums instead of differences, in both implementations, for every order p whose powers are computed with a stated relative error; the orders 1/2, 1 and 2 are such. The computed score is never negative, and it is zero for a single member equal to the observation. With three members a perfect forecast can get a positive score.", "quantifier": "all binary64 ensembles of up to 2^26 vectors of any dimension and observations without overflow whose differences of coordinates are zero or at least 2^-e, all orders p > 0 with e times the next integer of p at most 340, all weights that are zero or between 2^-100 and 2^100, all orders of summation, all computations of the power with a stated relative error; both implementations, estimator nrg without ensemble weights", "why_tests_cant": "The difference of the variogram of the observation and the mean variogram cancels, so the error depends on the size of both and not on the score; a bound for every ensemble and order is not a finite set of values, and the positive score of a perfect forecast appears only for few inputs.", "anchors": ["scoringrules/core/variogram/_score.py", "scoringrules/core/variogram/_gufuncs.py"]}
{"id": "C102", "title": "Rounding of the fair variogram score", "statement": "In IEEE binary64 arithmetic the fair estimator of the variogram score differs from the exact one by at most a stated number of roundings of the estimator with sums instead of differences and three times the smallest rounding error, in both implementations, for every order p whose powers are computed with a stated relative error. If all members are equal the computed score is not negative, and if they equal the observation it is exactly zero, unlike that of the estimator nrg.", "quantifier": "all binary64 ensembles of 2 to 2^26 vectors of any dimension and observations without overflow whose differences of coordinates are zero or at least 2^-e, all orders p > 0 with e times the next integer of p at most 340, all weights that are zero or between 2^-100 and 2^100, all orders of summation, all computations of the power with a stated relative error; both implementations, estimator fair without ensemble weights", "why_tests_cant": "Both parts of the estimator contain differences of variograms that cancel, and the parts cancel each other; the two implementations add the pairs of members in different orders and scale them at different places. A bound for every ensemble and order is not a finite set of values.", "anchors": ["scoringrules/core/variogram/_score.py", "scoringrules/core/variogram/_gufuncs.py"]}
{"id": "C103", "title": "Rounding of the outcome-weighted variogram score", "statement": "In IEEE binary64 arithmetic the outcome-weighted variogram score differs from the exact one by at most a stated number of roundings of the score with sums instead of differences, in both implementations, for every order p whose powers are computed with a stated relative error. If every member equals the observation the computed score is exactly zero, whatever the powers and the weights.", "quantifier": "all binary64 ensembles of up to 2^26 vectors of any dimension and observations without overflow whose differences of coordinates are zero or at least 2^-e, all orders p > 0 with e times the next integer of p at most 97, all weights of pairs, of members and of the observation that are zero or between 2^-100 and 2^100 with a positive sum of the weights of the members, all orders of summation, all computations of the power with a stated relative error; both implementations, without ensemble weights", "why_tests_cant": "The array implementation weights the sums of squares and the numba kernel every single square, so the two round differently at every term; a bound for every ensemble, order and weighting is not a finite set of values.", "anchors": ["scoringrules/core/variogram/_score.py", "scoringrules/core/variogram/_gufuncs.py"]}
