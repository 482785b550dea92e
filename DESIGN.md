# Formal model of scoringrules in Coq 8.16.1

## Trusted base

* Coq's kernel (8.16.1).
* The standard-library axioms listed by `Print Assumptions` under each property
  theorem. The only ones expected are those of the classical reals and functional
  extensionality: `ClassicalDedekindReals.sig_forall_dec`,
  `ClassicalDedekindReals.sig_not_dec`,
  `FunctionalExtensionality.functional_extensionality_dep`, and
  `Classical_Prop.classic` (through Coquelicot). No axiom of our own.
* The reading of the Python source into Gallina. Each model definition cites file
  and lines. The code is never run here.

## What is modelled

* **Values** (`Num.v`): `num = Fin r | PInf | NInf | NaN` with `r : R`. Operations follow
  IEEE-754 on infinities and NaN (comparison with NaN is false, `0*inf = NaN`,
  `x/0 = ±inf`, `0/0 = NaN`), and are exact on finite values. *Not modelled*: rounding,
  overflow to infinity of finite computations, the sign of zero (zero counts as +0 as a
  divisor), float32, integer overflow.
* **Arrays** (`Arr.v`): a dtype tag, a shape and an index function. Shapes and indices
  are stored **last axis first**, so that `axis=-1` is the head of the list and
  broadcasting aligns heads. Broadcasting, reductions, `[..., None]`, `moveaxis`, `sort`,
  `argsort`, `take_along_axis`, `roll`, `concatenate`, slicing and `where` are modelled.
  Failure (`ValueError`, `AxisError`, …) is a value `Err e` of type `res`.
  dtype is `int` or `float`; it matters where the code casts. Results of comparisons are 0/1 integer arrays.
* **Sorting**: `np.argsort` is not stable, so the model takes *any* function that returns a sorting
  permutation (NaN last); theorems quantify over it.
* **numba generalized ufuncs**: each kernel is a loop (fold) over rows; the loop dimensions
  broadcast; the lazy wrapper allocates the output with the dtype and shape of its first
  argument.
* **Backends**: `backend="numba"` selects the gufunc path; every other backend selects the array path, to
  which numpy semantics is given. Of jax and torch only the special functions that their backend files
  compute by other formulas are modelled (`M_backend.v`).
* **User callbacks** (`w_func`, `v_func`): arbitrary element-wise (univariate) or row-wise
  (multivariate) functions.

* **numba compilation**: the kernels without explicit signatures are compiled when first
  called; where that fails (a scalar is indexed, `np.linalg.norm` of integers) the model
  raises `NumbaError`. The model is the first call in a process: an earlier call may have
  compiled a kernel whose types also fit later arguments. Kernels with explicit float
  signatures refuse an output of integer type (`TypeError`).

### Coverage

| model file | source |
|---|---|
| `M_utils.v` | `core/utils.py`: shape, weight and axis checks, NaN policies, weight and chaining functions (univariate) |
| `M_crps.v` | `_crps.py`: crps_ensemble, twcrps, owcrps, vrcrps, crps_quantile; `core/crps/_approx.py`, `_approx_w.py`, `_gufuncs.py`, `_gufuncs_w.py` |
| `M_prob.v` | `_brier.py`, `core/brier.py`, `_interval.py`, `core/interval/*`, `_quantile.py` |
| `M_mv.v` | `core/utils.py`: multivariate checks, weights and gufunc wrappers |
| `M_energy.v` | `_energy.py`, `core/energy/*` |
| `M_vario.v` | `_variogram.py`, `core/variogram/*` |
| `M_kernels.v` | `_kernels.py`, `core/kernels/*` |
| `M_special.v` | the functions of scipy.special used by the library, by their defining integrals and series |
| `M_stats.v` | `core/stats.py` |
| `M_closed.v` | `core/crps/_closed.py` and the parametric scores of `_crps.py` |
| `M_logs.v` | `core/logarithmic.py`, `_logs.py` |
| `M_registry.v` | `backend/registry.py` |
| `M_mat.v`, `M_dssmv.v` | `np.linalg.inv`, `np.linalg.det`; `_dss.py`: dssmv_ensemble, `core/dss` multivariate part |
| `M_binom.v` | `core/crps/_closed.py`: binomial, the loop of hypergeometric; `crps_binomial`, `crps_hypergeometric` with an array of failures |
| `M_backend.v` | `backend/jax.py`, `backend/torch.py`: factorial, comb, (torch) gamma, beta, gammauinc; the discrete log scores on these backends |
| `M_torch.v` | `backend/torch.py` expand_dims (tuple of axes) and apply_along_axis, `backend/jax.py` apply_along_axis |
| `M_corp.v` | `visualization/reliability.py`: corp_reliability, corp_score_decomposition, the numbers of reliability_diagram |
| `M_round.v` | the quantile, interval and Brier scores and the ensemble CRPS (`nrg`, `fair`, `qd`) once more, over the reals with a rounding after every operation (Flocq's `round`, binary64, nearest even, no overflow) and any order of summation |
| `M_round2.v` | the same for the estimators `pwm`, `akr` and `akr_circperm` |
| `M_round3.v` | the same for the estimator `int` |
| `M_round4.v` | the same for the energy score (`nrg`, `fair`, `akr`, `akr_circperm`); the norm of numba is a parameter |
| `M_round5.v` | the same for `crps_quantile`, the weighted interval score, the ranked probability score and (up to the logarithm itself) the log score |
| `M_round6.v` | the same for the renormalisation of ensemble weights and the weighted CRPS and energy score (`nrg`, `akr`, `akr_circperm`) |
| `M_round7.v` | the same for the weighted fair CRPS and energy score, with values in `num` because the constant may be computed as zero |
| `M_round8.v` | the same for the weighted CRPS, estimator `qd` |
| `M_round9.v` | the same for the weighted CRPS, estimator `pwm`, with values in `num` as in `M_round7.v` |
| `M_round10.v` | the same for the weighted CRPS, estimator `int` |
| `M_round11.v` | the same for the outcome-weighted CRPS without ensemble weights |
| `M_round12.v` | the same for the vertically re-scaled CRPS without ensemble weights |
| `M_round13.v` | the same for the outcome-weighted and the vertically re-scaled energy score without ensemble weights |
| `M_round14.v` | the same for the variogram score, estimator nrg, without ensemble weights; the power is a parameter |
| `M_round15.v` | the same for the variogram score, estimator fair, with at least two members |
| `M_round16.v` | the same for the outcome-weighted variogram score without ensemble weights |
| `M_nanmv.v` | `core/utils.py` `apply_nan_policy_ens_mv` |
| `M_band.v` | `visualization/reliability.py` `_uncertainty_band`: the draws of np.random.choice and bernoulli.rvs are parameters; np.interp and np.nanpercentile for the arguments used there |
| `M_dss.v` | `_dss.py`: dssuv_ensemble, `core/dss` univariate part; `_error_spread.py`, `core/error_spread/*` |

## Not modelled

* Boolean arguments (numpy refuses, for instance, to subtract two boolean arrays).

* Integer arrays raised to negative integer powers (numpy raises ValueError).
* Special functions outside the domain on which their integral converges (see `M_special.v`).
* Floating-point rounding outside `M_round.v` to `M_round16.v`, performance, warnings, thread safety.
* jax/torch specifics other than `M_backend.v` and `M_torch.v`; in `visualization`, drawing and the random generators.
* Rounding inside `np.linalg.inv` and `np.linalg.det`, which decides in practice whether a singular matrix is
  recognised; `M_mat.v` is exact.  `np.cov` is that of numpy 2.3.5 (uv.lock).

## File layout (`rocq/theories`)

| file | content |
|---|---|
| `Num.v` | values, arithmetic (model) |
| `Arr.v` | arrays, broadcasting, reductions (model) |
| `M_*.v` | model of one source file or group, no proofs |
| `S_*.v` | specifications, independent of the model (only `R`, lists, integrals) |
| `L_*.v` | lemmas |
| `T_*.v` | the proofs of the property theorems, as lemmas `<theorem>_l` |
| `P_*.v` | the property theorems only: statement, `exact`, `Print Assumptions`, and examples showing that the hypotheses are met |

## Plan per property

| id | modelled | method |
|---|---|---|
| C01 | crps_ensemble, array and gufunc kernels | kernel identity `int (1{a<=t}-1{b<=t})^2 = |a-b|`, step-function integrals (Coquelicot `is_RInt`), order-statistics sums |
| C02 | fair, pwm | order-statistics identity for sorted rows |
| C03 | fair | sums over all tuples, induction on M |
| C04, C05 | both implementations | both reduce to one formula over the reals; `_refuted` for weighted akr_circperm, even M |
| C06–C09 | weight check, weighted estimators | algebra over sums |
| C10, C11 | all estimators | permutation of sums; order reversal for negative scale |
| C12, C13 | exact estimators | integral of a square |
| C14–C16 | apply_nan_policy_ens_uv | case analysis on rows; filtered sums |
| C17, C18 | array checks, sort | list lemmas for shapes of any rank |
| C19 | chain function | integral identity for clamped values |
| C20–C22 | ow/vr | algebra; `_refuted` witnesses |
| C23 | dtype casts | `_refuted` witnesses, positive theorem for float inputs |
| C24–C28 | quantile and interval scores | piecewise-linear algebra, convexity |
| C29–C31 | brier.py | algebra, `ln` inequality |
| C32–C35 | energy | as C01; negative-definiteness via an integral representation |
| C36 | variogram | algebra |
| C37, C53, C54 | kernels | positive definiteness of the Gaussian kernel from the power series of exp |
| C38, C55 | dss, error spread | algebra |
| C39, C40, C43, C44 | closed forms, log scores | antiderivatives and limits; special functions as parameters |
| C41 | parametric log scores | densities and distribution functions of S_dens.v and S_cont.v, probabilities of S_disc.v; convergence of the gamma and beta integrals by domination, the t distribution by substitution in the beta integral; derivative and limits at the ends of the support give the integral; Gibbs' inequality from ln x <= x - 1 |
| C56, C57 | normal family, truncated/censored normal and logistic | Gaussian integral, primitives of F and F^2, half-line integrals |
| C58 | t, truncated/censored t | CRPS = y(2F-1) - 2M + q with M' = t f, Q' = 2 f M (L_crpsgen.v) |
| C59 | beta on [lower, upper] | the same, on an interval; incomplete beta recurrence (L_crpsbeta.v) |
| C60 | log-Laplace, log-logistic, log-normal | CRPS of exp X from N' = e^x f, Q' = 2 f N (L_crpslog.v); the integral of phi(x) Phi(ax+b) by differentiating in b (L_gaussint.v) |
| C61 | normal mixtures | pair integrals of components (L_crpsmix.v) |
| C62 | gamma, censored shifted gamma | CRPS of exp X as in C60; Gamma(a)Gamma(b) = Gamma(a+b)B(a,b) by differentiating under the integral, duplication, Gamma(1/2) = sqrt pi (L_betagamma.v, L_crpsgam.v) |
| C63 | generalised extreme value | substitution u = ln(1+kx)/k reduces to incomplete gamma functions (L_crpsgev.v); the Gumbel case by the exponential integral, whose constant at 0 is shown to be Euler's constant as defined by harmonic numbers (L_crpsgum.v, L_euler.v); 36 decimals of it from the series of E1 at 81 and of ln 3 in exact integer arithmetic (L_eulernum.v) |
| C64 | counts | the integral as a sum of (1 - F)^2 (L_count.v); size-biased distributions turn the sum into sums of products of probabilities, which are the Bessel functions (L_crpspois.v) and, by Parseval on the circle (L_parseval.v) and the substitution t = sin^2, the hypergeometric function (L_crpsnb.v); finite sums for the hypergeometric distribution (L_crpshyp.v) |
| C65 | multivariate dss | determinants as alternating row-linear functions, their uniqueness, the product rule and Cramer's inverse (L_det.v); Schur complements for positive definite matrices: det > 0, ln det A <= tr A - n, whitening (L_posdef.v) |
| C66 | reliability diagram | pool adjacent violators on a stack of blocks; Abel summation shows that every block lies at the least-squares distance (L_corp.v) |
| C67 | binomial | the incomplete beta function as a binomial tail; its dependence on the first parameter bounded by splitting the integrals (L_binom.v); numpy's expand/zip/stack (L_binom_api.v) |
| C68 | hypergeometric loop | row-major flattening and its inverse (L_hyploop.v), the sums of C64 |
| C69 | all closed forms | linearity of the improper integral, change of variables, finitely many exceptional points (L_score.v); one lemma per family (L_catalog.v) |
| C70 | special cases | equality of distribution functions (L_special.v): distributions with proportional densities are equal |
| C71 | identities between scores | uniqueness of the improper integral, additivity over intervals (L_cross.v) |
| C72 | all closed-form log scores | one lemma per family, uniqueness of normalised densities, Gibbs inequality (L_catlogs.v) |
| C73 | jax and torch special functions | recurrence of the gamma function, beta as a quotient of gammas (L_backend.v) |
| C74 | NaN and infinite arguments | rewriting of the evaluated call with absorption rules, case split on the remaining conditions (L_missing.v) |
| C75 | Lipschitz bounds of the scores | triangle inequality in R^D, kernel forms moved term by term (L_stab.v) |
| C76 | convexity in the observation, pooling | kernel forms; energy distance of the two ensembles is non-negative (L_stab.v, L_negdef.v) |
| C77 | expand_dims and apply_along_axis on torch and jax | row-major positions, counting of the axes (L_torch.v) |
| C78 | bootstrap band of the reliability diagram | order statistics, piecewise linear curves (L_band.v), isotonic fits of C66 |
| C79 | NaN policy of multivariate ensembles | pointwise case analysis |
| C80 | propriety of the tw, ow and vr scores in batch form | negative type of the Euclidean distance with a point mass at the origin, positive definiteness of the Gaussian kernel, variance (L_wprop.v) |
| C81 | rounding of the quantile, interval and Brier scores | monotonicity and exactness of rounding, products of (1 + u) factors (L_round.v) |
| C82 | rounding of the ensemble CRPS | induction over the summation tree, spread <= 2 (M-1)/M of the mean error (L_round2.v); underflow witness (L_round3.v) |
| C83 | rounding of nrg, fair, akr, akr_circperm, pwm with underflow; perfect ensembles | error bounds (1+u)^k (A + n eta) - A closed under the operations (L_round4.v, L_round5.v); pwm witness (L_round6.v) |
| C84 | all CRPS calls with an integral value | monotone functions as uniform limits of step functions, domination on the line, Cauchy-Schwarz from a quadratic form (L_metric.v) |
| C85 | rounding of int | the deviation of a computed frequency from 1 is relative because frequencies are multiples of 1 / M (L_round7.v); invariant of the loop (L_round8.v) |
| C86 | twCRPS of adjacent and nested ranges | clip to [a, c] is clip to [a, b] plus clip to [b, c] minus b, all monotone, so distances add up (L_split.v); monotonicity from non-negativity on the two remaining ranges |
| C87 | sampling averages | average over samples of a function of one or two positions (L_crps_unbias.v); values of the estimators from C33, C36, C37 (L_unbias2.v) |
| C88 | dependence on the distribution | the exact scores are weighted means of functions of one or two members (L_law.v), kernel forms from C33, C36, C37, C46 |
| C89 | rounding of the energy score | M_round4.v; relative error of a root, sums as in C82 (L_round9.v) |
| C90 | rounding of crps_quantile, weighted interval, ranked probability and log scores | M_round5.v; numbers of the format near 1, exact sums of integers, Sterbenz's lemma for fct + 1 - 1 (L_round10.v, L_round11.v) |
| C91 | kernel scores as squared distances; stability | L_kmetric.v: Cauchy-Schwarz for the kernel's inner product on weighted point sets, mean value theorem for exp(-d^2/2) |
| C92 | energy, variogram and ranked probability scores as squared distances | L_emetric.v: Cauchy-Schwarz for -|x - y| on point sets of total weight zero, Minkowski for weighted sums, subadditivity of t^p |
| C93 | rounding of the weighted CRPS and energy score | M_round6.v; quotients by a computed sum, spread at most the share 1 - delta of the error (L_round12.v) |
| C94 | rounding of the weighted fair CRPS and energy score | M_round7.v; quotients by a number with an absolute error (L_round13.v) |
| C95 | rounding of the weighted CRPS, estimator qd | M_round8.v; products of signed approximations without underflow (L_round14.v) |
| C96 | rounding of the weighted CRPS, estimator pwm | M_round9.v; products with underflow and quotients by a computed constant (L_round15.v) |
| C97 | rounding of the weighted CRPS, estimator int | M_round10.v; sorting of computed values (L_round16.v) |
| C98 | rounding of the outcome-weighted CRPS | M_round11.v |
| C99 | rounding of the vertically re-scaled CRPS | M_round12.v, S_round7.v |
| C100 | rounding of the outcome-weighted and the vertically re-scaled energy score | M_round13.v, S_round8.v |
| C101 | rounding of the variogram score | M_round14.v, S_round9.v |
| C102 | rounding of the fair variogram score | M_round15.v, S_round10.v |
| C103 | rounding of the outcome-weighted variogram score | M_round16.v, S_round10.v |
| C42 | logs_ensemble, clogs_ensemble | row lemmas over R from a broadcasting calculus; spec of the kernel density estimate in S_logs.v |
| C45 | registry | invariant by induction over call histories |
| C46 | multivariate weight check | `_refuted` witness and positive theorem |
| C47 | exact estimators | corollaries of C01 |
| C48, C49 | weighted energy scores, input types | as C33; `_refuted` witnesses |
| C50 | multivariate checks | case analysis |
| C51, C52 | weighted variogram scores, input types | algebra; `_refuted` witness |
