# A Rocq (Coq) model of mgao6767/frds

Generated by `tools/design.py` (prose in `tools/design_head.md`).

## 1. Approach

* The code is modelled function by function as total Gallina functions in `rocq/theories/Model_*.v`;
  each definition cites file and lines in /repo, and says where it simplifies. Python exceptions are values
  (`res X := Ok x | Err e`, `Arith.v`); undefined behaviour of the C++ code is a value too (`run X := Done x | UB`, `Model_memory.v`).
* **Numbers.** Model functions are parametric in a record `Arith` of operations *without laws*
  (`+ - * / sqrt log exp pow < <= ==`, NaN/infinity tests, decimal literals, the normal cdf, and `asum`, an
  order-unspecified array sum). A theorem takes one of three forms:
  * `forall A : Arith`: whatever the arithmetic is, hence bit for bit for binary64 (structure, causality, protocols, memory).
  * about `XRA` (`XR.v`): reals extended by `PInf`, `MInf`, `NaN` with the IEEE rules for special values, but no rounding, no
    overflow and one unsigned zero. Nothing rests on Coq's totalised `1/0 = 0`, `ln (-1) = 0` or `sqrt (-1) = 0`.
  * about `B64 lm` (`Float64.v`, Flocq): IEEE binary64 with rounding, overflow and signed zeros; the parameter `lm` holds what IEEE
    does not fix (log, exp, pow, cdf, the summation tree) and each theorem states what it needs of it.
    Every such theorem mentions `B64` in its statement; no other theorem claims anything about rounding error.
* **Arrays** are lists (1-d) or lists of rows (2-d); shapes are explicit where the code checks them or depends on them.
* **External code** - scipy's `minimize` and `fsolve`, numpy's `lstsq`, `eigvals`, random generators, `std::mt19937_64` - is an argument of the
  model (an arbitrary function or answer, called an oracle), and where a theorem needs a contract it is a visible premise.
  numpy's FFT is replaced by the exact discrete Fourier transform, whose convolution theorem is proved (`Fourier.v`).
* **State** (estimator objects, caches, the import system, threads, the heap cell of a mutated list) is explicit; histories are arbitrary
  lists of calls, schedules arbitrary interleavings.
* Where the code violates what its documentation promises, a theorem with suffix `_refuted` gives the counter-example and companions
  say exactly what happens instead. No property is only partially proved, so no theorem carries the suffix `_partial`.

## 2. Files

| file | content |
|------|---------|
| `Arith.v`, `XR.v`, `Float64.v`, `Float64b.v`, `Float64c.v`, `Float64d.v`, `Float64e.v` | numbers: the interface, extended reals, binary64, its rounding lemmas, relative-error and absolute-error bounds |
| `Draws.v` | every sequence of equally likely draws, averages and shares over them (used for the bootstrap of LRMES) |
| `RealAux.v`, `Harmonic.v`, `Gauss.v`, `Fourier.v`, `Cholesky.v` | sums and quadratic forms, harmonic numbers, the normal distribution, the DFT, matrix factors |
| `Model_*.v` | the code |
| `Spec_*.v` | independent specifications used in statements |
| `Proofs_*.v` | lemmas |
| `Props_*.v` | the theorems `Cnn_...` and, beside each group, `Example Cnn_case...` showing that the hypotheses are met by a concrete case |

## 3. Trusted base

* The Coq 8.16.1 kernel (no `native_compute`; `vm_compute` only where the kernel's own VM replays it).
* The axioms `Print Assumptions` lists, theorem by theorem, in `ASSUMPTIONS.md` (generated by `tools/assumptions.py`). They are all from the
  standard library: `ClassicalDedekindReals.sig_forall_dec`, `ClassicalDedekindReals.sig_not_dec` and
  `FunctionalExtensionality.functional_extensionality_dep` (the real numbers) and `Classical_Prop.classic` (Coquelicot, Flocq).
  About a third of the theorems use none. Coquelicot, Flocq and mathcomp's ssreflect are used as libraries; they add no axioms.
  Checkers that list opaque constants of standard-library module implementations (`Rdefinitions.RbaseSymbolsImpl.*`, `RinvImpl.*`,
  `ssrunder.Under_rel.*`) show sealed definitions, not axioms.
* The translation of Python and C++ to Gallina, done by hand and by reading. It is the largest part of the trust.
* The reading of numpy/pandas/CPython behaviour built into the model (NaN comparisons, broadcasting and shape errors, slice semantics,
  `np.sum` of an empty array, iteration order of `itertools.product`, import-system rules).

There are no axioms, parameters, admitted proofs, functors or module types of our own.

## 4. What is modelled and what is not

| code in /repo/src/frds | model | not modelled |
|---|---|---|
| `algorithms/_garch.py`, `utils/garch.hpp`, `utils/utils_module.cpp` | `Model_garch.v` (values, protocol), `Model_memory.v` (memory), `Model_intresids.v` (int64 residual arrays) | the optimizer's algorithm (oracle); logging; `Enum`/dataclass mechanics; reference counts and allocation failure; a `params` argument that is not iterable |
| `algorithms/_mgarch.py`, `utils/mgarch.hpp` | `Model_mgarch.v`, `Model_memory.v`; interruption points of every fit and of PIN.estimate in `Model_crash.v` | as above |
| `algorithms/isolation_forest/*` | `Model_iforest.v`; memory, extension entry point and Python front end in `Model_iforestpy.v` | the bits of `mt19937_64` (oracle), overflow of `nObs`, the GIL and allocation failure inside threads; pandas' str() conversion |
| `measures/_long_run_mes.py`, `lrmes.hpp`, `measures_module.cpp` | `Model_lrmes.v`, `Model_memory.v` | the bits of numpy's generator (oracle) |
| `measures/_absorption_ratio.py` | `Model_ar.v` | LAPACK (oracle with contract) |
| `measures/` z_score, kyle_lambda, MES, SES, SRISK | `Model_measures.v`; SRISK with the LRMES measure it calls in `Model_srisk.v` | `lstsq`'s SVD (contract: normal equations) |
| `measures/spread.py`, `price_impact.py`, `lob_slope.py` | `Model_micro.v` | - |
| `measures/_option_price.py`, `_contingent_claim_analysis.py` | `Model_option.v` | the root finder (oracle) |
| `measures/_distress_insurance_premium.py` | `Model_dip.v`, `Model_dipdraws.v` | see the header of the file |
| `measures/_probability_of_informed_trading.py` | `Model_pin.v` | the optimizer (oracle) |
| `measures/modified_merton/*` | `Model_merton.v`, `Model_simulation.v`, `Model_simulate.v`; `mod_merton_computation.py` also statement by statement on numpy arrays in `Model_ndarray.v`, `Model_mertonarrays.v`, and `mod_single_cohort_computation.py` in `Model_singlearrays.v`; the `.m` files of `matlab/` in `Model_matlab.v`, `Model_matlab2.v`, `Model_empirical.v`, `Model_testdata.v`, `Model_latex.v` | `fsolve`, `griddata`, `scatteredInterpolant` (oracles), printing, figures, files |
| `datasets/_stocks.py`, all import statements | `Model_datasets.v` (one thread), `Model_threads.v` (any schedule of threads), `Model_imports.v` | the file contents; third-party imports are assumed to succeed |

Deprecated or trivial code without semantic content (package `__init__` re-exports beyond their import behaviour, docs, setup.py) is not modelled.

## 5. Wrong programs

`seeded/LOG.jsonl` records, one line per attempt, an edit of a model definition of the kind a bug would make, the claim it breaks, which theorems
then failed to check, and which theorems were tightened because the edit had at first gone unnoticed. The edits are applied to a scratch copy and rebuilt;
`tools/mutlog.py` writes the log from the results.

## 6. Property by property

Model files are `Model_<name>.v`. 'Theorems' lists everything the manifest claims for the property, by the file it is in.

### C01 GARCH/GJR-GARCH conditional variances are always positive and respect their lower bounds

For omega>0, non-negative alpha, beta (and gamma), a non-negative backcast and positive variance bounds, compute_variance returns one finite, strictly positive number per residual, and from the second period on each is at least that period's lower bound. The log-likelihood taken from it is therefore finite.

* Ranges over: all residual series of any length >= 1, all parameter values in the stated region, all bounds arrays with 0 < lower <= upper.
* Model: `Model_garch.v`. Status: proved.
* Proof: invariant over the recursion: every value left by bounds_check is at least a positive lower bound; in exact arithmetic and again for binary64 with any rounding-faithful log.
* Theorems: `Props_float.v`: C01_binary64, C01_binary64_first, C01_binary64_first_gjr; `Props_garch.v`: C01_garch_variance_positive, C01_gjr_variance_positive.

### C02 Conditional variances use no future information

The conditional variance reported for period t depends only on the residuals before t, the bounds up to t, the backcast and the parameters; changing later residuals never changes it. The output has exactly one entry per residual, the first is omega plus persistence times backcast (and is not bounds-checked), and every later one is the bounds-checked GARCH update of the previous one.

* Ranges over: all arithmetics (hence IEEE doubles bit for bit), all parameters, all residual series that agree up to t, all t.
* Model: `Model_garch.v`. Status: proved.
* Proof: the recursion is the one of an independent specification (Spec_garch), for any arithmetic; equal prefixes give equal prefixes.
* Theorems: `Props_garch.v`: C02_garch_recursion, C02_gjr_recursion, C02_garch_path, C02_gjr_path, C02_no_lookahead, C02_defined.

### C03 The pure-Python fallback and the C++ extension compute the same variances, unless NaN is involved

bounds_check, ewma, compute_variance (GARCH and GJR) give the same result with and without the C++ extension for all non-NaN data. With NaN they differ: the Python bounds_check replaces a NaN variance by the lower bound, the C++ one propagates it. In binary64 the two agree bit for bit whenever the C++ result has no NaN and the lower bounds are positive (ewma: whenever x**2 is computed as x*x).

* Ranges over: all residuals, bounds, parameters and both backends.
* Model: `Model_garch.v`. Status: proved.
* Proof: case analysis of the two bounds_check versions; induction over the series; the NaN case is a separating witness; bit-for-bit version on binary64 (Props_float5.v).
* Theorems: `Props_float5.v`: C03_binary64_bounds_check, C03_binary64_garch, C03_binary64_gjr, C03_binary64_ewma; `Props_garch.v`: C03_bounds_check_same, C03_bounds_check_nan_differs, C03_garch_same_finite, C03_gjr_same_finite, C03_garch_same, C03_gjr_same, C03_ewma_same, C03_nan_refuted.

### C04 bounds_check is the identity inside the bounds, raises to the lower bound, and compresses logarithmically above the upper one

For 0<lower<=upper: a variance in [lower, upper] is returned unchanged, one below is raised to lower, a finite one above upper becomes upper+ln(v/upper) (still above upper), an infinite one becomes upper+1000; the result is never below lower and the map is non-decreasing on finite variances. It does not cap at upper, and when upper<1 it can even increase a variance.

* Ranges over: all variances (finite or infinite) and all bounds 0 < lower <= upper.
* Model: `Model_garch.v`. Status: proved.
* Proof: case analysis and monotonicity of log; the jump at the upper bound and the non-monotone place are theorems; binary64 version.
* Theorems: `Props_float.v`: C04_binary64, C04_binary64_monotone; `Props_garch.v`: C04_bounds_check_law, C04_bounds_check_inf, C04_bounds_check_props, C04_bounds_check_can_increase.

### C05 EWMA is the documented exponentially weighted average

ewma(r, v0, lam) has one entry per residual, entry t is lam^t*v0 + (1-lam)*sum_{i<t} lam^(t-1-i)*r_i^2, and for lam in [0,1] every entry lies between the least and greatest of v0 and the earlier squared residuals; it is causal.

* Ranges over: all residual series, all t, all initial values, all decay factors.
* Model: `Model_garch.v`. Status: proved.
* Proof: induction: closed form as a weighted sum with geometric weights; causality for any arithmetic.
* Theorems: `Props_float.v`: C05_binary64; `Props_garch.v`: C05_ewma_closed_form, C05_ewma_causal.

### C06 The backcast is a weighted average of the first 75 squared residuals

backcast is a convex combination with strictly decreasing weights 0.94^i / sum of the first min(75,T) squared residuals: it lies between their minimum and maximum, is unaffected by later residuals, by the sign of residuals, and is quadratic under rescaling.

* Ranges over: all residual series of length >= 1.
* Model: `Model_garch.v`. Status: proved.
* Proof: weights normalise to one; weighted-mean lemmas; dependence on the first 75 squares only.
* Theorems: `Props_float.v`: C06_binary64; `Props_garch.v`: C06_backcast_average, C06_backcast_range, C06_backcast_depends, C06_backcast_scaling, C06_weights_decrease.

### C07 variance_bounds yields a positive, ordered, per-period bracket unless the residuals are all zero

For every residual series that is not identically zero each row satisfies 0<lower<upper, upper = 1e12*lower, the raw EWMA is clipped to [var/1e8, 1e7*(1+max r^2)] before scaling (the upper clip never takes effect). For identically zero residuals every row is (0,0), and the GARCH recursion (omega, beta > 0) then produces an infinite variance in the second period.

* Ranges over: all residual series of length >= 1.
* Model: `Model_garch.v`. Status: proved.
* Proof: order of the brackets from EWMA positivity; all-zero and NaN residuals are treated exactly.
* Theorems: `Props_float.v`: C07_binary64; `Props_garch.v`: C07_variance_bounds, C07_all_zero, C07_all_zero_infinite; `Props_tight.v`: C07_nan_residual.

### C08 GARCH starting values: documented argmax is not what is returned

starting_values documents that it returns the grid candidate with the highest log-likelihood. It returns instead the last grid candidate whose negated log-likelihood is greater than -inf; when all log-likelihoods are finite that is always (alpha=0.2, persistence 0.98): [0.02*var, 0.2, 0.78] for GARCH and [0.02*var, 0.2, 0.2, 0.68] for GJR, whatever the data. Every candidate has alpha+beta(+gamma/2) equal to a grid persistence below one and implied unconditional variance equal to the sample variance. When all residuals are zero (constant returns with an estimated mean, or all-zero returns with zero_mean) no candidate is accepted and an empty start vector is returned; non-zero constant returns with zero_mean start from omega = 0, below the optimizer's bound.

* Ranges over: all return series, both models, all 16 / 64 candidates.
* Model: `Model_garch.v`. Status: proved.
* Proof: the running-maximum loop is characterised for any arithmetic; the documented argmax is refuted by a witness.
* Theorems: `Props_garch2.v`: C08_returns_last_acceptable, C08_start_is_constant, C08_constant_returns_no_start, C08_zero_returns_no_start, C08_constant_returns_zero_mean, C08_candidates_admissible, C08_candidates_are_grid, C08_argmax_refuted.

### C09 GARCH fit() protocol over any call history

GARCHModel.fit returns the Parameters object while not yet successful, and None on every call after a successful one (its signature promises Parameters); a successful estimate is never overwritten. GJRGARCHModel.fit re-estimates on each call. A failing optimizer leaves parameters at their previous value. With zero_mean the reported mu is exactly 0 and the optimizer sees one parameter fewer.

* Ranges over: all sequences of fit() calls and all optimizer outcomes.
* Model: `Model_garch.v`. Status: proved.
* Proof: state machine over call histories, optimizer = arbitrary trace oracle; invariants by induction over the history.
* Theorems: `Props_garch2.v`: C09_garch_history, C09_garch_refit_is_none, C09_gjr_every_call, C09_failure_keeps_parameters, C09_zero_mean, C09_start_length; `Props_lrmes2.v`: C09_refit_is_idempotent.

### C10 After fit(): residuals and likelihood match the reported parameters, sigma2 need not

After a successful fit the stored resids are returns minus reported mu, the reported loglikelihood is the model log-likelihood at the reported parameters (given the optimizer returns fun = objective(x)), and the parameters satisfy the box bounds and stationarity constraint passed to the optimizer. sigma2, however, is whatever the optimizer's LAST objective evaluation left there: it equals the variance series at the reported parameters only if that last evaluation was at opt.x.

* Ranges over: all return series, all optimizer evaluation sequences.
* Model: `Model_garch.v`. Status: proved.
* Proof: state invariant after a successful fit; sigma2 can stem from a different evaluation: refuted with an explicit trace.
* Theorems: `Props_garch2.v`: C10_after_fit, C10_garch_constraints, C10_gjr_constraints, C10_sigma2_stale_refuted.

### C11 The univariate log-likelihood is the Gaussian one

loglikelihood(resids, sigma2) equals the sum over t of the log of the N(0, sigma2_t) density at resids_t for every positive variance series; and over all constant positive variances it is maximised at the mean squared residual.

* Ranges over: all residual and positive variance series.
* Model: `Model_garch.v`. Status: proved.
* Proof: equality with the independent Gaussian log-density; constant-variance maximiser by calculus.
* Theorems: `Props_garch2.v`: C11_gaussian_loglik, C11_constant_variance_mle.

### C12 GJR-GARCH nests GARCH and the leverage term only ever adds variance

With gamma=0 GJR compute_variance equals GARCH compute_variance; with gamma>=0 every GJR variance is at least the GARCH one; GARCH is invariant to sign flips of residuals; a GJR series with negative shock has variance >= the same series with the shock's sign flipped.

* Ranges over: all residual series, parameters in the admissible region and bounds.
* Model: `Model_garch.v`. Status: proved.
* Proof: gamma = 0 reduces the step, sign arguments for the leverage term.
* Theorems: `Props_garch2.v`: C12_gjr_gamma0_is_garch, C12_leverage_adds_variance, C12_garch_sign_invariant, C12_gjr_bad_news.

### C13 GJR variance forecast is the unbounded recursion, offset by one

forecast_variance returns len(resids)-1 numbers, the k-th being the GJR recursion applied k+1 times from initial_variance; it is positive for admissible parameters, causal, and coincides with compute_variance[1:] whenever no bound binds and the initial values agree. An empty residual array raises IndexError.

* Ranges over: all residual series, parameters and initial variances.
* Model: `Model_garch.v`. Status: proved.
* Proof: the forecast list is the unbounded recursion; offset by one against the in-sample path.
* Theorems: `Props_garch2.v`: C13_forecast, C13_forecast_empty, C13_forecast_matches_variance, C13_forecast_causal.

### C14 The C++ wrappers read the raw buffer: correct only for contiguous residual arrays

compute_*_variance and ewma wrappers read PyArray_DATA consecutively. For a contiguous array the result is that of the logical array. For a strided view (for example returns[::2], which GARCHModel(zero_mean=True) passes unchanged) the elements read are the wrong ones and the result differs from the Python fallback.

* Ranges over: all buffers, offsets and strides.
* Model: `Model_garch.v`. Status: proved.
* Proof: buffers with strides: the wrappers read the raw contiguous block; strided views are refuted.
* Theorems: `Props_garch2.v`: C14_contiguous_ok, C14_contiguous_equals_python, C14_reads_contiguous_block, C14_strided_refuted.

### C15 DCC conditional correlations always lie in [-1,1]

For a,b>=0 with a+b<=1, except a=1 and b=0, every conditional correlation returned (both backends) is a number with absolute value at most 1, whenever the standardized residual series are not degenerate; below 1 strictly when a+b<1 and the sample correlation is strictly inside (-1,1). At the excluded corner a=1, b=0, which the optimizer's box and constraint admit, every correlation after the first is +1, -1, or NaN (when a residual is exactly zero).

* Ranges over: all residual/variance series of any length and all admissible a, b.
* Model: `Model_mgarch.v`. Status: proved.
* Proof: positive-semidefinite invariant of the quasi-correlation matrix (Cauchy-Schwarz); rounding refutes it in binary64.
* Theorems: `Props_float4.v`: C15_binary64_refuted; `Props_mgarch.v`: C15_conditional_correlations_in_range, C15_corner, C15_corner_series.

### C16 The two DCC backends target different unconditional matrices

The Python fallback uses the sample correlation matrix (demeaned, unit diagonal), the C++ code uncentered second moments. The two produce identical correlations when the standardized residuals have mean zero and unit second moment, and can differ otherwise: in the first period each returns its own target correlation, so they differ there exactly when the centred and the uncentered sample correlations differ.

* Ranges over: all standardized residual series.
* Model: `Model_mgarch.v`. Status: proved.
* Proof: algebra on sample moments; the two targets coincide exactly on standardised series.
* Theorems: `Props_mgarch.v`: C16_backends_agree_on_standardized_series, C16_cpp_is_python_on_rescaled_residuals, C16_first_period, C16_first_period_differs, C16_differ_when_mean_is_not_zero, C16_differ_when_variance_is_not_one.

### C17 The CCC log-likelihood is the bivariate normal one

For |rho|<1 and positive variances GARCHModel_CCC.loglikelihood equals the sum of log bivariate normal densities; at rho=0 it is the sum of the two univariate log-likelihoods; it is symmetric in the two assets.

* Ranges over: all residual and positive variance series, all rho in (-1,1).
* Model: `Model_mgarch.v`. Status: proved.
* Proof: equality with the independent bivariate normal log-density.
* Theorems: `Props_mgarch.v`: C17_bivariate_normal_loglik, C17_zero_correlation_is_the_sum_of_the_univariate_ones, C17_symmetric; `Props_tight.v`: C17_objective, C17_own_variances_exist.

### C18 The DCC two-step log-likelihood decomposes the bivariate one

The sum of the two univariate Gaussian log-likelihoods and the correlation component equals the bivariate normal log-likelihood evaluated at the conditional correlations clipped to [-0.99,0.99].

* Ranges over: all residual and positive variance series, all series of conditional correlations (hence all a, b).
* Model: `Model_mgarch.v`. Status: proved.
* Proof: decomposition identity summed over the sample.
* Theorems: `Props_mgarch.v`: C18_two_step_loglik_is_the_bivariate_one, C18_clipping_is_inactive_inside.

### C19 DCC starting values do not depend on the likelihood

starting_values returns the last grid point (a,b) with a+b<1 whose log-likelihood is greater than -inf (default [0.01,0.8] when there is none): the grid search never compares candidates with each other. Every returned point is in the admissible region a,b>0, a+b<1.

* Ranges over: all data (all likelihood surfaces).
* Model: `Model_mgarch.v`. Status: proved.
* Proof: grid-search loop characterised for any arithmetic; independence of the likelihood.
* Theorems: `Props_lrmes3.v`: C19_start_is_constant_any_kind; `Props_mgarch2.v`: C19_returns_the_last_acceptable_point, C19_independent_of_the_likelihood, C19_the_point, C19_admissible, C19_start_is_constant.

### C20 CCC/DCC fit() protocol

A successful CCC/DCC estimate is returned unchanged by later fit() calls; the marginal parameters reported by DCC are exactly the sub-models' parameters (mu, omega, alpha, (gamma), beta in order), even though the sub-models are re-fitted during the search, while CCC only starts from them and reports the solver's vector; a sub-model that failed to converge is not noticed: its NaN log-likelihood makes the objective NaN everywhere, the search keeps its default start, and DCC can report success with NaN marginal parameters.

* Ranges over: all call histories and solver outcomes.
* Model: `Model_mgarch.v`. Status: proved.
* Proof: state machines with optimizer oracles; invariants over call histories.
* Theorems: `Props_mgarch2.v`: C20_success_is_final_dcc, C20_success_is_final_ccc, C20_dcc_marginals_are_the_submodels, C20_estimated_submodels_are_reused, C20_ccc_reports_the_solver_vector, C20_ccc_objective_ignores_its_arguments, C20_failed_submodel_makes_objective_nan, C20_failed_submodel_gives_default_start, C20_failure_is_not_noticed.

### C21 LRMES is minus the mean firm return over the systemic scenarios

estimate returns 0 when no simulated scenario is systemic, and otherwise minus the average of the simulated firm returns over exactly the scenarios whose simulated market return is strictly below C; the result is strictly less than 1.

* Ranges over: all simulated scenario sets of any size, all thresholds C.
* Model: `Model_lrmes.v`. Status: proved.
* Proof: accumulator invariant; permutation invariance; bound via exp; the whole estimate() with its oracles.
* Theorems: `Props_float2.v`: C21_binary64; `Props_lrmes.v`: C21_lrmes_is_the_conditional_mean, C21_below_one, C21_order_irrelevant; `Props_lrmes2.v`: C21_estimate; `Props_lrmes3.v`: C21_variances_exist, C21_end_to_end.

### C22 LRMES scenario simulation is well defined and backend independent

For admissible parameters (omega>0, alpha,gamma,beta>=0, a,b>=0, a+b<=1 but not a=1,b=0, |rho|<=1, Q_bar a correlation matrix) every step of the simulation has positive variances and a correlation in [-1,1], so all square roots are of non-negative numbers and the firm return is a finite number > -1; the Python and C++ simulations return the same pair; simulated variances follow the GJR forecast recursion.

* Ranges over: all innovation matrices of any horizon, all admissible parameters.
* Model: `Model_lrmes.v`. Status: proved.
* Proof: positivity + PSD invariants along the horizon; both backends step equally in exact arithmetic; binary64 refutation of |rho|<=1.
* Theorems: `Props_float4.v`: C22_binary64_refuted; `Props_lrmes.v`: C22_simulation, C22_python_and_cpp_agree, C22_variances_follow_the_forecast_recursion, C22_forecast_recursion_is_forecast_variance, C22_corner.

### C23 LRMES threshold monotonicity

Making the systemic threshold C more severe never adds systemic scenarios: the number of systemic events is non-decreasing in C, and with C <= -1 there is none and LRMES is 0.

* Ranges over: all scenario sets and pairs of thresholds.
* Model: `Model_lrmes.v`. Status: proved.
* Proof: monotone filter / count.
* Theorems: `Props_lrmes.v`: C23_fewer_systemic_events_for_severer_thresholds, C23_no_event_below_minus_one.

### C24 SRISK equals the capital-shortfall formula

For W<>0 the firm-level SRISK returned is k*D - (1-k)*W*(1-LRMES). It is increasing in debt and LRMES, decreasing in W when LRMES<1, and zero exactly at the break-even debt. The expansion printed first in the documentation, k*D + (1-k)*W*(1-LRMES), has the wrong sign and exceeds the returned value whenever k<1, W>0, LRMES<1.

* Ranges over: all W, D, k, LRMES.
* Model: `Model_measures.v`. Status: proved.
* Proof: closed form and monotonicity of the formula.
* Theorems: `Props_srisk.v`: C24_value, C24_increasing_in_debt, C24_increasing_in_lrmes, C24_decreasing_in_equity, C24_break_even, C24_zero_equity; `Props_srisk2.v`: C24_documented_expansion_refuted.

### C25 Aggregate SRISK sums only positive shortfalls; fails for single firms with Python floats

For several firms aggregate SRISK is the sum of max(SRISK_i,0), hence non-negative, at least every firm's SRISK and the plain sum. For one firm (W, D floats, as its own assertion demands) the aggregate call raises AttributeError exactly when W, D and LRMES are all plain Python floats (LRMES is one on the no-event path and on the C++ path) and W is not zero (ZeroDivisionError); with a numpy float among them it is max(SRISK,0).

* Ranges over: all numbers of firms and inputs.
* Model: `Model_measures.v`. Status: proved.
* Proof: sum of positive parts; type-error of the scalar path as a value.
* Theorems: `Props_float2.v`: C25_binary64_many, C25_binary64_one; `Props_srisk.v`: C25_aggregate, C25_single_firm_aggregate, C25_single_firm_aggregate_refuted, C25_single_firm_numpy, C25_single_firm_zero_equity.

### C26 SRISK input validation

SRISK(...) accepts exactly: 1-d firm returns with market returns of the same shape and W, D Python floats; or (n_days, n_firms>1) firm returns with n_days market returns and W, D arrays of shape (n_firms,). W, D may be np.float64. Everything else is rejected: AssertionError, except ValueError for firm returns with neither one nor two dimensions and IndexError for a 0-d market array. Integer W/D for a single firm are rejected.

* Ranges over: all shapes and argument kinds.
* Model: `Model_measures.v`. Status: proved.
* Proof: exact characterisation of accepted dtypes/shapes.
* Theorems: `Props_srisk.v`: C26_accepts, C26_rejects, C26_integers_rejected.

### C27 Multi-firm SRISK is the single-firm SRISK of each column

The i-th entry of the multi-firm result is the single-firm result for column i, W[i], D[i] with the same seed; results for one firm are unaffected by the other firms or their order.

* Ranges over: all numbers of firms, all columns.
* Model: `Model_measures.v`. Status: proved.
* Proof: column-wise map; independence.
* Theorems: `Props_srisk.v`: C27_columnwise, C27_errors, C27_independent_of_other_firms.

### C28 MES averages the firm over exactly the days strictly below the market percentile

estimate(q) for 0<=q<=1 is the mean of the firm returns on the days whose market return is strictly below the linearly interpolated q-percentile; a q outside [0,1] or mismatched shapes raise AssertionError; at most ceil(q*(n-1)) days are selected, no selected day has a larger market return than an unselected one, and the selected set grows with q.

* Ranges over: all return series and all q.
* Model: `Model_measures.v`. Status: proved.
* Proof: the interpolated percentile is specified independently (Spec_measures) and unique; selection lemmas.
* Theorems: `Props_measures.v`: C28_bad_q, C28_nan_q, C28_shape_mismatch, C28_value, C28_worst_days, C28_more_days, C28_empty.

### C29 MES lies within the range of firm returns, or is NaN exactly when no day qualifies

When some day qualifies MES is a number between the smallest and largest firm return. It is NaN exactly when no market return is below the percentile - in particular for q=0 and for a constant market series.

* Ranges over: all finite return series, all q in [0,1].
* Model: `Model_measures.v`. Status: proved.
* Proof: mean-of-subset bounds; emptiness characterised.
* Theorems: `Props_measures.v`: C29_range, C29_nan_iff, C29_q_zero, C29_constant_market, C29_single_day.

### C30 MES does not depend on the order of days

Applying one permutation of days to both series leaves the estimate unchanged; MES is equivariant under positive affine changes of the firm returns and invariant under positive scaling of the market returns.

* Ranges over: all permutations, all series, all q.
* Model: `Model_measures.v`. Status: proved.
* Proof: permutation invariance, affine equivariance.
* Theorems: `Props_measures.v`: C30_reorder_days, C30_affine_firm, C30_scale_market.

### C31 SES is the slope-weighted combination of the firm's MES and leverage

With (a,b,c) a least-squares solution of ses on (1, mes, lvg), the estimate is (b*MES+c*LVG)/(b+c): weights sum to one, so MES=LVG=x gives x; it is invariant under affine transformations (non-zero scale) of the ses sample; when both slopes are positive it lies between MES and LVG. Version other than the two listed raises AssertionError and APPR2017 raises NotImplementedError; mismatched shapes raise AssertionError.

* Ranges over: all training samples with full-rank design, all firms.
* Model: `Model_measures.v`. Status: proved.
* Proof: weighted-combination algebra.
* Theorems: `Props_srisk.v`: C31_value, C31_equal_inputs, C31_between, C31_affine_invariant, C31_offsetting_slopes, C31_errors.

### C32 Absorption ratio lies in [0,1], is monotone, and is 0/1 at the end points

For a return matrix with positive total variance and fraction in [0,1] the ratio is in [0,1], non-decreasing in the fraction, 0 when the fraction rounds to zero eigenvalues and exactly 1 for all eigenvalues, and at least the fraction of eigenvalues used; it is invariant under scaling of returns.

* Ranges over: all return matrices and fractions; the eigenvalue routine is any routine returning the spectrum.
* Model: `Model_ar.v`. Status: proved.
* Proof: symmetric-matrix trace/PSD arguments with eigvals under its contract (a real spectrum of a symmetric PSD matrix).
* Theorems: `Props_ar.v`: C32_range_monotone_endpoints, C32_independent_of_the_routine, C32_invariant_under_scale_and_shift.

### C33 Absorption ratio uses round-half-up(fraction*n) eigenvalues, and misbehaves outside [0,1]

The number of eigenvalues used is floor(fraction*n+1/2) for non-negative products (half away from zero). For a fraction above 1 the slice start is negative, so Python counts from the end and FEWER eigenvalues are used - the ratio drops below 1 instead of saturating. Negative fractions give 0.

* Ranges over: all fractions and numbers of assets.
* Model: `Model_ar.v`. Status: proved.
* Proof: rounding function characterised; slices outside [0,1].
* Theorems: `Props_ar.v`: C33_rounds_half_away_from_zero, C33_number_of_eigenvalues_used, C33_above_one_uses_fewer, C33_above_one_drops, C33_negative_fraction_gives_zero.

### C34 Absorption ratio caches its covariance

estimate depends on the return matrix as it was at the first use only: later replacement of the asset_returns attribute changes the asset count used for rounding but not the covariance or eigenvalues; repeated calls with the same fraction return the same value over any history of calls.

* Ranges over: all histories of estimate / attribute assignment.
* Model: `Model_ar.v`. Status: proved.
* Proof: state machine of the cache, induction over histories.
* Theorems: `Props_ar.v`: C34_covariance_is_frozen_at_first_use, C34_estimates_only_use_the_first_matrix, C34_repeated_calls_agree.

### C35 Kyle's lambda is the no-intercept least-squares slope in millionths

kyle_lambda returns 1e6*sum(x*y)/sum(x^2) (0 for an all-zero volume, by the minimum-norm rule): no other slope has a smaller squared error, it scales inversely with volume and proportionally with returns, and is invariant under permutations of the observations.

* Ranges over: all samples.
* Model: `Model_measures.v`. Status: proved.
* Proof: quadratic minimisation; lstsq by its normal equation.
* Theorems: `Props_measures.v`: C35_value, C35_zero_volume, C35_length_mismatch, C35_optimal, C35_scaling, C35_reorder.

### C36 Z-score is (ROA + capital ratio) over the population standard deviation

The divisor is sqrt(mean squared deviation) (ddof=0): positive exactly when past ROAs are not all equal; z is increasing in roa and the capital ratio, unaffected by shifting or reordering past ROAs, scales inversely with their dispersion. With constant past ROAs it is +-inf, or NaN when the numerator is 0 too.

* Ranges over: all inputs.
* Model: `Model_measures.v`. Status: proved.
* Proof: variance algebra.
* Theorems: `Props_measures.v`: C36_value, C36_constant_past, C36_empty_past, C36_increasing, C36_shift_scale, C36_reorder.

### C37 Black-Scholes put-call parity

blsprice satisfies call - put = S*exp(-q*T) - K*exp(-r*T) for all S,K,sigma,T>0.

* Ranges over: all positive S, K, sigma, T and all real r, q.
* Model: `Model_option.v`. Status: proved.
* Proof: Phi(x)+Phi(-x)=1.
* Theorems: `Props_option.v`: C37_put_call_parity.

### C38 Black-Scholes no-arbitrage bounds

max(S*exp(-qT)-K*exp(-rT), 0) < call < S*exp(-qT) and max(K*exp(-rT)-S*exp(-qT), 0) < put < K*exp(-rT); in particular both prices are strictly positive.

* Ranges over: all positive S, K, sigma, T and all real r, q.
* Model: `Model_option.v`. Status: proved.
* Proof: Gaussian integral bounds.
* Theorems: `Props_option.v`: C38_no_arbitrage_bounds.

### C39 Black-Scholes monotonicity

The call is strictly increasing and the put strictly decreasing in S; the call is strictly decreasing and the put increasing in K; both are strictly increasing in sigma.

* Ranges over: all pairs of inputs.
* Model: `Model_option.v`. Status: proved.
* Proof: sign of derivatives (Coquelicot).
* Theorems: `Props_option.v`: C39_spot, C39_strike, C39_volatility.

### C40 Contingent claim analysis: put, debt and CDS put identities

At the pair (A, sigma) used, the returned put is the Black-Scholes put of A struck at the default barrier; if the solver really solved its equations then risky debt = A - E; the second component is put minus CDS put, equals the put exactly when the CDS spread is 0 or the debt is worth the barrier, and is decreasing in the spread when the debt is worth less than the barrier. The solver's convergence flag is ignored: whatever it returns is used. An exponential of a finite number that leaves the floating-point range (of minus the rate times the maturity, or of the CDS spread accumulated over the maturity) raises OverflowError, and nothing else does. Zero equity with a non-zero barrier, a negative barrier, or (with non-zero equity and a positive barrier) a negative maturity raises ValueError before any result.

* Ranges over: all inputs and all solver outcomes.
* Model: `Model_option.v`. Status: proved.
* Proof: identities of put/debt/CDS; root exists and is unique by IVT/monotonicity; solver oracle.
* Theorems: `Props_cca.v`: C40_prices, C40_solved, C40_solvable, C40_zero_spread, C40_decreasing_in_spread, C40_protection_bounds, C40_flag_ignored, C40_estimate, C40_bad_start, C40_domain, C40_overflow, C40_overflow_only.

### C41 Distress insurance premium equals expected tail loss

When it returns a number, the estimate equals sum over scenarios of P(i defaults) * (ceiling-percent loss if at or beyond the threshold slot) / n_simulations: the average simulated loss restricted to the tail; the joint default frequencies sum to one; the premium is non-negative, at most the number of banks, and non-increasing in the threshold.

* Ranges over: all default draws, loss draws, numbers of banks and thresholds.
* Model: `Model_dip.v`. Status: proved.
* Proof: loop invariants over the simulated draws: frequencies sum to one, premium = conditional expectation.
* Theorems: `Props_dip.v`: C41_frequencies_sum_to_one, C41_premium_is_expected_tail_loss, C41_premium_bounds, C41_antitone_in_threshold; `Props_float2.v`: C41_binary64.

### C42 Distress insurance premium can raise IndexError or return NaN

A simulated total loss in the top slot (100*loss > 100*n-1, i.e. more than n-0.01) makes the index equal to the array length and raises IndexError; if all probability mass beyond the threshold is zero the result is NaN (0/0) rather than 0. Otherwise it returns a finite number.

* Ranges over: all draws.
* Model: `Model_dip.v`. Status: proved.
* Proof: index bound and zero-mass cases characterised exactly.
* Theorems: `Props_dip.v`: C42_nan_iff_no_tail_mass, C42_index_error, C42_only_full_default.

### C43 The distress threshold is truncated to whole percents

Only int(threshold*100) matters: two thresholds with the same integer percentage give the same premium; in binary floating point 0.29 behaves as 0.28.

* Ranges over: all thresholds.
* Model: `Model_dip.v`. Status: proved.
* Proof: floor arithmetic; 0.29*100 in binary64 evaluated in the kernel.
* Theorems: `Props_dip.v`: C43_truncated, C43_same_percent, C43_float_029.

### C44 Quoted spread: range, sign and scale

For positive bid<=ask quotes the percentage quoted spread is in [0,200), zero exactly when every bid equals its ask, the mean of 100*(ask-bid)/mid; the log spread is the mean of ln(ask/bid) >= 0; both are invariant to a common rescaling of quotes, and 100 times the log spread is never below the percentage spread (equal only when every bid equals its ask). Different shapes raise AssertionError.

* Ranges over: all quote series.
* Model: `Model_micro.v`. Status: proved.
* Proof: mean bounds; binary64 bounds via monotone rounding.
* Theorems: `Props_float2.v`: C44_binary64; `Props_spread.v`: C44_pct_value, C44_log_value, C44_pct_range, C44_log_range, C44_unit_free, C44_shape_mismatch; `Props_spread3.v`: C44_log_dominates.

### C45 Effective spread: weighting, sign and range

Without direction the effective spread is non-negative, lies between the smallest and largest per-trade spread 200*|p-m|/m, and weights trades by dollar volume p*v; with direction signs matching p-m it equals the undirected one; directed is never larger in absolute value than undirected. Same for the log version and for realized spread and price impact.

* Ranges over: all trade samples with positive prices, midpoints and non-negative, not all zero volumes.
* Model: `Model_micro.v`. Status: proved.
* Proof: dollar-volume weighted mean.
* Theorems: `Props_float2.v`: C45_binary64; `Props_spread.v`: C45_value, C45_range, C45_signed_directions, C45_directed_bounded.

### C46 Directed effective spread = realized spread + price impact

For the same trades, midpoints, volumes and directions (given as arrays) effective_spread = realized_spread + simple_price_impact exactly, for percentage and log versions; without directions only effective <= realized + impact holds.

* Ranges over: all trade samples with positive prices and midpoints whose dollar volumes do not sum to zero, or are all zero.
* Model: `Model_micro.v`. Status: proved.
* Proof: pointwise identity, weighted sums; triangle inequality for the undirected version.
* Theorems: `Props_spread.v`: C46_decomposition, C46_decomposition_zero_volume, C46_undirected_triangle, C46_undirected_decomposition_refuted.

### C47 Spread measures are invariant to price and volume units

Multiplying all prices and midpoints by a positive constant, or all volumes by a positive constant, leaves effective/realized spread and price impact unchanged; reordering trades consistently too.

* Ranges over: all samples, all positive constants, all permutations.
* Model: `Model_micro.v`. Status: proved.
* Proof: homogeneity.
* Theorems: `Props_spread.v`: C47_price_unit, C47_volume_unit, C47_reorder.

### C48 Spread edge cases: zero volume, cancelling weights, list directions

If every dollar volume is 0 the simple NaN-ignoring mean is returned; if dollar volumes are not all zero but sum to 0 ZeroDivisionError is raised; a trade_direction that is not an ndarray (such as a list) is silently ignored and the undirected spread is returned; shape mismatches raise AssertionError (price impact checks all but price).

* Ranges over: all inputs including zero and cancelling weights.
* Model: `Model_micro.v`. Status: proved.
* Proof: exact values at the degenerate inputs.
* Theorems: `Props_spread.v`: C48_zero_dollar_volume, C48_cancelling_dollar_volume, C48_list_direction_ignored, C48_list_vs_array_refuted, C48_shape_errors, C48_price_impact_price_unchecked, C48_empty.

### C49 LOB ask and bid slopes

With at least two levels, DGGW_ask_slope/bid_slope is the NaN-ignoring mean over quotes of total depth divided by the distance between the top-level price and the midpoint: positive whenever sizes are positive and the level price is on its side of the midpoint, linear in sizes, inverse in price unit. A locked quote (distance 0) with positive depth yields +inf; sizes with one dimension, fewer than two levels or midpoints of another length raise AssertionError, sizes with three or more dimensions ValueError; the bid and ask versions agree on distances of equal magnitude. The remaining slope functions raise NotImplementedError on every call.

* Ranges over: all books of any number of quotes and levels.
* Model: `Model_micro.v`. Status: proved.
* Proof: nanmean of level ratios with independent specification (Spec_micro).
* Theorems: `Props_lob.v`: C49_value, C49_value_regular, C49_positive, C49_locked_quote, C49_linear_in_sizes, C49_price_unit, C49_sides_agree, C49_errors, C49_stubs.

### C50 Slope difference needs five levels although two are documented as enough

DGGW_bid_side_slope_difference (and the ask version, which is the same function) uses exactly levels 1, 3 and 5: it raises IndexError for every book with 2 to 4 levels, AssertionError below 2 levels or for a one-dimensional array (ValueError for three or more dimensions), and for 5 or more levels it is the mean difference of the two segment slopes, unaffected by the other levels.

* Ranges over: all books.
* Model: `Model_micro.v`. Status: proved.
* Proof: index analysis.
* Theorems: `Props_lob.v`: C50_too_few_levels, C50_wrong_dimensions, C50_few_price_levels, C50_value, C50_two_levels_refuted, C50_only_levels_1_3_5, C50_ask_is_bid, C50_real_value.

### C51 Scaled depth difference is in [-2,2] and antisymmetric

For non-negative depths SDD lies in [-2,2], swapping bid and ask flips its sign, scaling all sizes by a positive constant leaves it unchanged, it is 0 for a balanced book; quotes with zero depth on both sides are dropped, and an entirely empty book gives NaN.

* Ranges over: all books.
* Model: `Model_micro.v`. Status: proved.
* Proof: ratio bounds, antisymmetry; binary64.
* Theorems: `Props_float2.v`: C51_binary64; `Props_lob.v`: C51_value, C51_range, C51_nan_iff_empty_book, C51_antisymmetric, C51_size_unit, C51_balanced, C51_shape_mismatch.

### C52 PIN is a probability

For alpha in [0,1], mu>=0, eps_b, eps_s>=0 the reported pin alpha*mu/(alpha*mu+eps_b+eps_s) is in [0,1]; increasing in mu and alpha, decreasing in the uninformed rates, invariant to the time unit (one pin is below another exactly when its alpha*mu is smaller relative to its total uninformed rate); it is NaN exactly when all three rates vanish. These bounds are what the optimizer is constrained to.

* Ranges over: all parameters within the estimation bounds.
* Model: `Model_pin.v`. Status: proved.
* Proof: ratio of non-negative terms; binary64.
* Theorems: `Props_float2.v`: C52_binary64; `Props_pin.v`: C52_probability, C52_nan_iff, C52_monotone, C52_time_unit, C52_strict_in_mu, C52_order.

### C53 PIN starting values match the first moments and are feasible

Every starting point produced satisfies B_bar = eB + alpha*(1-delta)*mu and S_bar = eS + alpha*delta*mu, lies inside the optimizer's bounds for non-negative data, and exactly those of the 125 grid points with non-negative implied eS are produced, in grid order.

* Ranges over: all buy/sell samples, all 125 grid points.
* Model: `Model_pin.v`. Status: proved.
* Proof: exact characterisation of the grid points kept.
* Theorems: `Props_pin2.v`: C53_exactly_feasible_grid_points, C53_moments_and_bounds, C53_no_start_iff, C53_all_points_iff.

### C54 The two PIN likelihood factorizations are equal

loglikelihood_EHO2010 and loglikelihood_LK2011 return the same value for all admissible interior parameters and all buy/sell counts (in exact arithmetic).

* Ranges over: all samples of any length, all interior parameters.
* Model: `Model_pin.v`. Status: proved.
* Proof: log-sum-exp algebra.
* Theorems: `Props_pin.v`: C54_factorizations_equal.

### C55 The PIN likelihood is the Poisson mixture likelihood

Minus the returned value equals the log-likelihood of the Easley et al. mixture (bad-news, good-news, no-news days with Poisson buys and sells) up to the parameter-free constant -sum(ln B! + ln S!), so maximisers coincide.

* Ranges over: all samples and interior parameters.
* Model: `Model_pin.v`. Status: proved.
* Proof: equality with the Poisson mixture, factorials via Gamma-free recursion.
* Theorems: `Props_pin.v`: C55_poisson_mixture, C55_same_maximisers.

### C56 PIN.estimate keeps the best successful start

After estimate the parameters are those of a successful optimizer run; when all successful runs report finite objectives no successful run has a higher log-likelihood and the earliest best one is kept. Parameters stay at NaN if none succeeds, unknown methods raise ValueError before anything changes. estimation_success is never reset: a later failing estimate leaves it True with NaN parameters. If the first success has an infinite objective -inf (loglikelihood inf) it is never replaced.

* Ranges over: all sequences of optimizer outcomes and all call histories.
* Model: `Model_pin.v`. Status: proved.
* Proof: state machine with an optimizer oracle; fold invariant 'best so far'.
* Theorems: `Props_pin2.v`: C56_unknown_method, C56_data_unchanged, C56_from_successful_run, C56_no_success, C56_flag, C56_flag_never_reset, C56_stale_success, C56_unknown_transparent, C56_history_independent, C56_keeps_best, C56_infinite_first_kept, C56_nan_replaced; `Props_tight.v`: C56_shape_mismatch, C56_new_object.

### C57 Isolation trees partition their sample and respect the height limit

Every tree grown from a sample stores at each node the number of sample observations reaching it: the two children's counts add up to their parent's, the leaf counts sum to the sample size, the height never exceeds ceil(log2(tree_size)), internal nodes have at least two observations, leaves holding several observations occur only at the height limit, and the split value is the value of an observation in the node. With complete data the right child is never empty; when the drawn split value is NaN it can be. At a split on a string attribute an observation goes left exactly when its string is shorter than the split string or, at equal length, earlier in byte order — a strict total order, used identically for growing and scoring.

* Ranges over: all data sets, all samples, all random choices.
* Model: `Model_iforest.v`. Status: proved.
* Proof: induction on tree growth with arbitrary random oracles.
* Theorems: `Props_iforest.v`: C57_partition, C57_height_limit, C57_right_never_empty, C57_right_empty_with_missing_split; `Props_iforest_strings.v`: C57_string_split, C57_string_children, C57_string_order.

### C58 Anomaly scores lie in (0,1]

Whenever the normalising average path length is positive each score is 2^(-avg/c) with avg>=0: in (0,1], strictly decreasing in average path length.

* Ranges over: all forests and observations.
* Model: `Model_iforest.v`. Status: proved.
* Proof: 2^(-x) bounds; harmonic-number normaliser; binary64.
* Theorems: `Props_float3.v`: C58_binary64; `Props_iforest.v`: C58_score_formula, C58_score_range, C58_strictly_decreasing, C58_tree_size_one.

### C59 Every observation is scored exactly once, independent of thread schedule

The score computation splits the observations into per-worker ranges that are pairwise disjoint and cover all observations exactly once for every worker count >= 1; thus for every interleaving of the workers the final score array is the same, entry i being the score of observation i.

* Ranges over: all numbers of observations, worker counts and thread interleavings.
* Model: `Model_iforest.v`. Status: proved.
* Proof: threads as interleavings of disjoint writes; commutation.
* Theorems: `Props_iforest2.v`: C59_ranges_cover_once, C59_schedule_independent, C59_no_write_race.

### C60 The forest has exactly forest_size trees, but its content depends on the number of workers

For every worker count >= 1 and every schedule exactly forest_size trees are grown. The comment promises results unaffected by the worker threads used; this is false: tree indices handed to worker 0 overlap those of others, the per-thread generator is seeded only by the first index of the thread, and so the multiset of trees differs between worker counts.

* Ranges over: all forest sizes, worker counts, schedules.
* Model: `Model_iforest.v`. Status: proved.
* Proof: integer arithmetic of the job split.
* Theorems: `Props_iforest2.v`: C60_forest_size, C60_indices_overlap, C60_indices_disjoint_otherwise, C60_depends_on_workers, C60_more_workers_than_trees; `Props_tight.v`: C60_distinct_engine_seeds.

### C61 Scores do not depend on the order in which threads push trees

The score of an observation is a function of the multiset of trees (in exact arithmetic), so the order in which the mutex-protected push happens does not matter; every interleaving of the workers' pushes yields a permutation of the same trees.

* Ranges over: all interleavings.
* Model: `Model_iforest.v`. Status: proved.
* Proof: permutation invariance of the score.
* Theorems: `Props_iforest2.v`: C61_pushes_are_permutations, C61_score_order_independent, C61_scores_deterministic.

### C62 Missing values are routed inconsistently

When growing, an observation with a NaN attribute goes left at a split on a non-NaN value; when scoring, the same observation goes right. For complete (NaN-free) data an in-sample observation reaches exactly the leaf it was grown into; with NaN it may not.

* Ranges over: all data sets and trees.
* Model: `Model_iforest.v`. Status: proved.
* Proof: growth and scoring comparisons separated exactly on NaN.
* Theorems: `Props_iforest.v`: C62_complete_data_consistent, C62_missing_routed_apart, C62_missing_split_value, C62_missing_refuted.

### C63 Only the first tree of each worker is grown from tree_size observations

tree_size is documented as the number of observations per tree. The sample buffer is never cleared between trees, so the k-th tree of a worker is grown from k*min(tree_size, n_obs) (repeated) observations.

* Ranges over: all k, tree sizes and data sizes.
* Model: `Model_iforest.v`. Status: proved.
* Proof: sampling size of the k-th tree.
* Theorems: `Props_iforest2.v`: C63_kth_tree_sample, C63_documented_size_refuted.

### C64 All random seeds larger than the number of observations are equivalent

The seed enters only through n_obs mod seed: every seed greater than n_obs gives the same forest (offset n_obs), a seed of 1 or any divisor of n_obs gives offset 0.

* Ranges over: all seeds and data sizes.
* Model: `Model_iforest.v`. Status: proved.
* Proof: modulus arithmetic of the seed offset.
* Theorems: `Props_iforest2.v`: C64_offset, C64_large_seeds_equivalent, C64_negative_seeds, C64_divisor_seeds_equivalent.

### C65 The stock-returns dataset is loaded at most once and shared

All instances are the same object; over any sequence of accesses the file is read exactly once after the first successful read, every access returns the same (mutable) table, and a failing read is retried at the next access.

* Ranges over: all access histories and read outcomes.
* Model: `Model_datasets.v`. Status: proved.
* Proof: class-level cache as a state machine; induction over arbitrary histories.
* Theorems: `Props_datasets.v`: C65_answers, C65_number_of_reads, C65_loaded_once, C65_single_instance.

### C66 fftsmooth is a centred moving average with linearly extrapolated edges

For even n and even window w with 2<=w and w+2<=n (inverse FFT of product of FFTs = circular convolution) the output has n entries; entry m of the interior is the mean of x[m-w/2+1..m+w/2]; the w/2 first and last entries continue linearly the first/last two interior entries. It is linear in x, reproduces constants, and maps an affine ramp to a ramp shifted by half a step; it keeps a nondecreasing vector nondecreasing and its interior within the range of the data (the extrapolated edges may leave it), and the very first entry of x has no influence. Odd n or odd w raise AssertionError; w = 0 passes the assertions and returns zeros.

* Ranges over: all even n, w and all vectors.
* Model: `Model_merton.v`. Status: proved.
* Proof: the FFT product is proved to be a circular convolution through the exact DFT (Fourier.v), then index arithmetic.
* Theorems: `Props_fftsmooth.v`: C66_moving_average, C66_odd_rejected, C66_window_too_wide, C66_zero_window_returns_zeros, C66_linear, C66_ramp, C66_first_entry_ignored, C66_interior_in_range, C66_monotone, C66_edge_range_refuted.

### C67 Loan payoff is face value minus a put and below both face value and asset value

loan_payoff equals F minus an undiscounted lognormal put on the borrower assets: for F,sig,T>0 and rho<1 it is in (0, min(F, EA)), strictly increasing in F and in the factor f.

* Ranges over: all parameters.
* Model: `Model_merton.v`. Status: proved.
* Proof: Black-Scholes lemmas.
* Theorems: `Props_loans.v`: C67_face_minus_put, C67_bounds, C67_increasing_in_face, C67_increasing_in_factor, C67_scaling.

### C68 find_face_value_indiv vanishes exactly at the fair yield

The error is zero if and only if the loan with face value F and yield mu has value F*exp(-mu*T) equal to F*exp(-rT) minus the Black-Scholes put; the implied fair yield always exceeds r.

* Ranges over: all parameters.
* Model: `Model_merton.v`. Status: proved.
* Proof: monotonicity + exact equivalence.
* Theorems: `Props_loans.v`: C68_fair_yield.

### C69 merton_solution: exact at the solution, and its penalty terms are void

At positive (A, sig) both errors vanish exactly when E is the cum-dividend Black-Scholes equity value and sigE the implied equity volatility; for negative A or sig the intended penalty is multiplied by the clamped value 0 and therefore always zero: for A<0 the errors are exactly (E, sigE), and for sig<0 they are those of a riskless asset, (E - max(A exp(-dT) - D exp(-rT), 0) - A(1 - exp(-dT)), sigE), unless forward and strike coincide.

* Ranges over: all A, sig (both signs).
* Model: `Model_merton.v`. Status: proved.
* Proof: system at its root; penalty branches analysed.
* Theorems: `Props_loans.v`: C69_solution, C69_negative_volatility, C69_negative_assets, C69_penalty_refuted.

### C70 Modified Merton balance-sheet identities

In every simulated state bank debt payoff plus equity equals asset value, debt payoff is at most D and at most the after-payout asset value, guarantee payoff is g times the shortfall, and a state is counted as default exactly when the after-payout asset value does not exceed D; after averaging and discounting Lt = Bt + Et, 0 <= mdef <= 1, Bt <= D*exp(-rH), and Gt = g*(D*exp(-rH) - Bt). End to end, for all finite shocks, factor states and valid parameters every output of mod_merton_computation is the average over cohorts and paths of size x locally averaged loan payoff x discount factor.

* Ranges over: all simulated asset values (all draws), all parameters.
* Model: `Model_merton.v`. Status: proved.
* Proof: averages over scenarios of pointwise identities.
* Theorems: `Props_modmerton.v`: C70_settlement, C70_identities, C70_states; `Props_modmerton3.v`: C70_computation, C70_balance_sheet.

### C71 Loan cohorts are split without gap or overlap at the horizon; accumulated-life vector

Every cohort j is classified as exactly one of 'first loan still outstanding at t+H' (j>=HN) or 'rolled over' (j<HN); for a nonnegative horizon the accumulated life fraction array has exactly N entries iff HN<N (otherwise reshape raises ValueError), equals (HN-j)/N for rolled-over cohorts and (N-(j-HN))/N for later ones, but is 0 instead of 1 at the boundary cohort j=HN.

* Ranges over: all N, HN.
* Model: `Model_merton.v`. Status: proved.
* Proof: index-set partition by arithmetic on cohort ages.
* Theorems: `Props_modmerton.v`: C71_partition, C71_accepts, C71_accumulated_life, C71_boundary_refuted.

### C72 The horizon must be a whole number of periods

mod_merton_computation and the single-cohort version raise AssertionError exactly when H*(N/T) is not an integer (as a float), otherwise the integer is used as array index.

* Ranges over: all H, N, T.
* Model: `Model_merton.v`. Status: proved.
* Proof: case analysis.
* Theorems: `Props_modmerton.v`: C72_horizon, C72_computations_raise.

### C73 Sorting and un-sorting in the smoother is lossless

newInd is the inverse permutation of the stable argsort: without smoothing, sort followed by un-sort returns the original vector; each smoothed value is assigned to the scenario it was computed for; reshape with order F is inverted.

* Ranges over: all vectors including ties.
* Model: `Model_merton.v`. Status: proved.
* Proof: stable argsort and inverse permutation.
* Theorems: `Props_modmerton.v`: C73_unsort, C73_lossless, C73_stable_order, C73_reshape.

### C74 mod_single_cohort_solution mutates its caller's parameter list

The call overwrites param[2] of the list it is given with b[1]: the caller's list is changed in that entry and no other, the result depends on the old param[2] not at all, and repeated calls are idempotent on the list. The list is changed even if the call raises, which it always does when b is a flat vector of two numbers.

* Ranges over: all parameter lists and call sequences.
* Model: `Model_merton.v`. Status: proved.
* Proof: heap cell of the parameter list as explicit state.
* Theorems: `Props_modmerton2.v`: C74_mutation, C74_old_value_irrelevant, C74_idempotent, C74_scalar_raises_after_mutation; `Props_tight.v`: C74_residuals.

### C75 Modified Merton modules cannot be imported in this tree

find_face_value_indiv, merton_solution and mod_merton_simulation import frds.measures.option_price, which does not exist (the file is _option_price.py): importing them, or any module that transitively imports them, fails with ModuleNotFoundError; importing frds.measures and frds.algorithms succeeds despite their circular imports, and a failed import never leaves a half-initialised module behind.

* Ranges over: all modules of the package, all import orders.
* Model: `Model_imports.v`. Status: proved.
* Proof: import system as a state machine; induction over arbitrary import histories.
* Theorems: `Props_imports.v`: C75_every_history, C75_broken, C75_packages, C75_no_partial_modules.

### C76 Sibling nodes of an isolation tree split on the same attribute

The random engine is passed by value to both recursive calls, so whenever both children of a node are split they are split on the same attribute; and unless an index draw is rejected, all internal nodes at one depth use one attribute, so a tree of height h uses at most h attributes instead of drawing one per node.

* Ranges over: all data sets, samples, generators and heights.
* Model: `Model_iforest.v`. Status: proved.
* Proof: generator state copied to both children: same draws.
* Theorems: `Props_iforest.v`: C76_siblings_same_attribute, C76_one_attribute_per_depth.

### C77 LRMES estimates do not influence each other

On a LongRunMarginalExpectedShortfall object the model is estimated once: after a first estimate() the object is in the state of the fitted DCC model, later estimates leave it unchanged (although the GJR sub-models are re-fitted each time), and every later estimate, with the same or other h, S, C and seed, returns exactly what it would have returned on the fresh object. A failed estimation raises RuntimeError; series of different lengths are rejected by the constructor, and the series used are 100 ln(1 + raw return).

* Ranges over: all return series, all deterministic optimizers, all sequences of estimate() calls.
* Model: `Model_lrmes.v`. Status: proved.
* Proof: explicit state threading.
* Theorems: `Props_lrmes2.v`: C77_estimates_do_not_influence_each_other, C77_repeating_an_estimate, C77_failed_estimation_raises, C77_series_must_match, C77_log_percent.

### C78 Further Black-Scholes relations

The call price increases and the put price decreases in the risk-free rate, the other way round in the dividend rate; without dividends and with a nonnegative rate the call increases in maturity; both prices are homogeneous of degree one and jointly convex in spot and strike; a call spread is worth more than 0 and less than the discounted strike difference.

* Ranges over: all positive spots, strikes, maturities, volatilities; all real rates.
* Model: `Model_option.v`. Status: proved.
* Proof: derivatives and homogeneity.
* Theorems: `Props_option.v`: C78_rates, C78_maturity, C78_homogeneous, C78_convex_in_strike_and_spot, C78_call_spread.

### C79 The promised loan yield exists exactly for loans below the depreciated collateral, and is unique

The equation find_face_value_indiv(mu, bookF*exp(mu*T), log(bookF/ltv), ...) = 0 that the modified Merton code gives to its solver has at most one solution mu, and has one exactly when ltv < exp(-d*T); in particular with ltv >= exp(-d*T) no solver can succeed.

* Ranges over: all positive loan sizes, ltv, volatilities, maturities; all rates.
* Model: `Model_merton.v`. Status: proved.
* Proof: IVT and strict monotonicity of the loan value.
* Theorems: `Props_loans.v`: C79_yield_unique, C79_yield_exists.

### C80 Shocks before the valuation date cancel in the modified Merton model

All outputs of mod_merton_computation are the same for any two shock matrices that agree in columns N..3N-2: the first N columns (before the valuation date) and the last column have no influence (in exact arithmetic).

* Ranges over: all shock matrices, parameters, solvers, rounding and smoothing functions.
* Model: `Model_merton.v`. Status: proved.
* Proof: cancellation in the telescoped exponents.
* Theorems: `Props_modmerton2.v`: C80_early_shocks_cancel.

### C81 Mean borrower assets are known in closed form

mFt does not depend on the simulated shocks: at factor state x it is the mean over cohorts j of bookF/ltv * exp((r-d)*T*a + x*sqrt(rho)*sig*sqrt(T)*a) with a = (N-j)/N.

* Ranges over: all shock matrices, factor states and valid parameters.
* Model: `Model_merton.v`. Status: proved.
* Proof: mean of lognormal factors in closed form.
* Theorems: `Props_modmerton3.v`: C81_mean_assets.

### C82 Lookup tables hold the computation at every grid point

Entry (j,k,q) of each table returned by mod_merton_create_lookup and mod_single_merton_create_lookup is the corresponding output of the computation with rate xr, loan size xF and volatility xsig of that grid point, debt bookD*exp(xr*H), no guarantee, and the same shocks everywhere; a table is returned only if every grid point could be computed.

* Ranges over: all grids and all computations.
* Model: `Model_merton.v`. Status: proved.
* Proof: loop invariant over the grid.
* Theorems: `Props_modmerton4.v`: C82_lookup, C82_all_or_nothing.

### C83 Descaling a rolled-over loan removes the dependence on its size

A rolled-over loan of size x with collateral x/ltv and face x*exp(mu*T), divided by x/bookF, pays exactly what a loan of size bookF pays, and its borrower assets divided by x/bookF are those of a loan of size bookF: the conditional expectation of the descaled payoff depends on the factor only (as the code comment claims).

* Ranges over: all positive repayments x, yields and factor values.
* Model: `Model_merton.v`. Status: proved.
* Proof: homogeneity of the loan block.
* Theorems: `Props_modmerton3.v`: C83_descaling.

### C84 Scenario counts the smoother can handle

With n = paths x 3 x factor states, mod_merton_computation raises AssertionError when n or n//20 is odd, works as specified when both are even and n >= 20, and for even n < 20 silently returns a loan portfolio worth exactly 0 in every state.

* Ranges over: all path counts, factor-state counts, shocks and valid parameters.
* Model: `Model_merton.v`. Status: proved.
* Proof: composition with the smoother.
* Theorems: `Props_modmerton3.v`: C84_odd_counts_raise, C84_few_scenarios_worthless.

### C85 The single-cohort model from inputs to outputs

For all finite shocks, factor states and valid parameters every output of mod_single_cohort_computation is the stated average; Lt = Bt + Et, Bt <= D*exp(-rH), Gt = g*(D*exp(-rH)-Bt), 0 <= mdef <= 1; mFt is bookF/ltv*exp(x*sqrt(rho)*sig*sqrt(T)); only the first max(N, HN) shocks of a path matter.

* Ranges over: all shock matrices, factor states and valid parameters.
* Model: `Model_merton.v`. Status: proved.
* Proof: composition of the single-cohort blocks.
* Theorems: `Props_modmerton4.v`: C85_computation, C85_balance_sheet, C85_later_shocks_ignored; `Props_tight.v`: C85_growth_defaults_to_zero, C85_extra_parameters_ignored, C85_too_few_parameters.

### C86 Optimizer constraints are exactly mean stationarity

The inequality constraint given to the optimizer holds at a parameter vector exactly when the variance recursion does not grow on average (the next variance, averaged over a shock of one standard deviation and its mirror image, is at most omega plus the current one) - for GARCH, GJR-GARCH and both components of CCC; the CCC box keeps |rho| <= 0.99; the DCC box and constraint are exactly a,b >= 0, a+b <= 1. Hence the estimates of any optimizer whose successful answers are feasible satisfy them.

* Ranges over: all parameter vectors; all optimizer behaviours that respect the constraints.
* Model: `Model_garch.v`, `Model_mgarch.v`. Status: proved.
* Proof: feasible sets described by averaging the recursion step.
* Theorems: `Props_tight.v`: C86_garch_constraint_is_stationarity, C86_gjr_constraint_is_stationarity, C86_gjr_estimates, C86_ccc_feasible_set, C86_ccc_estimates, C86_dcc_feasible_set, C86_dcc_estimates.

### C87 Simulation table: which states are reported

simulate() reports the first state whose mean borrower asset value is closest to exp(rT/2) (the first state with a NaN value if there is one), and the states eight above and eight below it; with fewer than eight states above it raises IndexError, with fewer than eight below the negative-shock column silently shows state K+j0-8, which lies above the central one. With the shipped parameters the three states are 17, 25 and 9 for every number of states >= 26 and all random draws; row by row the table holds the stated functions of that state.

* Ranges over: all state counts, parameters and draws.
* Model: `Model_simulation.v`, `Model_merton.v`. Status: proved.
* Proof: argmin and index arithmetic; closed-form mean assets for the shipped grid.
* Theorems: `Props_simulation.v`: C87_central_state, C87_nan_state, C87_no_states, C87_columns, C87_table, C87_shipped.

### C88 Standard Merton estimates of the simulated bank

For every positive asset value returned by the solver the reported default probability is the probability that a lognormal asset value ends below D and decreases in the asset value, the volatility used is never below 0.0001, the implied spread is positive and discounts D to riskless debt minus put; at an exact root it discounts D to assets minus equity and equity value and volatility are reproduced; a negative asset value makes every estimate NaN.

* Ranges over: all solver answers, balance sheets and parameters.
* Model: `Model_simulation.v`, `Model_option.v`. Status: proved.
* Proof: lognormal probability; monotonicity.
* Theorems: `Props_simulation.v`: C88_default_probability, C88_default_decreasing, C88_fit, C88_consistent, C88_negative_assets.

### C89 True capital ratio and credit spread of the simulated bank

In every factor state with positive debt value the credit spread is finite, discounts the face value exactly to the debt value, is never negative and vanishes in a state without defaults; the market capital ratio Et/(Et+Bt) lies in [0,1) and vanishes exactly with Et.

* Ranges over: all simulated economies, states and parameters.
* Model: `Model_simulation.v`, `Model_merton.v`. Status: proved.
* Proof: ratio bounds; logs.
* Theorems: `Props_simulation.v`: C89_capital_ratio, C89_credit_spread, C89_simulated.

### C90 Memory safety of the compiled variance kernels

The extension functions ewma, bounds_check, compute_garch_variance and compute_gjrgarch_variance, given fresh contiguous float64 arrays with at least one residual, one row of bounds per residual and 3 (4) parameters, never read or write outside their arrays and return exactly the values of the recursion, whatever the output array contained. Exactly otherwise - empty residuals, too few bounds or parameters where Python raises - they access memory outside; so do reversed views and float32 arrays of three or more elements, whose strides and dtype are not checked. Wrong numbers of dimensions raise ValueError.

* Ranges over: all array contents, lengths, parameters and uninitialised memory contents.
* Model: `Model_memory.v`. Status: proved.
* Proof: checked memory: invariant over the loops gives Done/UB exactly.
* Theorems: `Props_memory.v`: C90_ewma, C90_garch, C90_gjr, C90_contiguous, C90_short_inputs, C90_reversed, C90_float32, C90_bounds_check, C90_dimensions.

### C91 String attributes of the isolation forest are not terminated

anomaly_scores stores strings in an array whose item width is the longest string; the forest compares them as C strings. An item is read correctly exactly when it is shorter than the width; a longest string is glued to the following item, and read beyond the end of the array if none follows. So every table with a non-empty string contains a misread item, with codes of equal length every single read leaves the array, and two equal strings may compare different; one more byte of width would make all reads exact.

* Ranges over: all string tables.
* Model: `Model_memory.v`. Status: proved.
* Proof: byte-level layout of fixed-width strings.
* Theorems: `Props_memory.v`: C91_read_item, C91_some_item_unterminated, C91_fixed_length_codes, C91_terminated, C91_equal_strings_differ_refuted.

### C92 Memory safety of the DCC and LRMES kernels

dcc_conditional_correlation with a non-empty first series and other arrays at least as long stays inside its arrays and returns exactly the conditional correlations of the first T elements; with an empty first series or a shorter other array it accesses memory outside. simulation stays inside any innovation matrix with two or more columns, using the first two only, for every horizon; a one-column matrix is read beyond its end.

* Ranges over: all arrays, parameters and horizons.
* Model: `Model_memory.v`. Status: proved.
* Proof: three nested loop invariants; refinement to the functional model.
* Theorems: `Props_memory.v`: C92_dcc, C92_dcc_short, C92_lrmes, C92_lrmes_one_column.

### C93 Cholesky factor of the correlation matrix

The factorisation behind the simulated bank returns succeeds exactly on square matrices whose lower triangle, mirrored, is positive definite, and then returns the unique lower triangular factor with positive diagonal and L L^T equal to the matrix; otherwise (not square, singular, indefinite, two perfectly correlated banks) LinAlgError and nothing else. Entries above the diagonal are never read, in any arithmetic, so an asymmetric matrix is accepted silently.

* Ranges over: all matrices of all sizes.
* Model: `Model_dipdraws (cholesky).v`. Status: proved.
* Proof: the recurrence keeps the factor of the leading block (good_row); back substitution turns a failed pivot into a vector with non-positive quadratic form; uniqueness by double induction (Cholesky.v).
* Theorems: `Props_dipdraws.v`: C93_succeeds_iff_positive_definite, C93_result_is_the_factor, C93_only_linalgerror, C93_not_square, C93_upper_triangle_ignored, C93_perfect_correlation.

### C94 Simulated joint defaults follow the given probabilities and correlations

Default probabilities outside (0,1) raise ValueError (NaN does not). With an exact normal quantile, bank i defaults in a scenario exactly when the normal cdf of its simulated return is below its probability; the mean number of joint defaults is the sum of the banks' sampled default frequencies; raising probabilities never lowers the frequency of at least k defaults. If the generator's normals have zero mean and identity second moments, the simulated returns have zero mean and exactly the given matrix as second moments. Passing a covariance matrix silently changes the default probabilities unless the variance is 1 or the probability 1/2.

* Ranges over: all probabilities, matrices, draws and scenario weights.
* Model: `Model_dipdraws.v`, `Model_dip.v`. Status: proved.
* Proof: normal quantile by completeness and IVT; bilinearity of the weighted second moments; counting lemmas on the joint frequencies.
* Theorems: `Props_dipdraws.v`: C94_quantile_exists, C94_thresholds, C94_nan_probability_accepted, C94_returns_have_given_covariance, C94_row_norms, C94_default_iff, C94_number_of_defaults, C94_joint_defaults_monotone, C94_mean_number_of_defaults, C94_covariance_matrix_changes_probabilities.

### C95 Loss draws and complete outcome of the distress insurance premium

Every loss draw is in [0.1, 1) and has the triangular law with mode 0.55 (the draw is at most x exactly when its uniform is at most F(x)), symmetric under U -> 1-U. estimate then raises ValueError for a bad probability, LinAlgError for a bad matrix, ValueError for mismatched sizes, IndexError exactly when some simulated total loss of all n banks exceeds n - 0.01, returns NaN exactly when there is no tail mass, and otherwise the expected tail loss, between 0 and n - 0.01. For one bank IndexError occurs exactly for a uniform above 1 - 1/4050.

* Ranges over: all probabilities, matrices, thresholds, draws and array contents.
* Model: `Model_dipdraws.v`, `Model_dip.v`. Status: proved.
* Proof: inversion of the triangular cdf; composition with C41/C42.
* Theorems: `Props_dipdraws.v`: C95_draws, C95_triangular_law, C95_symmetric, C95_bad_probability, C95_bad_correlations, C95_outcome, C95_single_bank_index_error.

### C96 Memory safety of the isolation forest and its argument limits

On arrays that are readable (every numeric cell present, every string terminated inside the array) the isolation forest extension stays inside all its arrays and returns exactly the anomaly scores of the abstract forest, for every number of worker threads and every order in which they deliver trees. Sizes or seeds outside the range of int raise OverflowError, negative ones become 2^64 plus the argument; a tree size of 0 or zero hardware threads is undefined behaviour, a negative forest size terminates the process, and a table without attributes is read out of bounds. A frame whose last object column ends with a string of maximal length is read beyond the array when that string is split on; one whose last value is shorter never is.

* Ranges over: all tables, sizes, seeds, thread counts, delivery orders and random draws.
* Model: `Model_iforestpy.v`, `Model_iforest.v`, `Model_memory.v`. Status: proved.
* Proof: checked-memory semantics refined to the abstract forest; interleavings; explicit out-of-bounds reads.
* Theorems: `Props_iforestpy.v`: C96_refines, C96_arguments, C96_conversion, C96_no_attributes, C96_readable, C96_frame_memory, C96_last_row_undefined.

### C97 anomaly_scores front end

A successful anomaly_scores call returns a frame with the index of the input, in order, and exactly one column, of that length and with the requested name. KeyError is raised exactly when an excluded name is not a column; excluding columns equals passing a frame without them, and None equals an empty list. Only numeric and object columns that are kept matter, and only their order within their own kind: columns of any other dtype (bool, datetime, category) are silently ignored. A non-ASCII character raises ValueError; a frame without usable columns is undefined behaviour instead of an error; zero trees give NaN for every row. Otherwise row j is the anomaly score of observation j of the table of kept columns.

* Ranges over: all frames, exclusions, sizes, seeds, schedules and random draws.
* Model: `Model_iforestpy.v`, `Model_iforest.v`, `Model_memory.v`. Status: proved.
* Proof: column selection as list functions; composition with C96.
* Theorems: `Props_iforestpy.v`: C97_shape, C97_keyerror, C97_only_numeric_and_object, C97_none_is_empty, C97_other_dtypes_ignored, C97_kinds_commute, C97_exclusion, C97_no_usable_columns, C97_non_ascii, C97_scores, C97_zero_trees.

### C98 The whole-array program of the modified Merton model computes the cell-by-cell valuation

mod_merton_computation written as numpy statements on whole arrays (reshape, tile, repeat, dstack, concatenate, slices, masks, broadcasting, order='F' reshapes) gives, for every shock matrix with Nsim2 rows and at least 3N-1 columns and the states fs as a vector or a column, the outputs of the valuation that treats one path, cohort and state at a time, with the documented shapes, or raises the same exception. Shocks after column 3N-1 are never used, so the last of the 3N columns the model draws has no effect. A shock matrix with another number of rows, or with N to 3N-2 columns other than 2N, raises ValueError; fewer than N columns raises IndexError; exactly 2N columns raises nothing and silently reuses the last factor for every second-generation loan; states given as a row raise ValueError; a horizon of minus one period is accepted and reads the factor one period before today.

* Ranges over: every array of states, parameter list, number of cohorts and paths, shock matrix of any shape, smoothing spectrum, rounding and solver, in any arithmetic.
* Model: `Model_ndarray.v`, `Model_mertonarrays.v`, `Model_merton.v`. Status: proved.
* Proof: numpy arrays as shapes with index functions; lemmas for each operation on arrays of known shape and contents, then a refinement proof of the whole program.
* Theorems: `Props_mertonarrays.v`: C98_refines, C98_last_shock_unused, C98_wrong_rows, C98_few_shocks, C98_missing_shocks, C98_reused_factor, C98_negative_horizon, C98_row_of_shocks.

### C99 The Python modified Merton model agrees with the MATLAB programs it is translated from

Given the same shocks, with a whole number of horizon steps, at least two cohorts and paths, parameters as a column (or without guarantee) and a scenario count divisible by 40, the Python and MATLAB valuations come from identical loan values and give identical results, or both fail; default shocks are the same numbers if the generators deliver the same uniforms; loan pay-offs, face values, smoothing, sorting and lookup tables agree value by value. Deviations are exactly these: scenarios with a NaN loan value (MATLAB counts them as full repayment, NumPy makes the averages NaN; equity, default and volatilities agree); the guarantee in a row vector is ignored by MATLAB; scenario counts not divisible by 40 are refused by MATLAB and partly accepted by Python, odd ones only by Python's assertion refused; a window as wide as twice the data wraps around in Python; a negative horizon wraps around in Python's single-cohort model; rounding of the sort keys matters only if it changes the order; for negative asset value or volatility MATLAB's Merton residuals carry a penalty 9999999 x^2 that Python loses.

* Ranges over: all parameters, states, shock matrices, spectra, rounding and solvers, in any arithmetic.
* Model: `Model_matlab.v`, `Model_merton.v`. Status: proved.
* Proof: the .m files transcribed with 1-based, error-raising indexing; proved equal to the Python model (in any arithmetic), with every deviation characterised.
* Theorems: `Props_matlab.v`: C99_loan_payoff, C99_face_value, C99_fftsmooth, C99_odd_count, C99_window, C99_wide_window, C99_sort_smooth, C99_scenarios, C99_computation, C99_no_nan, C99_matlab_accepts, C99_python_accepts, C99_row_of_parameters, C99_default_shocks, C99_single_cohort, C99_single_rounding, C99_single_negative_horizon, C99_single_solution, C99_lookup, C99_merton_residuals, C99_feasible_residuals, C99_nan.

### C100 The simulation program runs to completion exactly for suitable path counts, and what it reports

simulate(Nsim) stops with ValueError for Nsim = 0 and with AssertionError unless Nsim leaves remainder 0, 24, 30 or 36 modulo 40; for those it completes whenever the interpolation does, except with IndexError if the central state is one of the last eight. It then returns the seven-row table of C87 at the central state, for each of the 33 states the standard Merton fit to that state's equity value and volatility, and alternative (4) from its asset value and volatility. In exact arithmetic with an exact loan-yield solver the central state is number 17, so the table shows states 17, 25 and 9. The three grids have exactly 33, 69 and 105 points, in exact arithmetic and in IEEE double precision whatever the accuracy of the elementary functions.

* Ranges over: all path counts, random shocks, solvers, interpolation and rounding functions; in any arithmetic for the protocol, in binary64 for the grid sizes.
* Model: `Model_simulate.v`, `Model_simulation.v`, `Model_merton.v`. Status: proved.
* Proof: the whole of simulate(Nsim) as one program over oracles for shocks, fsolve and griddata; outcome by cases on Nsim from the parity conditions of the smoothing step, grid sizes by exact computation of the arange lengths in XRA and, for any libm, in binary64.
* Theorems: `Props_simulate.v`: C100_paths, C100_results, C100_grids, C100_exact; `Props_simulate2.v`: C100_ceil, C100_is_integer, C100_binary64, C100_binary64_paths.

### C101 Table 1 of the simulation agrees with ModMertonSimulation.m

The MATLAB and Python programs choose the same central state (if no distance to exp(rT/2) is NaN), fit the same six standard-Merton figures per state whenever their root finders return the same root with a volatility that is a number - in particular for any root finder that evaluates the equations only at non-negative asset values and volatilities - and print the same table, MATLAB with an extra separator row of -9999. In exact arithmetic, for the shipped configuration, any shocks and every positive multiple of 40 paths, both programs return these tables. Deviations: with NaN distances MATLAB takes the closest state among the others, Python the first NaN; a NaN volatility becomes 0.0001 in MATLAB and stays NaN in Python; a central state among the first eight stops MATLAB and makes Python show a state from the other end; one among the last eight stops both; MATLAB accepts exactly the positive multiples of 40 paths, all of which Python accepts too. For every valid call with a scenario count divisible by 40 the two valuations are identical.

* Ranges over: all banks, states, shocks, path counts and root finders, in any arithmetic; the end-to-end statement in exact arithmetic.
* Model: `Model_matlab2.v`, `Model_matlab3.v`, `Model_matlab.v`, `Model_simulate.v`. Status: proved.
* Proof: the table part of ModMertonSimulation.m transcribed with NaN-ignoring min/max and 1-based indexing; equality with the Python table in any arithmetic, composed with C70, C99 and C100 to the end-to-end statement in exact arithmetic.
* Theorems: `Props_matlab2.v`: C101_central_state, C101_no_states, C101_fit, C101_nan_volatility, C101_table, C101_simulation, C101_no_valuation, C101_nan_states, C101_same_roots; `Props_matlab3.v`: C101_same_bank, C101_exact_valuation, C101_paths, C101_shipped.

### C102 Interest-rate interpolation of the empirical MATLAB program

Strictly between two neighbouring grid rates the program returns the linear interpolation of the two grid values, so affine functions of the rate are reproduced and the weights add up to one. Exactly at a grid rate it should return that rate's value but returns 0, whatever the values; in IEEE double precision this happens for an observed rate of exactly 0, where the shipped grid starts. Outside the grid the results fade to 0 within one step. A NaN at any grid rate, even one without weight, makes the result NaN.

* Ranges over: all grids with a positive step, all values and observed rates; the zero-rate statement in binary64 for any summation order.
* Model: `Model_empirical.v`, `Model_empirical2.v`, `Model_matlab2.v`. Status: proved.
* Proof: the weight matrix of ModMertonEmpirical_unobsbookF.m as a function; real analysis of the tent without tip; monotonicity of rounding for the zero rate.
* Theorems: `Props_empirical.v`: C102_weight, C102_between, C102_affine, C102_on_grid_refuted, C102_below, C102_above, C102_nan; `Props_empirical2.v`: C102_zero_rate, C102_zero_rate_result.

### C103 The simulation's alternative models are read off the right surfaces

A completed simulate(Nsim) values each alternative bank - (1) overlapping cohorts with maturity 10, correlation 0.99 and volatility 0.2 sqrt(1/2); (2) one cohort with maturity 5, correlation 0.5 and volatility 0.2; (3) one cohort with maturity 5, correlation 0.99 and volatility 0.2 sqrt(1/2) - once for each of the 105 loan face values 0.40, 0.41, ..., 1.44 on the 69 wide states with the same shocks, interest 1%, horizon 5, the bank's debt, ltv 0.66, depreciation 0.005 and pay-out 0.002, and no growth guarantee. It interpolates the default probability and the borrower asset value of that surface, as functions of equity value and equity volatility (7245 points, state by state, aligned point by point with the values), at the 33 pairs of equity value and volatility of the true bank.

* Ranges over: all path counts, shocks, solvers, interpolation routines and rounding functions, in any arithmetic; the numbers in exact arithmetic.
* Model: `Model_simulate3.v`, `Model_simulate.v`. Status: proved.
* Proof: simulate as a program with the interpolation as an oracle; the lookup table unfolded to one valuation per face value, the ravelled tables as row-by-row lists.
* Theorems: `Props_simulate3.v`: C103_alternatives, C103_exact.

### C104 CCC and DCC estimation reports the likelihood of the reported model

Estimation from two return series of equal length that are not constant, the marginal optimizers starting at the documented point and reporting their objective value: DCC.fit completes, reports the two marginal estimates followed by the optimizer's (a,b), and as log-likelihood the two Gaussian log-likelihoods plus the log-density of the Gaussian copula with the conditional correlations at (a,b) (clipped to [-0.99,0.99]) at the standardized residuals; when both marginal optimizers evaluated their estimate last, that number is the log-likelihood of the bivariate normal model with the reported parameters. CCC.fit hands the joint optimizer the two marginal estimates followed by the Pearson correlation of the standardized residuals, stores what it reports unchanged, and the reported log-likelihood is that of the bivariate normal model with constant correlation rho at the reported parameters, the variances recomputed from those parameters.

* Ranges over: all pairs of non-constant series of any length, both kinds of marginal model, all optimizer runs honouring their contract, both correlation back ends, exact arithmetic.
* Model: `Model_mgarch3.v`, `Model_mgarch.v`. Status: proved.
* Proof: the fit functions as programs over optimizer runs; every evaluation of the objectives is shown to return, the reported value is unfolded to a sum of log-densities.
* Theorems: `Props_mgarch3.v`: C104_dcc_objective, C104_dcc, C104_dcc_is_the_likelihood, C104_ccc.

### C105 Closed-form prices are expected discounted payoffs

blsprice's call and put are the expectations of e^(-rT) max(S_T - K, 0) and e^(-rT) max(K - S_T, 0), where S_T is lognormal with drift r - q and volatility sigma and the expectation is the improper integral against the standard normal density. The contingent-claim put is the expected discounted loss on the debt and the CDS put uses the expected discounted repayment. An exact root of the Merton equations prices equity as the expected discounted residual claim plus the value of the dividends. loan_payoff is the expected min(face value, borrower assets) given the common factor, and the promised yield is a root of find_face_value_indiv exactly when the loan's promise discounted at it equals the expected discounted repayment.

* Ranges over: all spot prices, strikes, rates, maturities, volatilities and loans with positive scale parameters, exact arithmetic.
* Model: `Model_expect.v`, `Model_option.v`, `Model_cca.v`, `Model_loans.v`. Status: proved.
* Proof: expectations as improper Riemann integrals against the normal density; the exercise region is split off and the integral evaluated by the fundamental theorem of calculus.
* Theorems: `Props_expect.v`: C105_option_prices, C105_expected_loss, C105_equity, C105_loan_payoff, C105_fair_yield, C105_expectation, C105_unique.

### C106 The whole-array program of the single-cohort model computes the cell-by-cell valuation

mod_single_cohort_computation, executed statement by statement on numpy arrays (concatenate, cumulative sum along paths, broadcasting, column-major flatten, argsort, fancy indexing and reshape), returns in every cell exactly the number obtained by valuing each (path, state) cell on its own, or raises the same exception; whether the states come as a vector or as a column. A shock matrix with another number of rows than Nsim2 raises ValueError, fewer than N shocks per path raise IndexError, states passed as a row raise ValueError, no paths raise ValueError. A negative horizon index counts from the last supplied shock. Only the first max(N, HN) shocks of each path matter, so the 3N periods drawn by the lookup builder yield the same prices as the N periods the single-cohort model needs.

* Ranges over: all state vectors, shock matrices, parameters, horizons, root finders, spectral filters and rounding functions, in any arithmetic (bit-exact).
* Model: `Model_singlearrays.v`, `Model_ndarray.v`, `Model_mertonarrays.v`, `Model_merton.v`. Status: proved.
* Proof: the array program is modelled one numpy statement at a time; each intermediate array is characterised by its shape and a cell function, and the last one is compared with the cell-by-cell model.
* Theorems: `Props_singlearrays.v`: C106_refines, C106_wrong_rows, C106_few_shocks, C106_row_of_shocks, C106_no_paths, C106_negative_horizon, C106_unused_shocks, C106_drawn_shocks.

### C107 The LRMES simulator inverts the GJR-GARCH-DCC filter

Feeding the simulation with the innovations of a return path (z_m = residual over volatility, xi = (z_i - rho z_m)/sqrt(1 - rho^2), filtered day by day with the GJR variances and the DCC matrix as documented) returns exactly that path, for every path and horizon and in both back ends, and no other innovations do. So each pair of holding-period returns above -100% is reached by exactly described shocks. In particular the sample innovations that estimate() resamples, replayed in order from the first day, reproduce the observed firm and market log returns, provided the Python correlation back end is used and no in-sample variance was clipped; clipping is visible as a variance at its lower bound or above its upper one. The forecast does not start from the last pseudo-correlation matrix Q_T as documented but from the correlation matrix (1, rho_T): the two agree when Q_T has a unit diagonal or b = 0, and differ in general.

* Ranges over: all admissible parameters, return paths of any length and both back ends, exact arithmetic.
* Model: `Model_replay.v`, `Model_lrmes.v`. Status: proved.
* Proof: the documented filter is written as a recursion on observed returns; one simulation step is shown to be its inverse while the pseudo-correlation matrix stays positive definite, then induction over the path; the in-sample innovations are identified with the filter by induction over the days.
* Theorems: `Props_replay.v`: C107_inverts, C107_unique, C107_every_outcome, C107_replay_sample, C107_inside_bounds_unclipped, C107_start_normalised, C107_start_forgotten, C107_start_refuted.

### C108 SRISK is the mean simulated capital shortfall over the systemic scenarios

SRISK.estimate, called with raw returns, W <> 0 and D, returns the mean over the simulated scenarios with market return below C of k(D+W') - W', where W' is today's equity times one plus the simulated firm return and debt is unchanged; with no systemic scenario it returns today's shortfall. With several firms each gets its own mean shortfall, the aggregate is the sum of the positive ones, and the plain sum is the mean total shortfall of the system over one common set of scenarios: the aggregate is never below it and equals it when no firm has a surplus. For one firm with W and D plain Python floats the aggregate option raises AttributeError whenever the C++ simulation is used or no scenario is systemic, and otherwise gives the positive part.

* Ranges over: all raw returns above -100% with non-constant log returns, all feasible estimates reported by the optimizers, all draws, horizons, C, k, W, D and numbers of firms, exact arithmetic.
* Model: `Model_srisk.v`. Status: proved.
* Proof: SRISK.estimate is instantiated with the modelled LRMES measure (Model_srisk.v); C21_end_to_end gives the LRMES, C24/C25 the formula; the mean of the shortfalls is rewritten by linearity; one index set of systemic scenarios is exhibited for all firms and the two sums are exchanged.
* Theorems: `Props_srisk2.v`: C108_srisk_is_the_mean_shortfall, C108_single_firm_aggregate, C108_many_firms, C108_system.

### C109 All firms of one SRISK call are stressed with the same systemic scenarios

For one market series, seed, horizon and C, a drawn scenario is systemic for one firm exactly when it is systemic for every other: the simulated market path never depends on the firm's returns, its estimates, the correlation, or the contents of uninitialised arrays. So every firm's LRMES has the same divisor, and either all firms get an LRMES from scenarios or all get 0.

* Ranges over: all pairs of firm series, optimizers that report success after evaluating the objective, draws and thresholds, both back ends, in any arithmetic (bit-exact).
* Model: `Model_srisk.v`, `Model_lrmes.v`. Status: proved.
* Proof: relational proof: the simulator's market leg is shown to depend on market state, market parameters and market innovations only; those are traced through estimate_setup back to the single fit of the market series, which is independent of uninitialised memory once the solver evaluates and succeeds.
* Theorems: `Props_srisk2.v`: C109_same_systemic_scenarios.

### C110 SRISK documents log returns but converts its inputs to log returns again

SRISK's arguments are documented as log returns, yet they are passed unchanged to LRMES, which expects simple returns and takes 100 ln(1 + x). Given the log returns of simple returns r the models are therefore estimated on 100 ln(1 + ln(1 + r)), strictly below the intended 100 ln(1 + r) for every r except 0, and a daily loss of more than 1 - 1/e (63%) becomes NaN. Simple returns must be supplied to get the documented measure.

* Ranges over: all return series, exact arithmetic.
* Model: `Model_srisk.v`, `Model_lrmes.v`. Status: proved.
* Proof: refuted documentation: exact series handed to the models, strict inequality ln(1+x) < x, NaN branch of log.
* Theorems: `Props_srisk2.v`: C110_log_returns_are_converted_again, C110_documented_log_returns_refuted, C110_large_loss_becomes_nan.

### C111 PIN is the share of informed trades; the documented sum formula is not

Under the documented trading tree the reported pin is the expected number of informed trades on a day divided by the expected number of trades, i.e. the average of the probability that a buy is informed and the probability that a sell is informed, weighted by how frequent buys and sells are. The documentation's equation (10) instead claims that it is the sum of those two probabilities: for equal uninformed rates the sum equals the reported value only when there is no informed trading at all, is strictly larger otherwise, is twice the value for equally likely good and bad news and can exceed one. With equally likely news a Bayesian market maker's spread is the reported pin times the range of values, as equation (11) says.

* Ranges over: all admissible parameters, all asset values.
* Model: `Model_pin.v`. Status: proved.
* Proof: spec: three kinds of days with rates, expectations over them, Bayesian quotes; field identities, sign of the difference to the documented sum.
* Theorems: `Props_pin3.v`: C111_share_of_informed_trades, C111_average_of_the_two_sides, C111_documented_sum_refuted, C111_spread_is_pin_times_range.

### C112 Symmetries of the PIN likelihood that the PIN estimator does not share

Exchanging buys with sells together with the uninformed rates and good with bad news leaves both likelihoods and the pin unchanged; reordering the days changes neither likelihood nor the starting points; the likelihood of two samples put together is the sum of their likelihoods. The estimator itself is not symmetric in buys and sells: with on average fewer than one sell in ninety buys there is no starting point and estimate returns NaN without an error whatever the optimizer would do, while the same data with the sides exchanged have all 125 starting points.

* Ranges over: all samples, all interior parameters, all permutations of the days, all optimizers.
* Model: `Model_pin.v`. Status: proved.
* Proof: closed form of both likelihoods (C54) as a sum over days; permutations; no-start condition (C53) applied to both labellings.
* Theorems: `Props_pin3.v`: C112_buys_and_sells_exchanged, C112_days_reordered, C112_starts_reordered, C112_samples_joined, C112_estimator_not_symmetric_refuted.

### C113 The PIN objectives on the edge of the optimizer's bounds

The bounds handed to the optimizer include zero uninformed rates. There loglikelihood_EHO2010 is NaN for every data set; loglikelihood_LK2011 equals the mixture likelihood as long as every day has a trade on the side with rate zero (and is +inf exactly when the sample is impossible), but NaN as soon as one day has none, although such a sample has positive probability. The edge is reached: starting points with a sell rate of exactly zero are produced for suitable data, and if there are no buys at all every starting point has buy rate and mu zero and both objectives are NaN at it.

* Ranges over: all parameters on the edge, all samples with non-negative counts, exact arithmetic with IEEE infinities and NaN.
* Model: `Model_pin.v`. Status: proved.
* Proof: sign/NaN analysis of every term in extended reals with IEEE rules, folded over the days; LK exponents on the edge computed exactly and matched with the Poisson mixture at rate zero.
* Theorems: `Props_pin3.v`: C113_eho_nan_on_the_edge, C113_lk_nan_without_buys, C113_lk_nan_without_sells, C113_lost_sample_has_positive_probability, C113_lk_correct_on_the_edge, C113_lk_correct_on_the_sell_edge, C113_lk_impossible_sample, C113_start_on_the_edge, C113_no_buys_at_all.

### C114 The unit of the returns: what scaling returns by a constant does to the GARCH models

The documentation advises to scale returns (e.g. to percent). Multiplying the returns by c multiplies backcast, variance bounds and the starting omega by c^2 (and the starting mu by c); the objective at the correspondingly rescaled parameters is shifted by the constant T ln|c| and every variance is multiplied by c^2, provided no variance was compressed at its upper bound. In the first period in which one is, the excess over the bound is not scaled, so for every data set and every c^2 <> 1 there are admissible parameters for which the two units disagree. The optimizer's box is not in the unit of the data either: omega >= 1e-6 always, the start lies below that bound exactly when the variance of the returns is below 5e-5, and no fit can report a long-run variance below 1e-6.

* Ranges over: all return series with positive variance, all c (GJR: c > 0), all admissible parameters, both classes, with or without mean, exact arithmetic.
* Model: `Model_garch.v`. Status: proved.
* Proof: induction over the variance path with scaled bounds; case analysis of the clipping; log-density scaling; refutation with a huge omega for every data set.
* Theorems: `Props_garch3.v`: C114_bounds_scale, C114_start_scales, C114_objective_scales, C114_unit_free_refuted, C114_start_outside_box, C114_long_run_floor, C114_long_run_floor_gjr.

### C115 Comparing GJR estimates with Stata's tarch needs more than the sign of gamma

The documentation warns that Stata's gamma is the negative because Stata's indicator marks positive shocks. The variances computed by GJRGARCHModel are those of Stata's recursion with gamma negated and alpha replaced by alpha + gamma, for every residual series, and no other Stata parameters give the same updates; negating gamma alone makes every update too small by gamma r^2. The box gamma in [1e-6, 1] means that only a leverage effect, never its reverse, can be estimated.

* Ranges over: all parameters, residual series, backcasts and bounds, exact arithmetic.
* Model: `Model_garch.v`. Status: proved.
* Proof: spec: Stata's update; algebra on the update lifted to the variance path; uniqueness by evaluation at four points.
* Theorems: `Props_docs.v`: C115_stata_equivalent, C115_stata_unique, C115_only_gamma_negated_refuted, C115_box_is_leverage.

### C116 Kyle's lambda is the documented estimate only for signed square-root volumes

The documentation regresses returns on S, the sum over the trades of a period of sign(v) sqrt|v|. The function returns that estimate (times a million) when it is handed S, but its argument is named and documented as signed dollar volume. With dollar volumes it returns another quantity: scaling all volumes by d divides it by d, the documented one by sqrt d, and the two can have opposite signs.

* Ranges over: all samples, all splits of periods into trades, all lstsq implementations meeting numpy's contract, exact arithmetic.
* Model: `Model_measures.v`. Status: proved.
* Proof: spec: documented regressor from trades; C35's normal equation applied to it; scaling of sums; sign counterexample.
* Theorems: `Props_docs.v`: C116_needs_root_volumes, C116_documented_scaling, C116_dollar_volume_scaling, C116_dollar_volume_refuted.

### C117 The Z-score bounds the frequency of insolvency and ranks normal insolvency probabilities

With ROA at its past mean and a positive score Z, at most a fraction 1/(1+Z^2) of the past periods had a loss reaching the capital ratio, whatever the data, and the bound is attained. If profits over assets are normal with mean ROA and the sample standard deviation, the probability that the loss exceeds the capital ratio is Phi(-Z); a bank has a higher score exactly when that probability is lower.

* Ranges over: all non-constant ROA histories, ROAs and capital ratios, exact arithmetic.
* Model: `Model_measures.v`. Status: proved.
* Proof: Cantelli's inequality over finite samples; Gaussian integral (Gauss.v, normal_mean of C105) of the insolvency indicator.
* Theorems: `Props_docs.v`: C117_distribution_free, C117_bound_attained, C117_normal_insolvency, C117_ranks_banks.

### C118 The dataset under concurrent access

Any number of threads may access the stock-returns property and construct the dataset class at the same time, interleaved in any way. No access ever returns None: it returns a table that some access read from the file, or raises the error of its own read. Every construction returns the object made at import and no second object is made. The file is read at most once per access, and once a table is stored only accesses that had already found no table can still read. When a table is stored and no access is between its check and its store, every later access returns that very table and nothing is read again; a first access that runs alone and succeeds brings this about. It is false that the file is read only once or that all threads get the same table: overlapping first accesses each read, and can return different table objects, even a table other than the one they read themselves.

* Ranges over: all finite sets of calls, all schedules of their steps, all file contents at each read.
* Model: `Model_threads.v`. Status: proved.
* Proof: small-step model of the property and of the metaclass call under arbitrary thread schedules (Model_threads.v); invariant of reachable states, a measure for the number of reads, settled states preserved by every step; two concrete schedules for the refuted promises; uninterrupted executions equal the model of C65.
* Theorems: `Props_threads.v`: C118_returns_a_table, C118_own_error, C118_single_instance, C118_no_second_object, C118_reads_at_most_accesses, C118_reads_after_store, C118_settled, C118_first_access_alone_settles, C118_uninterrupted, C118_one_read_refuted, C118_own_table_refuted.

### C119 Interrupted estimations

fit() and estimate() may be cut off by an exception between any two of their attribute assignments, any number of times. A GARCH or GJR fit cut off before it reports success leaves data, estimates and residuals untouched, and the next fit does exactly what it would have done on the untouched object. Run again with the same optimizer behaviour, a univariate, CCC or DCC fit cut off before reporting success ends as if never interrupted, provided no GARCH sub-model was cut off between its flag and its residuals; GJR models recover from every interruption. An interrupted PIN estimation holds the best of the optimizer runs so far and a new estimation gives the same answer as on a fresh object. It is false that an object reporting success has estimates: the flag is set before the parameters, so each fit passes through a state reporting success with the old (NaN) values, after which GARCH fit returns None, and CCC and DCC fits return NaN, for ever; an interrupted second PIN estimation reports success with all parameters NaN.

* Ranges over: all objects, all optimizer behaviours, all interruption points and sequences of interruptions, any arithmetic.
* Model: `Model_crash.v`. Status: proved.
* Proof: the methods rewritten as programs that record the state after every attribute assignment (Model_crash.v), proved to have the same complete runs as the models of C09, C20 and C56; Hoare-style triples over the recorded states; frame lemmas for what a fit depends on.
* Theorems: `Props_crash.v`: C119_complete_fit, C119_nothing_changed_before_success, C119_next_fit, C119_next_fit_same, C119_after_success_flag, C119_success_without_estimates_refuted, C119_gjr_recovers, C119_restart; `Props_crash2.v`: C119_complete_ccc, C119_ccc_restart, C119_ccc_success_without_estimates_refuted, C119_complete_dcc, C119_dcc_restart, C119_dcc_success_without_estimates_refuted, C119_complete_pin, C119_pin_interrupted, C119_pin_again, C119_pin_stale_success_refuted.

### C120 LK2011 never overflows; EHO2010 overflows at every starting value of an active stock

In IEEE binary64 the LK2011 objective is a finite number for every sample of up to 2^53 days and all trade counts up to 2^50 whenever the probabilities lie between 2^-50 and 1-2^-50, the uninformed rates between 2^-500 and 2^500 and mu between 0 and 2^500; in particular at every starting value whose sell rate is not (nearly) zero. The default EHO2010 objective is not finite as soon as one day has min(B,S)+max(B,S)/2 >= 1025 k and one uninformed rate is at most k mu; hence, if the mean number of buys is at least 1 and one day reaches 8200 (say 5467 buys and as many sells), it is infinite or NaN at every starting value of the grid search, so that every optimizer run starts without a usable value.

* Ranges over: all samples, parameters and starting values in the stated ranges; any C library with a bounded log, an exp mapping non-positive numbers into [0,1] and a pow that overflows when the exact power does; any summation order.
* Model: `Model_pinfloat.v`. Status: proved.
* Proof: the two objectives of Model_pin.v run in binary64 (B64); magnitude bounds through every rounding for LK2011; for EHO2010 relative rounding errors of e/(mu+e), Bernoulli's inequality for the power, and propagation of non-finite values through products, logs and any summation tree.
* Theorems: `Props_pinfloat.v`: C120_eho_not_finite, C120_eho_every_start, C120_lk_finite, C120_lk_every_start.

### C121 The unit, sign and order of the two series in the CCC and DCC models

Multiplying the residuals of the two series by c1 and c2 (and their variances by c1^2 and c2^2) leaves the DCC conditional correlations of either backend unchanged, up to the sign of c1*c2; the CCC log-likelihood (with the correlation reflected likewise) and the two-step DCC log-likelihood are shifted by the constant -T(ln|c1|+ln|c2|), so the unit never changes which (a,b) is preferred. Exchanging the two series changes no conditional correlation.

* Ranges over: all residual series of equal length with positive variances and non-constant standardized residuals, all non-zero units, all admissible (a,b), both backends, exact arithmetic.
* Model: `Model_mgarch4.v`. Status: proved.
* Proof: the closed form of both backends proved for C15; the Q recursion commutes with sign changes and with exchanging the series; the bivariate log density under a change of scale.
* Theorems: `Props_mgarch4.v`: C121_correlations_unit_free, C121_correlations_symmetric, C121_ccc_likelihood_units, C121_dcc_objective_units, C121_same_preference.

### C122 Values reported by the empirical MATLAB program

With a table computed by the modified Merton model the program succeeds for every bank file and reports one row per bank. For a bank whose interest rate is strictly between two grid rates and whose (E, sE, 0.2) lies inside the triangulations of the two neighbouring rates, the reported loan value equals the reported debt value plus the OBSERVED equity value, the debt value is at most the book value of debt, the default probability is in [0,1], and every output is within the range of the surrounding grid points. At a rate on the grid every output is 0, so the balance sheet is lost and the bank looks default-free. Moving grid points with NaN or infinite equity volatility to 99 is not without effect as the source says, but if no volatility is negative it changes the reported default probability by at most sE/99.

* Ranges over: all grids of valid points, bank files and value surfaces; any linear interpolant (weights that are convex and depend only on the points); exact arithmetic.
* Model: `Model_empirical3.v`. Status: proved.
* Proof: C70 and C101 at every grid point give the identities of the surface; convex weights carry linear identities and ranges through the 3-d interpolation, C102 through the one over rates; the weight of points moved to 99 is bounded by the reproduced volatility.
* Theorems: `Props_empirical3.v`: C122_balance_sheet, C122_grid_rate_refuted, C122_replaced_points, C122_program.

### C123 Integer residual arrays passed to compute_variance and forecast_variance

The constructors convert returns to float64, the static methods do not convert residuals. For float64 residuals nothing changes. For int64 residuals the pure-Python compute_variance (GARCH and GJR) and forecast_variance return whole numbers that are never negative and never exceed the variances the same residuals give as float64; a variance (or forecast) below 1 becomes 0, and then the log-likelihood is NaN although it is finite for float64. The C++ kernels read the integers' bits as doubles: with non-negative residuals below 2^52 every variance is bit for bit the one for residuals that are all zero (the data are ignored), and after a negative residual every variance is NaN. No error is raised in any of these cases.

* Ranges over: all non-empty int64 residual series (squares below 2^63 for the Python part, absolute values below 2^52 for the C++ part), non-negative parameters, positive bounds, both backends, any square computed as x*x in C++.
* Model: `Model_intresids.v`. Status: proved.
* Proof: the cast is an oracle with the contract of truncation; induction over the series with 0 <= whole number <= float64 variance; the reading of the bits is Flocq's b64_of_bits, small subnormals square to +0.
* Theorems: `Props_intresids.v`: C123_float64_unchanged, C123_integer_garch, C123_integer_gjr, C123_likelihood_refuted, C123_likelihood_gjr_refuted, C123_integer_forecast, C123_cpp_ignores_residuals, C123_cpp_negative_residual.

### C124 The generated test data for loan_payoff

FRDSGenTestDataLoanPayoff.m always succeeds and returns Nsim2 x 10 x 99 factor values, a face value, the initial log value, rho, sig and T that are bit for bit the arguments with which simulate()'s bank is valued by mod_merton_computation for the same uniform draws: the payoff of element (i,j,k) is what the valuation of cohort j on path i in state k continues with (the size of its second loan if it is rolled over before the horizon, its value otherwise), and LoanPayoff.m and loan_payoff agree on the whole array. With exact arithmetic and a converged solver every payoff is the expected repayment, positive and below the face value; it strictly increases along the 33 factor states of each block, the raised block is above and the lowered block below the plain one; and it depends on the path only through the draws of periods 10..9+j, so the oldest cohort repays the same on every path.

* Ranges over: all uniform draws, inverse distribution functions, solvers and numbers of paths; any arithmetic for the first part, exact arithmetic for the second.
* Model: `Model_testdata.v`. Status: proved.
* Proof: mapM over paths, cohorts and states reduced to the valuation model cell by cell; the exact part reuses the closed forms of C58/C67; monotonicity from payoff_increasing_in_factor.
* Theorems: `Props_testdata.v`: C124_same_arguments, C124_enters_valuation, C124_exact, C124_states.

### C125 Spread measures in double precision have a small relative error

For bids, asks, prices, later prices and midpoints that are doubles between 2^-100 and 2^100 (bid not above ask) and volumes that are zero or in that range, the percentage quoted spread, and the undirected percentage effective spread, realized spread and price impact, computed in IEEE double precision differ from the exact result for those inputs by at most k * 2^-52 times the exact result, where k is the depth of the summation tree numpy uses plus 6 (quoted spread), or twice that depth plus 8 (the trade measures), and the depth is below the number of observations; the choice between the volume-weighted and the plain average is never changed by rounding. This fails for the log quoted spread: with correctly rounded logarithms there are quotes with bid < ask whose log spread is computed as exactly 0, a relative error of 100 percent.

* Ranges over: every non-empty list of at most 2^50 quotes or trades in the stated range, every summation order and every math library (the refutation: the correctly rounded one).
* Model: `Model_accuracy.v`. Status: proved.
* Proof: Float64c: a value is k roundings away from an exact non-negative one, k adds up through +, *, / and a summation tree; differences of two doubles are one rounding (Sterbenz-free: the operands are exact); exponents tracked so nothing over- or underflows; the log spread refuted by three adjacent ticks whose logarithms must round alike.
* Theorems: `Props_accuracy.v`: C125_quoted_spread, C125_trade_measures, C125_log_quoted_spread_refuted.

### C126 Rounding errors in the conditional variances grow only linearly

compute_variance (GARCH and GJR, pure Python and compiled) and ewma in IEEE double precision: if parameters, backcast and residuals are zero or of magnitude 2^-100..2^100, the bounds are in 2^-300..2^300 and the exact variances stay at or below half their upper bound, then the variance of period t differs from the exact one for the same inputs by at most (3+2t) * 2^-52 (GARCH) or (5+3t) * 2^-52 (GJR) times the exact variance, whatever the parameters (explosive ones included) and also when the lower bound binds, and both backends return the same bits. The exponentially weighted average of period t has relative error at most (2+2t) * 2^-52 as long as its exact values do not fall below 2^-300.

* Ranges over: all parameters, backcasts, bounds and residual series of at most 2^50 observations in the stated range, both backends, every math library that squares by multiplying.
* Model: `Model_accuracy2.v`. Status: proved.
* Proof: every operation of the recursion is on non-negative numbers, so each costs one rounding and the counts add (Float64c); max with the lower bound keeps relative accuracy; induction over the series side by side with the exact run.
* Theorems: `Props_accuracy2.v`: C126_variances, C126_ewma.

### C127 The LaTeX tables written for the paper can be read back

matrix2latex_Stefan.m writes a table from which everything it was given can be read back: the rows of the file (the lines that end in a row break, cut at the column separators) are, in order and with nothing added, the row label followed by the text of each entry of the matrix - the number in the requested format, in parentheses or brackets where 'specform' says so, nothing where the entry is -9999 - the header line holds the column labels behind an empty corner cell, the column specification has an l for the labels and one alignment letter l, c or r per column, and the additional header line has one cell per group with its text, the number of columns given by 'topwidth' and a rule under exactly the columns of the groups marked '_'. An option name is accepted only if exactly one of the nine options begins with it (letters in any case); otherwise the call fails and no file is opened. The alignment must be one character or the word right: the words left and center, for which the code has branches, always fail (also with no file opened). The table of ModMertonSimulation.m is written and read back for whatever numbers are simulated.

* Ranges over: every matrix, format, marks, labels and header groups whose texts contain no column separator or line break, every number-to-text conversion, and every argument list for the refusals.
* Model: `Model_latex.v`. Status: proved.
* Proof: Model_latex.v writes the file in a monad that keeps what was written when a run fails; Spec_latex.v is a reader of LaTeX tables that does not mention the writer (lines, row breaks, cells, spans); the writer's output is computed as a list of lines by induction over rows, columns and header groups and fed to the reader.
* Theorems: `Props_latex.v`: C127_read_back, C127_top_header, C127_names, C127_alignment, C127_words_refused, C127_any_case, C127_simulation_table.

### C128 Accuracy of MES and the z-score in double precision

For returns that are doubles, zero or of absolute value between 2^-100 and 2^100, at most 2^50 of them, in whatever order numpy adds: the value of MarginalExpectedShortfall.estimate differs from the exact mean of the firm's returns on the selected days (those whose market return compares below the percentile numpy computed) by at most (levels+2)*2^-52 times the mean absolute return, where levels is the depth of the summation tree, so it lies within the range of those returns up to that error, and it is NaN when no day is selected; np.std of a history bounded by B differs from the exact standard deviation sigma by at most E = 5*(levels+5)*2^-52*B, and when 4E <= sigma the z-score has relative error at most 2E/sigma + 2^-51; for a constant non-zero history the z-score is infinite, NaN, or at least |roa+capital_ratio|/(2E) in size. Two things fail in doubles: the MES of equal returns can be strictly larger than all of them (three times 0.1), and a constant history (three times 0.1) gives the finite z-score 14411518807585588 for roa = capital_ratio = 0.1.

* Ranges over: every list of such returns, every q, every summation order, every correctly rounded IEEE binary64 arithmetic.
* Model: `Model_averages.v`. Status: proved.
* Proof: Float64d.v bounds the absolute error of sums, means and standard deviations of signed doubles by induction over the summation tree (the standard deviation through root mean squares: shifting every deviation by d moves it by at most d); the two counterexamples are computed by the kernel in Flocq's binary64.
* Theorems: `Props_averages.v`: C128_mean, C128_mes, C128_standard_deviation, C128_zscore, C128_constant_history, C128_mes_range_refuted, C128_constant_history_refuted.

### C129 Black-Scholes prices in double precision

With a mathematical library whose log and exp have relative error 2^-52 and whose normal distribution function lies in [0,1] with absolute error 2^-52, for prices, time and volatility between 2^-100 and 2^100, rates that are zero or of that size, and |r*T|, |q*T| at most 100, blsprice returns two finite numbers; each differs from the exact price for the same inputs by at most 28*2^-52*N*(1+A), where N = S e^(-qT)(1+|qT|) + K e^(-rT)(1+|rT|) and A = (1+|ln(S/K)|+(|r|+|q|+sigma^2/2)T)/(sigma sqrt T) + sigma sqrt T. Put-call parity holds up to 30*2^-52*N, whatever the volatility and moneyness. The call never exceeds the computed discounted stock price and the put never exceeds the computed discounted strike; neither is below minus the error above. A strictly positive price is not guaranteed: with correctly rounded functions there is an option with a positive exact call price for which exactly 0 is returned.

* Ranges over: every option in the stated range and every library within the stated error bounds.
* Model: `Model_option64.v`. Status: proved.
* Proof: the model of blsprice run in Flocq's binary64; forward error analysis with an absolute-error predicate (value, reference, size) pushed through every operation of the function; library functions enter only through accuracy contracts that correctly rounded functions are shown to satisfy; parity compares both prices to the same reference at the computed d1, d2.
* Theorems: `Props_option64.v`: C129_accuracy, C129_parity, C129_bounds, C129_positive_refuted.

### C130 Market volatility simulated by LRMES reverts to a level fixed by the sample

Averaged over all n^h sequences of days the bootstrap of LongRunMarginalExpectedShortfall can draw, the squared deviation of the simulated market log return from mu on the (k+1)-th simulated day is the mean squared standardized residual times v_k, where v_0 is tomorrow's (known) variance and v_(k+1) = omega + kappa v_k, kappa = beta plus the sample mean of (alpha + gamma 1[z<0]) z^2; both back ends simulate these returns. If kappa < 1, v_k = L + kappa^k (v_0 - L) with L = omega/(1-kappa), otherwise v_k grows at least linearly; kappa is alpha + gamma/2 + beta (what the optimizer constrains) when the residuals have mean square one, half of it on negative days; in general it is not, and admissible estimates can make the simulated variance explode. With residuals of mean zero the h-day log return has mean h mu and variance the sum of the v_k. The share of all possible scenarios that are systemic is at most h times that variance over the squared distance of 100 ln(1+C) from h mu, and without the factor h if the residuals have mean zero.

* Ranges over: every admissible parameter set, sample of standardized residuals, horizon, day and threshold; averages over every possible draw.
* Model: `Model_volterm.v`. Status: proved.
* Proof: Draws.v lists every sequence of draws once (proved) and defines averages and shares over them; the average over the first draw of the remaining average (tower rule) turns the simulated GJR recursion into a linear one, solved in closed form; the systemic share by Chebyshev's inequality over the list of draws; a counterexample for the persistence.
* Theorems: `Props_volterm.v`: C130_market_volatility, C130_long_run_level, C130_persistence, C130_persistence_refuted, C130_horizon, C130_systemic_share.

### C131 Monte Carlo error of LRMES

Let p be the share of the n^h possible scenarios that are systemic, and the exact LRMES minus the mean firm return over those. Among all (n^h)^S possible draws of S scenarios, the share for which estimate() returns a value more than eps away from the exact one is at most 4/(S p) (1 - p + V/eps^2), where V is the variance of the firm return over the systemic scenarios; every draw gives a finite result. So the estimate converges as S grows, at a rate governed by S p, the number of systemic scenarios, which is also their average number; the share of the draws without any systemic scenario, for which 0 is returned, is exactly (1-p)^S.

* Ranges over: every fitted model, sample, horizon, number of simulations, threshold and tolerance; shares over every possible draw.
* Model: `Model_montecarlo.v`. Status: proved.
* Proof: over the list of all (n^h)^S experiments: independence is a lemma about sums over sequences of draws; the error event is covered by two Chebyshev events (too few systemic scenarios, a large sum of centred firm returns), both computed exactly; tied to estimate() through C21.
* Theorems: `Props_montecarlo.v`: C131_monte_carlo_error, C131_convergence, C131_number_of_events, C131_estimate.

### C132 LRMES estimates with the same seed share their scenarios

Every call of estimate() restarts the generator from its seed. With the same seed and horizon, the scenarios of a run with more simulations begin with those of the shorter one, in every arithmetic and both back ends: if the longer call succeeds so does the shorter, the longer run continues from the shorter one's total and event count, and the number of systemic scenarios never falls. The longer estimate is the average of the shorter one and of the added scenarios' LRMES weighted by their numbers of systemic scenarios, and is unchanged when none of the added ones is systemic. With another threshold the same scenarios are used, so a severer threshold never has more events. Provided numpy draws the indices of one call one after the other, runs with different horizons cut one and the same sequence of days into scenarios (10000 scenarios of 22 days and 5000 of 44 use the same days in the same order).

* Ranges over: every generator, seed, horizon, pair of simulation counts or horizons, threshold, state of the object, arithmetic and back end.
* Model: `Model_scenarios.v`. Status: proved.
* Proof: numpy's generator as an abstract state machine (one call of choice per scenario); prefix and concatenation lemmas by induction over the calls, the accumulation loop is a fold, so it continues; the one-element-at-a-time contract is only used for the horizon clause and is met by an explicit generator.
* Theorems: `Props_scenarios.v`: C132_nested, C132_horizons_cut_the_same_days, C132_longer_runs_continue, C132_update, C132_thresholds.

### C133 Isolation forest path lengths are centred on the score normaliser

On numeric data without ties, if the generator draws uniformly, the path length the forest uses in a score, averaged over the members of a tree's sample and over everything the generator can draw, depends only on the number of members and the height limit - not on the data, the number of attributes or the order of the sample. It differs from the normaliser c(n) of the scores by at most 0.86 downwards and about 1.51 + 1/(n-1) - 1/n upwards at every height limit, so relative to c(n) it tends to 1 as the sample grows: the average member of a sample has a normalised depth near 1 (score near one half). The normaliser itself takes ln(n-1) + 0.5772 for the harmonic number H(n-1) and is below the mean depth of n uniformly cut values, 2(H(n)-1), by between 4/(4n-3) - 0.005 and 1/(n-1) + 0.002; for two members it is 0.154 although any tree that separates them adds a full level.

* Ranges over: every data set of numeric attributes without ties on the sample, sample of at least two members, height limit, and number range that all ranges of the generator divide.
* Model: `Model_pathlen.v`. Status: proved.
* Proof: the engine as a stream of numbers below N (a multiple of every range), draws by remainder, all streams equally likely (Draws.v); the ranks of the drawn members are a permutation of 0..n-1, so the mean over draws and members of the model's growTree/pathLength satisfies a recursion in the sample size (induction on the height); the excess over 2(H_n - 1) is bounded by the same recursion, and Harmonic.v compares H_m with ln m + 0.5772 by monotone bounds evaluated at m = 8.
* Theorems: `Props_pathlen.v`: C133_normaliser, C133_two, C133_mean_path, C133_close, C133_ratio.

### C134 What makes an observation an outlier for the isolation forest

Scores depend on numeric attributes only through the order of the values and the positions of missing values: two data sets with the same order in every attribute give every observation the same score, bit for bit, for every generator, seed and number of workers. In particular the largest value of an attribute can be replaced by any larger finite one without changing any score: how far out an outlier lies does not matter (unlike in Liu, Ting and Zhou, where cut values are drawn from the range). What does count is being extreme in rank: for a generator that draws uniformly, an observation of the sample with the smallest or the largest value in every attribute (no ties) has, averaged over everything that can be drawn, a path length between H(n-1) - 2 and H(n-1) + 2 in a tree of the code's height limit, so its normalised depth tends to 1/2 as n grows, while that of the average member tends to 1.

* Ranges over: every data set, pair of data sets with the same order, generator, seed, number of workers, sample size; averages over all sequences of draws.
* Model: `Model_outlier.v`. Status: proved.
* Proof: simulation argument: trees of two data sets with the same order are related node by node (same path lengths), lifted through worker_loop and all_workers_trees for any Arith; extreme observations: the part they fall into has size rank or n - rank of the drawn member, giving the recursion E = 1 + mean of E(1..n); its excess over 1 + H(n-1) halves with every level (induction on the height).
* Theorems: `Props_outlier.v`: C134_only_order, C134_distance, C134_extreme, C134_half.

### C135 Rounding errors in the Gaussian log-likelihood that the GARCH fits maximise

In IEEE doubles the computed log-likelihood of a residual series under given variances differs from the exact sum of log normal densities by at most (8 + depth of numpy's summation tree) 2^-52 times the sum of the sizes of its terms, 1 + (|ln 2 pi| + |ln s| + r^2/s)/2 each; when the variances are themselves computed by the GARCH or GJR recursion from the same parameters the constant 8 grows by 3 + 2T or 5 + 3T for T observations. Hence two candidates whose exact log-likelihoods differ by more than the two bounds are always compared the right way round.

* Ranges over: every nonempty residual series of at most 2^50 (2^48 with the recursion) doubles that are 0 or between 2^-100 and 2^100 in size, all variances between 2^-500 and 2^500 or all parameters, backcasts and bounds in the range of the variance property, every summation order, every libm whose logarithm is accurate to 2^-52.
* Model: `Model_loglik64.v`. Status: proved.
* Proof: absolute error carried through every operation (Float64d/e): value, reference and size; logarithms of rounded arguments through |ln w - ln s| <= k ln(1+2^-53); sums in any order with a size per term; combined with the relative errors of the variances (C126) and the exact value (C11).
* Theorems: `Props_loglik64.v`: C135_loglikelihood, C135_model, C135_comparison.

### C136 What the absorption ratio measures

The estimate is the largest share of the assets' total variance that any k uncorrelated bets (k weight vectors of length one, orthogonal to each other, k the fraction times the number of assets rounded half up) can explain, and some such portfolios reach it. So it is at least the share of the k most volatile assets by themselves; it does not change when the assets are reordered, when signs are flipped, or when they are mixed by any rotation; it is 1 as soon as one portfolio is used if all assets move with a single factor; and for uncorrelated assets it is the share of the k largest variances, just k/n when these are equal.

* Ranges over: every return matrix of at least two assets and two days with positive total variance, every fraction in [0,1], every family of orthonormal portfolios, every rotation and permutation, every eigenvalue routine returning the spectrum.
* Model: `Model_portfolio.v`. Status: proved.
* Proof: Ky Fan's inequality from Bessel's inequality and the weighting lemma of C32; portfolio covariances are the bilinear form of the covariance matrix; the maximum is reached by the top eigenvectors (a complete family of unit vectors is orthogonal); a rotation maps a spectrum to a spectrum, a permutation is a rotation; one factor and uncorrelated assets by exhibiting the spectrum or the portfolio.
* Theorems: `Props_portfolio.v`: C136_largest_share, C136_at_least_the_largest_assets, C136_rotation, C136_order, C136_one_factor, C136_uncorrelated.

### C137 How long a starting value or a single shock stays in the conditional variances

compute_variance (GARCH and GJR-GARCH) for two inputs that differ in the backcast and in any residuals, with the same parameters and bounds: the variances of period t differ by at most beta^t times the start weight (alpha+beta, or alpha+gamma/2+beta) times the difference of the backcasts, plus, for every earlier period j, beta^(t-1-j) times the difference of the impacts (alpha r^2, plus gamma r^2 if r<0) of the two residuals - also when bounds are active, as long as no upper bound below one is exceeded - and by exactly the signed sum of these when no bound is active. In particular the influence of the backcast and of a single day dies out like beta^t, a residual never changes the variance of its own or an earlier day, and changing the backcast moves the log-likelihood of a sample of any length by at most a constant that does not depend on its length. If an upper bound below one is exceeded the influence can be amplified by any factor. The exponentially weighted average forgets its initial value exactly like lambda^t.

* Ranges over: all parameter vectors with beta >= 0 (explosive ones included), all pairs of residual series, backcasts and positive bounds.
* Model: `Model_influence.v`. Status: proved.
* Proof: the adjustment to the bounds moves no more than its argument when the upper bound is at least one (ln(1+x) <= x), and is the identity when inactive; induction over time on the difference of two variance paths; the log density is Lipschitz in the variance above m, and a geometric sum bounds the total; the refutation doubles a variance above a small upper bound.
* Theorems: `Props_influence.v`: C137_difference, C137_difference_exact, C137_backcast, C137_shock, C137_loglikelihood, C137_small_upper_refuted, C137_ewma.

### C138 Rounding errors in SRISK and SES

In IEEE double precision, for equity W between 2^-100 and 2^100, debt D and LRMES L zero or of that size (D not negative) and a capital ratio k in [0,1] zero or of that size, the SRISK of one firm differs from the exact kD - (1-k)W(1-L) by at most 8 * 2^-52 * (k(D+W) + W(1+|L|)), so its sign is right whenever the exact shortfall exceeds that amount. The aggregate SRISK of many firms differs from the sum of the positive parts of the exact shortfalls by at most (8 + number of levels of the summation tree) * 2^-52 times the sum of those gross sizes. The SES estimate (b*mes + c*lvg)/(b+c) built from the fitted coefficients is within 6 * 2^-52 * (|b*mes| + |c*lvg|)/|b+c| of the exact one if |b+c| >= 2^-100.

* Ranges over: all equities, debts, capital ratios and LRMES values in the stated ranges, all numbers of firms (up to 2^50), all summation orders of the array sum, all fitted coefficients.
* Model: `Model_srisk64.v`. Status: proved.
* Proof: the relative-error calculus of Float64c/d along the evaluation order of the formula, 1-k and 1-L bounded separately; the aggregate by the bound for an arbitrary summation tree; the sign by the triangle inequality.
* Theorems: `Props_srisk64.v`: C138_srisk, C138_sign, C138_aggregate, C138_ses.

### C139 Rounding errors in the DCC conditional correlations

In IEEE double precision, for weights a and b with 1-a-b >= 1/n, residuals zero or between 2^-100 and 2^100 in size and variances in that range, the C++ backend's conditional correlation of day t differs from the one exact arithmetic gives by at most (4n + 2T + 6t + 28) * 2^-52, T being the number of days: the error grows only linearly with time, although the correlation is a ratio that could cancel. So a computed correlation never exceeds one in size by more than that amount, and lies strictly inside (-1,1) wherever the exact one is further inside than that. The Python backend satisfies the same bound with (4n + 2K + 6t + 20) * 2^-52 if numpy's sample correlation of the standardised residuals carries an error of at most K * 2^-53 and its variances are in range.

* Ranges over: all residual and variance series in the stated range, of any length up to 2^48, all weights a and b with a+b < 1, both backends.
* Model: `Model_dcc64.v`. Status: proved.
* Proof: induction over time with the diagonal entries known to a relative error of L roundings and the off-diagonal one to L roundings of a majorant G that satisfies the same recursion; (Q11, G, Q22) stays positive semidefinite, so G / sqrt(Q11 Q22) <= 1 and the error of the ratio is absolute; the rounded 1-a-b is off by 2n+1 roundings.
* Theorems: `Props_dcc64.v`: C139_cpp, C139_range, C139_python.

### C140 Rounding errors in the limit-order-book slopes and depth differences

In IEEE double precision, with sizes that are zero or between 2^-100 and 2^100 and prices in that range: (i) the ask slope of quotes priced above the midpoint, and the bid slope of quotes priced away from it, are within a relative error of (d_k + d_n + 3) * 2^-52 of the exact slope, however small the distance to the midpoint, where d_k and d_n are the depths of the summation trees over k levels and n quotes; (ii) the slope difference is within (d_n + 7) * 2^-52 times the average of the two segment slopes' sizes; (iii) the scaled depth difference is within (2 d_k + d_n + 8) * 2^-51 of the exact one, on its scale from -2 to 2, and in both arithmetics averages the same quotes: those with some depth (NaN when there is none).

* Ranges over: all numbers of quotes and levels up to 2^50, all sizes and prices in the stated ranges, all summation orders of the array sums.
* Model: `Model_lob64.v`. Status: proved.
* Proof: the difference of two doubles is correctly rounded, so the distance to the midpoint has one relative rounding; sums and means of non-negative terms keep relative errors; signed terms are tracked by the near calculus with the size they are relative to; quotes without depth give 0/0 = NaN in double precision exactly when their exact depth is zero.
* Theorems: `Props_lob64.v`: C140_slope, C140_slope_difference, C140_depth_difference.

### C141 Monte Carlo error of the simulated SRISK

The model that a call of SRISK.estimate fits does not depend on the days its random generator draws; call exact the value returned when each of the n^h possible h-day scenarios (n days of data) is simulated exactly once. (i) Every draw of S scenarios returns a number, and among all (n^h)^S draws the share for which one firm's SRISK is more than |(1-k)W| eps away from its exact value is at most 4/(S p) (1 - p + var/eps^2), p being the share of the scenarios in which the market falls by more than C and var the variance of the firm's return over them. (ii) With several firms a scenario is systemic for all of them or for none, so p is common; the share of the draws for which the aggregate is more than sum |(1-k)W_c| eps away from its exact value is at most the sum of the firms' bounds. (iii) For every tolerance and level there is a number of simulations from which on at most that share of the draws is further off.

* Ranges over: all raw returns, fitted models, thresholds with a systemic scenario, equities, debts, capital fractions, horizons, numbers of firms and of simulations, tolerances.
* Model: `Model_sriskmc.v`. Status: proved.
* Proof: the fitted model is a function of the returns alone (estimated is re-proved for every other set of draws); SRISK is affine in the LRMES, so the second-moment bound of C131 carries over with the factor |(1-k)W|; several firms by a union bound, the positive part being 1-Lipschitz; the market path is the same for all firms (C108/C109), hence common events.
* Theorems: `Props_sriskmc.v`: C141_fitted, C141_firm, C141_same_events, C141_system, C141_convergence.

### C142 Rounding errors in the LK2011 PIN log-likelihood

In double precision PIN.loglikelihood_LK2011 returns a finite number that differs from minus the logarithm of the Poisson-mixture likelihood of the sample times the factorials of the counts (which the formula omits) by at most (15 + D) 2^-52 times the sum of the days' sizes, D being the depth of NumPy's summation of one value per day and the size of a day with n buys and k sells being eB + eS + n (1 + |ln(mu+eB)|) + k (1 + |ln(mu+eS)|) + 49 (mu + n (1 + ln(1 + mu/eB)) + k (1 + ln(1 + mu/eS))) + 154. Days for which the exponentials of the formula underflow to zero are included. Hence, when the log-likelihoods of two parameter vectors differ by more than their two bounds, the objective the optimiser minimises orders them correctly.

* Ranges over: all samples of up to 2^50 days with up to 2^30 buys and sells each, all doubles alpha and delta in [2^-50, 1-2^-50], eB and eS in [2^-40, 2^40], mu 0 or in that range; all library logarithms and exponentials accurate to a relative 2^-52 (exp on [-200,200], below 2^-199 further left); every order of summation.
* Model: `Model_lk64.v`. Status: proved.
* Proof: each day: relative error analysis (near) of the three exponents, of the exponentials of their differences with the maximum (absolute error, with a separate branch where exp may underflow), of the mixture (at least 2^-100 because one exponent is the maximum) and of its logarithm; the days by the summation-tree lemma; the exact value is the Poisson mixture by the lemmas of C55; comparison by subtraction.
* Theorems: `Props_lk64.v`: C142_loglikelihood, C142_comparison.

### C143 DCC conditional correlations are weighted averages that forget

For both backends, day t's DCC conditional correlation is the correlation of a 2x2 matrix whose entries are weighted averages of the products of the standardized residuals of the days before t and of the long-run matrix (sample correlations in Python, uncentred second moments in C++): day j has the weight a b^(t-1-j), the long-run matrix the rest, so the weights are at least 0 and add up to 1. Consequently, if the standardized residuals of two data sets agree from day u on, their correlations of day t >= u differ by at most 3 ((1-b) e + a M b^(t-u)) / (c (1-a-b)), e being the difference of the long-run matrices, M that of the earlier products and c a lower bound for the long-run variances (1 in Python): an old outlier acts on later days through the sample correlation, otherwise its effect fades like b^(t-u).

* Ranges over: all parameters a, b >= 0 with a + b <= 1 other than (1, 0) (a + b < 1 for forgetting), all residual and variance series of every length with non-constant standardized residuals, both backends, all u, t.
* Model: `Model_dccavg.v`. Status: proved.
* Proof: the matrix recursion of C15 in closed form by induction on the days (a geometric sum of past products; the missing weight is the long-run one); the correlation of a matrix is Lipschitz with constant 3/m when the diagonal is at least m (case split on which determinant product is larger); the difference of two weighted averages splits at day u.
* Theorems: `Props_dccavg.v`: C143_weighted_average, C143_forgetting, C143_python.

### C144 Rounding errors of the CCC log-likelihood

Computed in IEEE doubles with a libm within 2^-52 for log and pi (and squaring as a multiplication), the bivariate log-likelihood of the constant-correlation model, for given residuals, variances and correlation, differs from the exact sum of bivariate normal log-densities by at most (4n + 18 + depth) 2^-52 times the total size of the parts it is computed from, where 1/n is a lower bound for 1 - rho^2 and depth is that of the summation tree. So close to perfect correlation the error can grow with 1/(1 - rho^2), and two candidate correlations are ranked correctly whenever their exact log-likelihoods differ by more than the two error bounds.

* Ranges over: all series of equal length up to 2^50, all residuals that are zero or of size 2^-100 to 2^100, all variances between 2^-100 and 2^100, all correlations (0 or at least 2^-100 in size) with n (1 - rho^2) >= 1, n up to 2^40, every libm within the error bounds and every summation order.
* Model: `Model_ccc64.v`. Status: proved.
* Proof: one term is tracked with the relative/absolute error calculus of C135: 1 - rho^2 is within 4n+1 roundings because the error 2^-52 of rho^2 is at most 2n 2^-53 (1-rho^2); the quadratic form is a difference of terms each known relative to its own size; log and sum add their own errors; comparison by the triangle inequality.
* Theorems: `Props_ccc64.v`: C144_ccc_loglikelihood, C144_comparison.

### C145 Rounding errors of the two-step DCC log-likelihood

Computed in IEEE doubles with a libm within 2^-52 for log and pi (and squaring as a multiplication), the two-step DCC objective for given residuals, variances and conditional correlations - the two univariate likelihoods, the standardisation, the clipping at 0.99 (itself not a double) and the correlation component - is minus the exact sum of bivariate normal log-densities at the clipped correlations up to (631 + depth) 2^-52 times the total size of its parts, depth being that of the summation tree: the clipping keeps the loss of accuracy near perfect correlation bounded. Of two correlation paths the computed objective prefers the better one whenever their exact log-likelihoods differ by more than the two error bounds.

* Ranges over: all series of equal length up to 2^50, all residuals that are zero or of size 2^-100 to 2^100, all variances between 2^-100 and 2^100, all finite correlations that are 0 or at least 2^-100 in size (also far outside [-1, 1]), every libm within the error bounds and every summation order.
* Model: `Model_dcclik64.v`. Status: proved.
* Proof: as C144 with the clipped correlation known up to one rounding (0.99 is rounded) and n = 51 because 51 (1 - 0.99^2) >= 1; the two univariate likelihoods by C135; the exact value is the bivariate log-likelihood by C18.
* Theorems: `Props_dcclik64.v`: C145_two_step, C145_comparison.

### C146 Rounding errors of anomaly scores and the effect of thread scheduling on them

Growing and scoring only compare the observations' numbers, so a forest grown on IEEE doubles is the forest exact arithmetic grows from the same random draws, NaN included; only the path totals, the normaliser and the power are rounded. With a libm whose log is within 2^-52 relative and whose pow(2, y), y <= 0, is within 2^-52 absolute, the score of any observation is a finite double that differs from the exact score by at most (number of trees + 2250) 2^-52. Hence the scores of one observation under two thread schedules, whose trees are summed in different orders, differ by at most twice that; and two observations whose exact scores differ by more than twice that are ranked correctly by the computed scores.

* Ranges over: all data sets (NaN and infinite values included), all random generators, all forests whose trees have at most 2^50 levels and observations per leaf (every forest grown with forest_size times tree_size at most 2^50), all schedules of any number of workers, every libm within the error bounds.
* Model: `Model_score64.v`. Status: proved.
* Proof: the grown trees commute with the value map because growing only compares; relative error of the path total (one rounding per tree) and of the normaliser (near its own size by c(n) >= 0.154), then exp(-y) y <= 1 turns a relative error of the exponent into an absolute error of the score; two schedules are permutations with the same exact score (C61).
* Theorems: `Props_score64.v`: C146_same_trees, C146_score, C146_ranking, C146_forest_is_tame, C146_schedules.

### C147 Contingent claim analysis in double precision

In IEEE doubles the put price returned by contingent claim analysis is, bit for bit, the put that blsprice computes for assets of value x0^2 and volatility x1^2 (the squares of the solver's vector, as rounded) struck at the default barrier, without dividends; the only possible error after the solver is an OverflowError of the last exponential. That put differs from the exact Black-Scholes put by at most 28 2^-52 times (discounted barrier and assets, weighted with the size of the exponents) times (1 + sensitivity of d1), and never exceeds the discounted barrier as computed. With a CDS spread of zero the premium returned equals the put exactly, provided the exact risky debt is at least twice that error bound; under the same proviso, for a CDS spread between 0 and 2^100, a rate >= 0 and a put computed as >= 0, the call succeeds and the premium lies between the put minus the discounted barrier and the put, all as computed.

* Ranges over: all solver results, barriers and maturities with x0^2, x1^2, barrier and maturity between 2^-100 and 2^100, rates zero or of that size with at most 100 time units of compounding, every libm with relative errors of 2^-52 for log and exp, exp(0) = 1, exp(x) in [0, 1] for x <= 0 and an absolute error of 2^-52 for the normal distribution function.
* Model: `Model_cca64.v`. Status: proved.
* Proof: rf - 0 = rf and a exp(-0) = a hold bit for bit, so the put expression is the one of blsprice and C129 applies; for the zero spread the exact debt is compared with the accumulated errors so that the computed debt is a normal number, the quotient finite and the last exponent a zero.
* Theorems: `Props_cca64.v`: C147_put_is_blsprice, C147_accuracy, C147_zero_spread, C147_protection.
