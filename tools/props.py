#!/usr/bin/env python3
"""Source of truth for properties.jsonl (run: python3 tools/props.py)."""
import json, os
P = []
def p(title, statement, quantifier, why, *anchors):
    P.append(dict(id="C%02d" % (len(P) + 1), title=title, statement=statement,
                  quantifier=quantifier, why_tests_cant=why, anchors=list(anchors)))
G = "src/frds/algorithms/_garch.py"
GH = "src/frds/algorithms/utils/garch.hpp"
UM = "src/frds/algorithms/utils/utils_module.cpp"
MG = "src/frds/algorithms/_mgarch.py"
MGH = "src/frds/algorithms/utils/mgarch.hpp"
M = "src/frds/measures/"
MM = "src/frds/measures/modified_merton/"
IF = "src/frds/algorithms/isolation_forest/"

# ---------------------------------------------------------------- GARCH
p("GARCH/GJR-GARCH conditional variances are always positive and respect their lower bounds",
  "For omega>0, non-negative alpha, beta (and gamma), a non-negative backcast and positive variance bounds, compute_variance returns one finite, strictly positive number per residual, and from the second period on each is at least that period's lower bound. The log-likelihood taken from it is therefore finite.",
  "all residual series of any length >= 1, all parameter values in the stated region, all bounds arrays with 0 < lower <= upper",
  "residual series and parameters are unbounded; the optimizer visits arbitrary parameter points",
  f"{G}:GARCHModel.compute_variance", f"{G}:GJRGARCHModel.compute_variance", f"{GH}:compute_garch_variance")
p("Conditional variances use no future information",
  "The conditional variance reported for period t depends only on the residuals before t, the bounds up to t, the backcast and the parameters; changing later residuals never changes it. The output has exactly one entry per residual, the first is omega plus persistence times backcast (and is not bounds-checked), and every later one is the bounds-checked GARCH update of the previous one.",
  "all arithmetics (hence IEEE doubles bit for bit), all parameters, all residual series that agree up to t, all t",
  "a claim about every pair of series; tests look at a handful of fixed series",
  f"{G}:GARCHModel.compute_variance", f"{G}:GJRGARCHModel.compute_variance")
p("The pure-Python fallback and the C++ extension compute the same variances, unless NaN is involved",
  "bounds_check, ewma, compute_variance (GARCH and GJR) give the same result with and without the C++ extension for all non-NaN data. With NaN they differ: the Python bounds_check replaces a NaN variance by the lower bound, the C++ one propagates it. In binary64 the two agree bit for bit whenever the C++ result has no NaN and the lower bounds are positive (ewma: whenever x**2 is computed as x*x).",
  "all residuals, bounds, parameters and both backends",
  "the backend is chosen at import time, a test run exercises only one of them; equality is over all inputs",
  f"{G}:GARCHModel.bounds_check", f"{G}:GARCHModel.ewma", f"{GH}:bounds_check", f"{GH}:ewma", f"{GH}:compute_gjrgarch_variance")
p("bounds_check is the identity inside the bounds, raises to the lower bound, and compresses logarithmically above the upper one",
  "For 0<lower<=upper: a variance in [lower, upper] is returned unchanged, one below is raised to lower, a finite one above upper becomes upper+ln(v/upper) (still above upper), an infinite one becomes upper+1000; the result is never below lower and the map is non-decreasing on finite variances. It does not cap at upper, and when upper<1 it can even increase a variance.",
  "all variances (finite or infinite) and all bounds 0 < lower <= upper",
  "continuum of inputs with three branches and a special value",
  f"{G}:GARCHModel.bounds_check", f"{GH}:bounds_check")
p("EWMA is the documented exponentially weighted average",
  "ewma(r, v0, lam) has one entry per residual, entry t is lam^t*v0 + (1-lam)*sum_{i<t} lam^(t-1-i)*r_i^2, and for lam in [0,1] every entry lies between the least and greatest of v0 and the earlier squared residuals; it is causal.",
  "all residual series, all t, all initial values, all decay factors",
  "closed form for an unbounded recursion",
  f"{G}:GARCHModel.ewma", f"{GH}:ewma")
p("The backcast is a weighted average of the first 75 squared residuals",
  "backcast is a convex combination with strictly decreasing weights 0.94^i / sum of the first min(75,T) squared residuals: it lies between their minimum and maximum, is unaffected by later residuals, by the sign of residuals, and is quadratic under rescaling.",
  "all residual series of length >= 1",
  "ranges over all series and both sides of the 75 boundary",
  f"{G}:GARCHModel.backcast")
p("variance_bounds yields a positive, ordered, per-period bracket unless the residuals are all zero",
  "For every residual series that is not identically zero each row satisfies 0<lower<upper, upper = 1e12*lower, the raw EWMA is clipped to [var/1e8, 1e7*(1+max r^2)] before scaling (the upper clip never takes effect). For identically zero residuals every row is (0,0), and the GARCH recursion (omega, beta > 0) then produces an infinite variance in the second period.",
  "all residual series of length >= 1",
  "needs all series; the failing inputs are a degenerate set no sample hits",
  f"{G}:GARCHModel.variance_bounds")
p("GARCH starting values: documented argmax is not what is returned",
  "starting_values documents that it returns the grid candidate with the highest log-likelihood. It returns instead the last grid candidate whose negated log-likelihood is greater than -inf; when all log-likelihoods are finite that is always (alpha=0.2, persistence 0.98): [0.02*var, 0.2, 0.78] for GARCH and [0.02*var, 0.2, 0.2, 0.68] for GJR, whatever the data. Every candidate has alpha+beta(+gamma/2) equal to a grid persistence below one and implied unconditional variance equal to the sample variance. When all residuals are zero (constant returns with an estimated mean, or all-zero returns with zero_mean) no candidate is accepted and an empty start vector is returned; non-zero constant returns with zero_mean start from omega = 0, below the optimizer's bound.",
  "all return series, both models, all 16 / 64 candidates",
  "a claim about all data: the value returned is independent of the data",
  f"{G}:GARCHModel.starting_values", f"{G}:GJRGARCHModel.starting_values")
p("GARCH fit() protocol over any call history",
  "GARCHModel.fit returns the Parameters object while not yet successful, and None on every call after a successful one (its signature promises Parameters); a successful estimate is never overwritten. GJRGARCHModel.fit re-estimates on each call. A failing optimizer leaves parameters at their previous value. With zero_mean the reported mu is exactly 0 and the optimizer sees one parameter fewer.",
  "all sequences of fit() calls and all optimizer outcomes",
  "histories of calls and solver outcomes are unbounded",
  f"{G}:GARCHModel.fit", f"{G}:GJRGARCHModel.fit")
p("After fit(): residuals and likelihood match the reported parameters, sigma2 need not",
  "After a successful fit the stored resids are returns minus reported mu, the reported loglikelihood is the model log-likelihood at the reported parameters (given the optimizer returns fun = objective(x)), and the parameters satisfy the box bounds and stationarity constraint passed to the optimizer. sigma2, however, is whatever the optimizer's LAST objective evaluation left there: it equals the variance series at the reported parameters only if that last evaluation was at opt.x.",
  "all return series, all optimizer evaluation sequences",
  "depends on the hidden sequence of evaluations inside the optimizer",
  f"{G}:GARCHModel.fit", f"{G}:GARCHModel.loglikelihood_model")
p("The univariate log-likelihood is the Gaussian one",
  "loglikelihood(resids, sigma2) equals the sum over t of the log of the N(0, sigma2_t) density at resids_t for every positive variance series; and over all constant positive variances it is maximised at the mean squared residual.",
  "all residual and positive variance series",
  "identity over all real series",
  f"{G}:GARCHModel.loglikelihood")
p("GJR-GARCH nests GARCH and the leverage term only ever adds variance",
  "With gamma=0 GJR compute_variance equals GARCH compute_variance; with gamma>=0 every GJR variance is at least the GARCH one; GARCH is invariant to sign flips of residuals; a GJR series with negative shock has variance >= the same series with the shock's sign flipped.",
  "all residual series, parameters in the admissible region and bounds",
  "relational property over pairs of executions",
  f"{G}:GJRGARCHModel.compute_variance", f"{GH}:compute_gjrgarch_variance")
p("GJR variance forecast is the unbounded recursion, offset by one",
  "forecast_variance returns len(resids)-1 numbers, the k-th being the GJR recursion applied k+1 times from initial_variance; it is positive for admissible parameters, causal, and coincides with compute_variance[1:] whenever no bound binds and the initial values agree. An empty residual array raises IndexError.",
  "all residual series, parameters and initial variances",
  "all lengths, relational",
  f"{G}:GJRGARCHModel.forecast_variance")
p("The C++ wrappers read the raw buffer: correct only for contiguous residual arrays",
  "compute_*_variance and ewma wrappers read PyArray_DATA consecutively. For a contiguous array the result is that of the logical array. For a strided view (for example returns[::2], which GARCHModel(zero_mean=True) passes unchanged) the elements read are the wrong ones and the result differs from the Python fallback.",
  "all buffers, offsets and strides",
  "memory layout is invisible at the Python level; tests use contiguous arrays",
  f"{UM}:compute_garch_variance_wrapper", f"{UM}:ewma_wrapper", f"{G}:GARCHModel.preparation")
# ---------------------------------------------------------------- MGARCH
p("DCC conditional correlations always lie in [-1,1]",
  "For a,b>=0 with a+b<=1, except a=1 and b=0, every conditional correlation returned (both backends) is a number with absolute value at most 1, whenever the standardized residual series are not degenerate; below 1 strictly when a+b<1 and the sample correlation is strictly inside (-1,1). At the excluded corner a=1, b=0, which the optimizer's box and constraint admit, every correlation after the first is +1, -1, or NaN (when a residual is exactly zero).",
  "all residual/variance series of any length and all admissible a, b",
  "positive semidefiniteness of an unbounded matrix recursion",
  f"{MG}:GARCHModel_DCC.conditional_correlations", f"{MGH}:DCC::conditional_correlations")
p("The two DCC backends target different unconditional matrices",
  "The Python fallback uses the sample correlation matrix (demeaned, unit diagonal), the C++ code uncentered second moments. The two produce identical correlations when the standardized residuals have mean zero and unit second moment, and can differ otherwise: in the first period each returns its own target correlation, so they differ there exactly when the centred and the uncentered sample correlations differ.",
  "all standardized residual series",
  "only one backend is active in a test run; the agreement set has measure zero",
  f"{MG}:GARCHModel_DCC.conditional_correlations", f"{MGH}:DCC::conditional_correlations")
p("The CCC log-likelihood is the bivariate normal one",
  "For |rho|<1 and positive variances GARCHModel_CCC.loglikelihood equals the sum of log bivariate normal densities; at rho=0 it is the sum of the two univariate log-likelihoods; it is symmetric in the two assets.",
  "all residual and positive variance series, all rho in (-1,1)",
  "identity over all real inputs",
  f"{MG}:GARCHModel_CCC.loglikelihood")
p("The DCC two-step log-likelihood decomposes the bivariate one",
  "The sum of the two univariate Gaussian log-likelihoods and the correlation component equals the bivariate normal log-likelihood evaluated at the conditional correlations clipped to [-0.99,0.99].",
  "all residual and positive variance series, all series of conditional correlations (hence all a, b)",
  "identity over all inputs including the clipped region",
  f"{MG}:GARCHModel_DCC.loglikelihood_model")
p("DCC starting values do not depend on the likelihood",
  "starting_values returns the last grid point (a,b) with a+b<1 whose log-likelihood is greater than -inf (default [0.01,0.8] when there is none): the grid search never compares candidates with each other. Every returned point is in the admissible region a,b>0, a+b<1.",
  "all data (all likelihood surfaces)",
  "claim over all likelihood functions",
  f"{MG}:GARCHModel_DCC.starting_values")
p("CCC/DCC fit() protocol",
  "A successful CCC/DCC estimate is returned unchanged by later fit() calls; the marginal parameters reported by DCC are exactly the sub-models' parameters (mu, omega, alpha, (gamma), beta in order), even though the sub-models are re-fitted during the search, while CCC only starts from them and reports the solver's vector; a sub-model that failed to converge is not noticed: its NaN log-likelihood makes the objective NaN everywhere, the search keeps its default start, and DCC can report success with NaN marginal parameters.",
  "all call histories and solver outcomes",
  "unbounded histories and solver outcomes",
  f"{MG}:GARCHModel_CCC.fit", f"{MG}:GARCHModel_DCC.fit")
# ---------------------------------------------------------------- LRMES / SRISK
p("LRMES is minus the mean firm return over the systemic scenarios",
  "estimate returns 0 when no simulated scenario is systemic, and otherwise minus the average of the simulated firm returns over exactly the scenarios whose simulated market return is strictly below C; the result is strictly less than 1.",
  "all simulated scenario sets of any size, all thresholds C",
  "all random draws",
  f"{M}_long_run_mes.py:LongRunMarginalExpectedShortfall.estimate")
p("LRMES scenario simulation is well defined and backend independent",
  "For admissible parameters (omega>0, alpha,gamma,beta>=0, a,b>=0, a+b<=1 but not a=1,b=0, |rho|<=1, Q_bar a correlation matrix) every step of the simulation has positive variances and a correlation in [-1,1], so all square roots are of non-negative numbers and the firm return is a finite number > -1; the Python and C++ simulations return the same pair; simulated variances follow the GJR forecast recursion.",
  "all innovation matrices of any horizon, all admissible parameters",
  "unbounded horizon and innovations",
  f"{M}_long_run_mes.py:LongRunMarginalExpectedShortfall.simulation", f"{M}lrmes.hpp:simulation")
p("LRMES threshold monotonicity",
  "Making the systemic threshold C more severe never adds systemic scenarios: the number of systemic events is non-decreasing in C, and with C <= -1 there is none and LRMES is 0.",
  "all scenario sets and pairs of thresholds",
  "relational over all thresholds",
  f"{M}_long_run_mes.py:LongRunMarginalExpectedShortfall.estimate")
p("SRISK equals the capital-shortfall formula",
  "For W<>0 the firm-level SRISK returned is k*D - (1-k)*W*(1-LRMES). It is increasing in debt and LRMES, decreasing in W when LRMES<1, and zero exactly at the break-even debt. The expansion printed first in the documentation, k*D + (1-k)*W*(1-LRMES), has the wrong sign and exceeds the returned value whenever k<1, W>0, LRMES<1.",
  "all W, D, k, LRMES",
  "real-valued identity",
  f"{M}_srisk.py:SRISK.estimate")
p("Aggregate SRISK sums only positive shortfalls; fails for single firms with Python floats",
  "For several firms aggregate SRISK is the sum of max(SRISK_i,0), hence non-negative, at least every firm's SRISK and the plain sum. For one firm (W, D floats, as its own assertion demands) the aggregate call raises AttributeError exactly when W, D and LRMES are all plain Python floats (LRMES is one on the no-event path and on the C++ path) and W is not zero (ZeroDivisionError); with a numpy float among them it is max(SRISK,0).",
  "all numbers of firms and inputs",
  "type-dependent failure on a path tests avoid; sum over arbitrary number of firms",
  f"{M}_srisk.py:SRISK.estimate")
p("SRISK input validation",
  "SRISK(...) accepts exactly: 1-d firm returns with market returns of the same shape and W, D Python floats; or (n_days, n_firms>1) firm returns with n_days market returns and W, D arrays of shape (n_firms,). W, D may be np.float64. Everything else is rejected: AssertionError, except ValueError for firm returns with neither one nor two dimensions and IndexError for a 0-d market array. Integer W/D for a single firm are rejected.",
  "all shapes and argument kinds",
  "all shape combinations",
  f"{M}_srisk.py:SRISK.__init__")
p("Multi-firm SRISK is the single-firm SRISK of each column",
  "The i-th entry of the multi-firm result is the single-firm result for column i, W[i], D[i] with the same seed; results for one firm are unaffected by the other firms or their order.",
  "all numbers of firms, all columns",
  "all n_firms",
  f"{M}_srisk.py:SRISK.estimate")
# ---------------------------------------------------------------- MES/SES/AR...
p("MES averages the firm over exactly the days strictly below the market percentile",
  "estimate(q) for 0<=q<=1 is the mean of the firm returns on the days whose market return is strictly below the linearly interpolated q-percentile; a q outside [0,1] or mismatched shapes raise AssertionError; at most ceil(q*(n-1)) days are selected, no selected day has a larger market return than an unselected one, and the selected set grows with q.",
  "all return series and all q",
  "sorting/interpolation boundary behaviour for all series with ties",
  f"{M}_marginal_expected_shortfall.py:MarginalExpectedShortfall.estimate")
p("MES lies within the range of firm returns, or is NaN exactly when no day qualifies",
  "When some day qualifies MES is a number between the smallest and largest firm return. It is NaN exactly when no market return is below the percentile - in particular for q=0 and for a constant market series.",
  "all finite return series, all q in [0,1]",
  "all series",
  f"{M}_marginal_expected_shortfall.py:MarginalExpectedShortfall.estimate")
p("MES does not depend on the order of days",
  "Applying one permutation of days to both series leaves the estimate unchanged; MES is equivariant under positive affine changes of the firm returns and invariant under positive scaling of the market returns.",
  "all permutations, all series, all q",
  "n! permutations",
  f"{M}_marginal_expected_shortfall.py:MarginalExpectedShortfall.estimate")
p("SES is the slope-weighted combination of the firm's MES and leverage",
  "With (a,b,c) a least-squares solution of ses on (1, mes, lvg), the estimate is (b*MES+c*LVG)/(b+c): weights sum to one, so MES=LVG=x gives x; it is invariant under affine transformations (non-zero scale) of the ses sample; when both slopes are positive it lies between MES and LVG. Version other than the two listed raises AssertionError and APPR2017 raises NotImplementedError; mismatched shapes raise AssertionError.",
  "all training samples with full-rank design, all firms",
  "all regression data sets",
  f"{M}_systemic_expected_shortfall.py:SystemicExpectedShortfall.estimate")
p("Absorption ratio lies in [0,1], is monotone, and is 0/1 at the end points",
  "For a return matrix with positive total variance and fraction in [0,1] the ratio is in [0,1], non-decreasing in the fraction, 0 when the fraction rounds to zero eigenvalues and exactly 1 for all eigenvalues, and at least the fraction of eigenvalues used; it is invariant under scaling of returns.",
  "all return matrices and fractions; the eigenvalue routine is any routine returning the spectrum",
  "all matrices",
  f"{M}_absorption_ratio.py:AbsorptionRatio.estimate")
p("Absorption ratio uses round-half-up(fraction*n) eigenvalues, and misbehaves outside [0,1]",
  "The number of eigenvalues used is floor(fraction*n+1/2) for non-negative products (half away from zero). For a fraction above 1 the slice start is negative, so Python counts from the end and FEWER eigenvalues are used - the ratio drops below 1 instead of saturating. Negative fractions give 0.",
  "all fractions and numbers of assets",
  "all real fractions",
  f"{M}_absorption_ratio.py:AbsorptionRatio.estimate")
p("Absorption ratio caches its covariance",
  "estimate depends on the return matrix as it was at the first use only: later replacement of the asset_returns attribute changes the asset count used for rounding but not the covariance or eigenvalues; repeated calls with the same fraction return the same value over any history of calls.",
  "all histories of estimate / attribute assignment",
  "call histories",
  f"{M}_absorption_ratio.py:AbsorptionRatio.asset_covariance")
p("Kyle's lambda is the no-intercept least-squares slope in millionths",
  "kyle_lambda returns 1e6*sum(x*y)/sum(x^2) (0 for an all-zero volume, by the minimum-norm rule): no other slope has a smaller squared error, it scales inversely with volume and proportionally with returns, and is invariant under permutations of the observations.",
  "all samples",
  "optimality over all slopes and samples",
  f"{M}_kyle_lambda.py:kyle_lambda")
p("Z-score is (ROA + capital ratio) over the population standard deviation",
  "The divisor is sqrt(mean squared deviation) (ddof=0): positive exactly when past ROAs are not all equal; z is increasing in roa and the capital ratio, unaffected by shifting or reordering past ROAs, scales inversely with their dispersion. With constant past ROAs it is +-inf, or NaN when the numerator is 0 too.",
  "all inputs",
  "all samples and degenerate cases",
  f"{M}_z_score.py:z_score")
p("Black-Scholes put-call parity",
  "blsprice satisfies call - put = S*exp(-q*T) - K*exp(-r*T) for all S,K,sigma,T>0.",
  "all positive S, K, sigma, T and all real r, q",
  "identity over a continuum",
  f"{M}_option_price.py:blsprice")
p("Black-Scholes no-arbitrage bounds",
  "max(S*exp(-qT)-K*exp(-rT), 0) < call < S*exp(-qT) and max(K*exp(-rT)-S*exp(-qT), 0) < put < K*exp(-rT); in particular both prices are strictly positive.",
  "all positive S, K, sigma, T and all real r, q",
  "inequality over a continuum",
  f"{M}_option_price.py:blsprice")
p("Black-Scholes monotonicity",
  "The call is strictly increasing and the put strictly decreasing in S; the call is strictly decreasing and the put increasing in K; both are strictly increasing in sigma.",
  "all pairs of inputs",
  "needs derivatives over a continuum",
  f"{M}_option_price.py:blsprice")
p("Contingent claim analysis: put, debt and CDS put identities",
  "At the pair (A, sigma) used, the returned put is the Black-Scholes put of A struck at the default barrier; if the solver really solved its equations then risky debt = A - E; the second component is put minus CDS put, equals the put exactly when the CDS spread is 0 or the debt is worth the barrier, and is decreasing in the spread when the debt is worth less than the barrier. The solver's convergence flag is ignored: whatever it returns is used. An exponential of a finite number that leaves the floating-point range (of minus the rate times the maturity, or of the CDS spread accumulated over the maturity) raises OverflowError, and nothing else does. Zero equity with a non-zero barrier, a negative barrier, or (with non-zero equity and a positive barrier) a negative maturity raises ValueError before any result.",
  "all inputs and all solver outcomes",
  "all solver outcomes",
  f"{M}_contingent_claim_analysis.py:ContingentClaimAnalysis.estimate")
p("Distress insurance premium equals expected tail loss",
  "When it returns a number, the estimate equals sum over scenarios of P(i defaults) * (ceiling-percent loss if at or beyond the threshold slot) / n_simulations: the average simulated loss restricted to the tail; the joint default frequencies sum to one; the premium is non-negative, at most the number of banks, and non-increasing in the threshold.",
  "all default draws, loss draws, numbers of banks and thresholds",
  "all random draws",
  f"{M}_distress_insurance_premium.py:DistressInsurancePremium.estimate")
p("Distress insurance premium can raise IndexError or return NaN",
  "A simulated total loss in the top slot (100*loss > 100*n-1, i.e. more than n-0.01) makes the index equal to the array length and raises IndexError; if all probability mass beyond the threshold is zero the result is NaN (0/0) rather than 0. Otherwise it returns a finite number.",
  "all draws",
  "rare event under the default sampling; sampling tests do not hit it",
  f"{M}_distress_insurance_premium.py:DistressInsurancePremium.estimate")
p("The distress threshold is truncated to whole percents",
  "Only int(threshold*100) matters: two thresholds with the same integer percentage give the same premium; in binary floating point 0.29 behaves as 0.28.",
  "all thresholds",
  "floating point truncation at specific values",
  f"{M}_distress_insurance_premium.py:DistressInsurancePremium.estimate")
# ---------------------------------------------------------------- microstructure
p("Quoted spread: range, sign and scale",
  "For positive bid<=ask quotes the percentage quoted spread is in [0,200), zero exactly when every bid equals its ask, the mean of 100*(ask-bid)/mid; the log spread is the mean of ln(ask/bid) >= 0; both are invariant to a common rescaling of quotes, and 100 times the log spread is never below the percentage spread (equal only when every bid equals its ask). Different shapes raise AssertionError.",
  "all quote series",
  "all series",
  f"{M}spread.py:quoted_spread")
p("Effective spread: weighting, sign and range",
  "Without direction the effective spread is non-negative, lies between the smallest and largest per-trade spread 200*|p-m|/m, and weights trades by dollar volume p*v; with direction signs matching p-m it equals the undirected one; directed is never larger in absolute value than undirected. Same for the log version and for realized spread and price impact.",
  "all trade samples with positive prices, midpoints and non-negative, not all zero volumes",
  "all samples",
  f"{M}spread.py:effective_spread")
p("Directed effective spread = realized spread + price impact",
  "For the same trades, midpoints, volumes and directions (given as arrays) effective_spread = realized_spread + simple_price_impact exactly, for percentage and log versions; without directions only effective <= realized + impact holds.",
  "all trade samples with positive prices and midpoints whose dollar volumes do not sum to zero, or are all zero",
  "relational identity over all samples",
  f"{M}spread.py:realized_spread", f"{M}price_impact.py:simple_price_impact")
p("Spread measures are invariant to price and volume units",
  "Multiplying all prices and midpoints by a positive constant, or all volumes by a positive constant, leaves effective/realized spread and price impact unchanged; reordering trades consistently too.",
  "all samples, all positive constants, all permutations",
  "relational over all scalings",
  f"{M}spread.py:effective_spread", f"{M}price_impact.py:simple_price_impact")
p("Spread edge cases: zero volume, cancelling weights, list directions",
  "If every dollar volume is 0 the simple NaN-ignoring mean is returned; if dollar volumes are not all zero but sum to 0 ZeroDivisionError is raised; a trade_direction that is not an ndarray (such as a list) is silently ignored and the undirected spread is returned; shape mismatches raise AssertionError (price impact checks all but price).",
  "all inputs including zero and cancelling weights",
  "special inputs",
  f"{M}spread.py:effective_spread", f"{M}spread.py:realized_spread", f"{M}price_impact.py:simple_price_impact")
p("LOB ask and bid slopes",
  "With at least two levels, DGGW_ask_slope/bid_slope is the NaN-ignoring mean over quotes of total depth divided by the distance between the top-level price and the midpoint: positive whenever sizes are positive and the level price is on its side of the midpoint, linear in sizes, inverse in price unit. A locked quote (distance 0) with positive depth yields +inf; sizes with one dimension, fewer than two levels or midpoints of another length raise AssertionError, sizes with three or more dimensions ValueError; the bid and ask versions agree on distances of equal magnitude. The remaining slope functions raise NotImplementedError on every call.",
  "all books of any number of quotes and levels",
  "all matrices",
  f"{M}lob_slope.py:DGGW_ask_slope", f"{M}lob_slope.py:DGGW_bid_slope")
p("Slope difference needs five levels although two are documented as enough",
  "DGGW_bid_side_slope_difference (and the ask version, which is the same function) uses exactly levels 1, 3 and 5: it raises IndexError for every book with 2 to 4 levels, AssertionError below 2 levels or for a one-dimensional array (ValueError for three or more dimensions), and for 5 or more levels it is the mean difference of the two segment slopes, unaffected by the other levels.",
  "all books",
  "all matrix shapes",
  f"{M}lob_slope.py:DGGW_bid_side_slope_difference")
p("Scaled depth difference is in [-2,2] and antisymmetric",
  "For non-negative depths SDD lies in [-2,2], swapping bid and ask flips its sign, scaling all sizes by a positive constant leaves it unchanged, it is 0 for a balanced book; quotes with zero depth on both sides are dropped, and an entirely empty book gives NaN.",
  "all books",
  "all matrices",
  f"{M}lob_slope.py:DGGW_scaled_depth_difference")
# ---------------------------------------------------------------- PIN
p("PIN is a probability",
  "For alpha in [0,1], mu>=0, eps_b, eps_s>=0 the reported pin alpha*mu/(alpha*mu+eps_b+eps_s) is in [0,1]; increasing in mu and alpha, decreasing in the uninformed rates, invariant to the time unit (one pin is below another exactly when its alpha*mu is smaller relative to its total uninformed rate); it is NaN exactly when all three rates vanish. These bounds are what the optimizer is constrained to.",
  "all parameters within the estimation bounds",
  "continuum incl. degenerate corner",
  f"{M}_probability_of_informed_trading.py:PIN.Parameters.calculate_pin")
p("PIN starting values match the first moments and are feasible",
  "Every starting point produced satisfies B_bar = eB + alpha*(1-delta)*mu and S_bar = eS + alpha*delta*mu, lies inside the optimizer's bounds for non-negative data, and exactly those of the 125 grid points with non-negative implied eS are produced, in grid order.",
  "all buy/sell samples, all 125 grid points",
  "all data",
  f"{M}_probability_of_informed_trading.py:PIN.init_params_grid_search")
p("The two PIN likelihood factorizations are equal",
  "loglikelihood_EHO2010 and loglikelihood_LK2011 return the same value for all admissible interior parameters and all buy/sell counts (in exact arithmetic).",
  "all samples of any length, all interior parameters",
  "algebraic identity over all inputs; floating point only samples it",
  f"{M}_probability_of_informed_trading.py:PIN.loglikelihood_EHO2010", f"{M}_probability_of_informed_trading.py:PIN.loglikelihood_LK2011")
p("The PIN likelihood is the Poisson mixture likelihood",
  "Minus the returned value equals the log-likelihood of the Easley et al. mixture (bad-news, good-news, no-news days with Poisson buys and sells) up to the parameter-free constant -sum(ln B! + ln S!), so maximisers coincide.",
  "all samples and interior parameters",
  "identity over all inputs",
  f"{M}_probability_of_informed_trading.py:PIN.loglikelihood_LK2011")
p("PIN.estimate keeps the best successful start",
  "After estimate the parameters are those of a successful optimizer run; when all successful runs report finite objectives no successful run has a higher log-likelihood and the earliest best one is kept. Parameters stay at NaN if none succeeds, unknown methods raise ValueError before anything changes. estimation_success is never reset: a later failing estimate leaves it True with NaN parameters. If the first success has an infinite objective -inf (loglikelihood inf) it is never replaced.",
  "all sequences of optimizer outcomes and all call histories",
  "all solver outcome sequences",
  f"{M}_probability_of_informed_trading.py:PIN.estimate")
# ---------------------------------------------------------------- Isolation forest
p("Isolation trees partition their sample and respect the height limit",
  "Every tree grown from a sample stores at each node the number of sample observations reaching it: the two children's counts add up to their parent's, the leaf counts sum to the sample size, the height never exceeds ceil(log2(tree_size)), internal nodes have at least two observations, leaves holding several observations occur only at the height limit, and the split value is the value of an observation in the node. With complete data the right child is never empty; when the drawn split value is NaN it can be. At a split on a string attribute an observation goes left exactly when its string is shorter than the split string or, at equal length, earlier in byte order — a strict total order, used identically for growing and scoring.",
  "all data sets, all samples, all random choices",
  "all random choices and data",
  f"{IF}IsolationForest.cpp:growTree")
p("Anomaly scores lie in (0,1]",
  "Whenever the normalising average path length is positive each score is 2^(-avg/c) with avg>=0: in (0,1], strictly decreasing in average path length.",
  "all forests and observations",
  "all trees",
  f"{IF}IsolationForest.cpp:anomalyScore", f"{IF}IsolationForest.cpp:pathLength")
p("Every observation is scored exactly once, independent of thread schedule",
  "The score computation splits the observations into per-worker ranges that are pairwise disjoint and cover all observations exactly once for every worker count >= 1; thus for every interleaving of the workers the final score array is the same, entry i being the score of observation i.",
  "all numbers of observations, worker counts and thread interleavings",
  "all schedules",
  f"{IF}IsolationForest.cpp:calculateAnomalyScores", f"{IF}IsolationForest.cpp:calAnomalyScores")
p("The forest has exactly forest_size trees, but its content depends on the number of workers",
  "For every worker count >= 1 and every schedule exactly forest_size trees are grown. The comment promises results unaffected by the worker threads used; this is false: tree indices handed to worker 0 overlap those of others, the per-thread generator is seeded only by the first index of the thread, and so the multiset of trees differs between worker counts.",
  "all forest sizes, worker counts, schedules",
  "hardware-dependent worker count; all schedules",
  f"{IF}IsolationForest.cpp:grow")
p("Scores do not depend on the order in which threads push trees",
  "The score of an observation is a function of the multiset of trees (in exact arithmetic), so the order in which the mutex-protected push happens does not matter; every interleaving of the workers' pushes yields a permutation of the same trees.",
  "all interleavings",
  "all schedules",
  f"{IF}IsolationForest.cpp:grow", f"{IF}IsolationForest.cpp:anomalyScore")
p("Missing values are routed inconsistently",
  "When growing, an observation with a NaN attribute goes left at a split on a non-NaN value; when scoring, the same observation goes right. For complete (NaN-free) data an in-sample observation reaches exactly the leaf it was grown into; with NaN it may not.",
  "all data sets and trees",
  "all data",
  f"{IF}IsolationForest.cpp:growTree", f"{IF}IsolationForest.cpp:pathLength")
p("Only the first tree of each worker is grown from tree_size observations",
  "tree_size is documented as the number of observations per tree. The sample buffer is never cleared between trees, so the k-th tree of a worker is grown from k*min(tree_size, n_obs) (repeated) observations.",
  "all k, tree sizes and data sizes",
  "internal state over loop iterations",
  f"{IF}IsolationForest.cpp:grow")
p("All random seeds larger than the number of observations are equivalent",
  "The seed enters only through n_obs mod seed: every seed greater than n_obs gives the same forest (offset n_obs), a seed of 1 or any divisor of n_obs gives offset 0.",
  "all seeds and data sizes",
  "all seeds",
  f"{IF}IsolationForest.cpp:grow")
# ---------------------------------------------------------------- datasets
p("The stock-returns dataset is loaded at most once and shared",
  "All instances are the same object; over any sequence of accesses the file is read exactly once after the first successful read, every access returns the same (mutable) table, and a failing read is retried at the next access.",
  "all access histories and read outcomes",
  "histories",
  "src/frds/datasets/_stocks.py:SingletonMeta", "src/frds/datasets/_stocks.py:_StockReturns.stocks_us")
# ---------------------------------------------------------------- Merton
p("fftsmooth is a centred moving average with linearly extrapolated edges",
  "For even n and even window w with 2<=w and w+2<=n (inverse FFT of product of FFTs = circular convolution) the output has n entries; entry m of the interior is the mean of x[m-w/2+1..m+w/2]; the w/2 first and last entries continue linearly the first/last two interior entries. It is linear in x, reproduces constants, and maps an affine ramp to a ramp shifted by half a step; it keeps a nondecreasing vector nondecreasing and its interior within the range of the data (the extrapolated edges may leave it), and the very first entry of x has no influence. Odd n or odd w raise AssertionError; w = 0 passes the assertions and returns zeros.",
  "all even n, w and all vectors",
  "all sizes and vectors; index arithmetic at edges",
  f"{MM}fftsmooth.py:fftsmooth")
p("Loan payoff is face value minus a put and below both face value and asset value",
  "loan_payoff equals F minus an undiscounted lognormal put on the borrower assets: for F,sig,T>0 and rho<1 it is in (0, min(F, EA)), strictly increasing in F and in the factor f.",
  "all parameters",
  "continuum",
  f"{MM}loan_payoff.py:loan_payoff")
p("find_face_value_indiv vanishes exactly at the fair yield",
  "The error is zero if and only if the loan with face value F and yield mu has value F*exp(-mu*T) equal to F*exp(-rT) minus the Black-Scholes put; the implied fair yield always exceeds r.",
  "all parameters",
  "continuum",
  f"{MM}find_face_value_indiv.py:find_face_value_indiv")
p("merton_solution: exact at the solution, and its penalty terms are void",
  "At positive (A, sig) both errors vanish exactly when E is the cum-dividend Black-Scholes equity value and sigE the implied equity volatility; for negative A or sig the intended penalty is multiplied by the clamped value 0 and therefore always zero: for A<0 the errors are exactly (E, sigE), and for sig<0 they are those of a riskless asset, (E - max(A exp(-dT) - D exp(-rT), 0) - A(1 - exp(-dT)), sigE), unless forward and strike coincide.",
  "all A, sig (both signs)",
  "continuum and special values",
  f"{MM}merton_solution.py:merton_solution")
p("Modified Merton balance-sheet identities",
  "In every simulated state bank debt payoff plus equity equals asset value, debt payoff is at most D and at most the after-payout asset value, guarantee payoff is g times the shortfall, and a state is counted as default exactly when the after-payout asset value does not exceed D; after averaging and discounting Lt = Bt + Et, 0 <= mdef <= 1, Bt <= D*exp(-rH), and Gt = g*(D*exp(-rH) - Bt). End to end, for all finite shocks, factor states and valid parameters every output of mod_merton_computation is the average over cohorts and paths of size x locally averaged loan payoff x discount factor.",
  "all simulated asset values (all draws), all parameters",
  "all draws",
  f"{MM}mod_merton_computation.py:mod_merton_computation", f"{MM}mod_single_cohort_computation.py:mod_single_cohort_computation")
p("Loan cohorts are split without gap or overlap at the horizon; accumulated-life vector",
  "Every cohort j is classified as exactly one of 'first loan still outstanding at t+H' (j>=HN) or 'rolled over' (j<HN); for a nonnegative horizon the accumulated life fraction array has exactly N entries iff HN<N (otherwise reshape raises ValueError), equals (HN-j)/N for rolled-over cohorts and (N-(j-HN))/N for later ones, but is 0 instead of 1 at the boundary cohort j=HN.",
  "all N, HN",
  "all sizes",
  f"{MM}mod_merton_computation.py:mod_merton_computation")
p("The horizon must be a whole number of periods",
  "mod_merton_computation and the single-cohort version raise AssertionError exactly when H*(N/T) is not an integer (as a float), otherwise the integer is used as array index.",
  "all H, N, T",
  "all values",
  f"{MM}mod_merton_computation.py:mod_merton_computation")
p("Sorting and un-sorting in the smoother is lossless",
  "newInd is the inverse permutation of the stable argsort: without smoothing, sort followed by un-sort returns the original vector; each smoothed value is assigned to the scenario it was computed for; reshape with order F is inverted.",
  "all vectors including ties",
  "all permutations",
  f"{MM}mod_merton_computation.py:mod_merton_computation")
p("mod_single_cohort_solution mutates its caller's parameter list",
  "The call overwrites param[2] of the list it is given with b[1]: the caller's list is changed in that entry and no other, the result depends on the old param[2] not at all, and repeated calls are idempotent on the list. The list is changed even if the call raises, which it always does when b is a flat vector of two numbers.",
  "all parameter lists and call sequences",
  "aliasing effect",
  f"{MM}mod_single_cohort_solution.py:mod_single_cohort_solution")
p("Modified Merton modules cannot be imported in this tree",
  "find_face_value_indiv, merton_solution and mod_merton_simulation import frds.measures.option_price, which does not exist (the file is _option_price.py): importing them, or any module that transitively imports them, fails with ModuleNotFoundError; importing frds.measures and frds.algorithms succeeds despite their circular imports, and a failed import never leaves a half-initialised module behind.",
  "all modules of the package, all import orders",
  "import-graph reachability for every module and import order",
  f"{MM}find_face_value_indiv.py", f"{MM}merton_solution.py", f"{MM}mod_merton_simulation.py", f"{M}__init__.py")

# ---------------------------------------------------------------- found while modelling
p("Sibling nodes of an isolation tree split on the same attribute",
  "The random engine is passed by value to both recursive calls, so whenever both children of a node are split they are split on the same attribute; and unless an index draw is rejected, all internal nodes at one depth use one attribute, so a tree of height h uses at most h attributes instead of drawing one per node.",
  "all data sets, samples, generators and heights",
  "a statement about all random choices",
  f"{IF}IsolationForest.cpp:growTree")
p("LRMES estimates do not influence each other",
  "On a LongRunMarginalExpectedShortfall object the model is estimated once: after a first estimate() the object is in the state of the fitted DCC model, later estimates leave it unchanged (although the GJR sub-models are re-fitted each time), and every later estimate, with the same or other h, S, C and seed, returns exactly what it would have returned on the fresh object. A failed estimation raises RuntimeError; series of different lengths are rejected by the constructor, and the series used are 100 ln(1 + raw return).",
  "all return series, all deterministic optimizers, all sequences of estimate() calls",
  "all histories of calls and all optimizer behaviours",
  f"{M}_long_run_mes.py:LongRunMarginalExpectedShortfall")
p("Further Black-Scholes relations",
  "The call price increases and the put price decreases in the risk-free rate, the other way round in the dividend rate; without dividends and with a nonnegative rate the call increases in maturity; both prices are homogeneous of degree one and jointly convex in spot and strike; a call spread is worth more than 0 and less than the discounted strike difference.",
  "all positive spots, strikes, maturities, volatilities; all real rates",
  "inequalities over a continuum",
  f"{M}_option_price.py:blsprice")

p("The promised loan yield exists exactly for loans below the depreciated collateral, and is unique",
  "The equation find_face_value_indiv(mu, bookF*exp(mu*T), log(bookF/ltv), ...) = 0 that the modified Merton code gives to its solver has at most one solution mu, and has one exactly when ltv < exp(-d*T); in particular with ltv >= exp(-d*T) no solver can succeed.",
  "all positive loan sizes, ltv, volatilities, maturities; all rates",
  "existence and uniqueness over a continuum",
  f"{MM}find_face_value_indiv.py:find_face_value_indiv", f"{MM}mod_merton_computation.py:mod_merton_computation")
p("Shocks before the valuation date cancel in the modified Merton model",
  "All outputs of mod_merton_computation are the same for any two shock matrices that agree in columns N..3N-2: the first N columns (before the valuation date) and the last column have no influence (in exact arithmetic).",
  "all shock matrices, parameters, solvers, rounding and smoothing functions",
  "all matrices",
  f"{MM}mod_merton_computation.py:mod_merton_computation")
p("Mean borrower assets are known in closed form",
  "mFt does not depend on the simulated shocks: at factor state x it is the mean over cohorts j of bookF/ltv * exp((r-d)*T*a + x*sqrt(rho)*sig*sqrt(T)*a) with a = (N-j)/N.",
  "all shock matrices, factor states and valid parameters",
  "all draws",
  f"{MM}mod_merton_computation.py:mod_merton_computation")
p("Lookup tables hold the computation at every grid point",
  "Entry (j,k,q) of each table returned by mod_merton_create_lookup and mod_single_merton_create_lookup is the corresponding output of the computation with rate xr, loan size xF and volatility xsig of that grid point, debt bookD*exp(xr*H), no guarantee, and the same shocks everywhere; a table is returned only if every grid point could be computed.",
  "all grids and all computations",
  "all grid sizes",
  f"{MM}mod_merton_create_lookup.py:mod_merton_create_lookup", f"{MM}mod_single_merton_create_lookup.py:mod_single_merton_create_lookup")
p("Descaling a rolled-over loan removes the dependence on its size",
  "A rolled-over loan of size x with collateral x/ltv and face x*exp(mu*T), divided by x/bookF, pays exactly what a loan of size bookF pays, and its borrower assets divided by x/bookF are those of a loan of size bookF: the conditional expectation of the descaled payoff depends on the factor only (as the code comment claims).",
  "all positive repayments x, yields and factor values",
  "continuum",
  f"{MM}mod_merton_computation.py:mod_merton_computation")
p("Scenario counts the smoother can handle",
  "With n = paths x 3 x factor states, mod_merton_computation raises AssertionError when n or n//20 is odd, works as specified when both are even and n >= 20, and for even n < 20 silently returns a loan portfolio worth exactly 0 in every state.",
  "all path counts, factor-state counts, shocks and valid parameters",
  "all sizes",
  f"{MM}mod_merton_computation.py:mod_merton_computation", f"{MM}fftsmooth.py:fftsmooth")
p("The single-cohort model from inputs to outputs",
  "For all finite shocks, factor states and valid parameters every output of mod_single_cohort_computation is the stated average; Lt = Bt + Et, Bt <= D*exp(-rH), Gt = g*(D*exp(-rH)-Bt), 0 <= mdef <= 1; mFt is bookF/ltv*exp(x*sqrt(rho)*sig*sqrt(T)); only the first max(N, HN) shocks of a path matter.",
  "all shock matrices, factor states and valid parameters",
  "all draws",
  f"{MM}mod_single_cohort_computation.py:mod_single_cohort_computation")
p("Optimizer constraints are exactly mean stationarity",
  "The inequality constraint given to the optimizer holds at a parameter vector exactly when the variance recursion does not grow on average (the next variance, averaged over a shock of one standard deviation and its mirror image, is at most omega plus the current one) - for GARCH, GJR-GARCH and both components of CCC; the CCC box keeps |rho| <= 0.99; the DCC box and constraint are exactly a,b >= 0, a+b <= 1. Hence the estimates of any optimizer whose successful answers are feasible satisfy them.",
  "all parameter vectors; all optimizer behaviours that respect the constraints",
  "continuum of parameters and arbitrary optimizers",
  "src/frds/algorithms/_garch.py:GARCHModel.fit", "src/frds/algorithms/_garch.py:GJRGARCHModel.fit",
  "src/frds/algorithms/_mgarch.py:GARCHModel_CCC.fit", "src/frds/algorithms/_mgarch.py:GARCHModel_DCC.fit")

p("Simulation table: which states are reported",
  "simulate() reports the first state whose mean borrower asset value is closest to exp(rT/2) (the first state with a NaN value if there is one), and the states eight above and eight below it; with fewer than eight states above it raises IndexError, with fewer than eight below the negative-shock column silently shows state K+j0-8, which lies above the central one. With the shipped parameters the three states are 17, 25 and 9 for every number of states >= 26 and all random draws; row by row the table holds the stated functions of that state.",
  "all state counts, parameters and draws",
  "all grids and draws",
  f"{MM}mod_merton_simulation.py:simulate")
p("Standard Merton estimates of the simulated bank",
  "For every positive asset value returned by the solver the reported default probability is the probability that a lognormal asset value ends below D and decreases in the asset value, the volatility used is never below 0.0001, the implied spread is positive and discounts D to riskless debt minus put; at an exact root it discounts D to assets minus equity and equity value and volatility are reproduced; a negative asset value makes every estimate NaN.",
  "all solver answers, balance sheets and parameters",
  "arbitrary solver",
  f"{MM}mod_merton_simulation.py:simulate", f"{MM}merton_solution.py:merton_solution")
p("True capital ratio and credit spread of the simulated bank",
  "In every factor state with positive debt value the credit spread is finite, discounts the face value exactly to the debt value, is never negative and vanishes in a state without defaults; the market capital ratio Et/(Et+Bt) lies in [0,1) and vanishes exactly with Et.",
  "all simulated economies, states and parameters",
  "all draws",
  f"{MM}mod_merton_simulation.py:simulate")

p("Memory safety of the compiled variance kernels",
  "The extension functions ewma, bounds_check, compute_garch_variance and compute_gjrgarch_variance, given fresh contiguous float64 arrays with at least one residual, one row of bounds per residual and 3 (4) parameters, never read or write outside their arrays and return exactly the values of the recursion, whatever the output array contained. Exactly otherwise - empty residuals, too few bounds or parameters where Python raises - they access memory outside; so do reversed views and float32 arrays of three or more elements, whose strides and dtype are not checked. Wrong numbers of dimensions raise ValueError.",
  "all array contents, lengths, parameters and uninitialised memory contents",
  "undefined behaviour is not observable by testing",
  "src/frds/algorithms/utils/garch.hpp", "src/frds/algorithms/utils/utils_module.cpp")
p("String attributes of the isolation forest are not terminated",
  "anomaly_scores stores strings in an array whose item width is the longest string; the forest compares them as C strings. An item is read correctly exactly when it is shorter than the width; a longest string is glued to the following item, and read beyond the end of the array if none follows. So every table with a non-empty string contains a misread item, with codes of equal length every single read leaves the array, and two equal strings may compare different; one more byte of width would make all reads exact.",
  "all string tables",
  "undefined behaviour; all tables",
  "src/frds/algorithms/isolation_forest/IsolationForest.cpp:IsolationForest::growTree", "src/frds/algorithms/isolation_forest/IsolationForest.cpp:IsolationForest::pathLength", "src/frds/algorithms/isolation_forest/__init__.py:anomaly_scores")
p("Memory safety of the DCC and LRMES kernels",
  "dcc_conditional_correlation with a non-empty first series and other arrays at least as long stays inside its arrays and returns exactly the conditional correlations of the first T elements; with an empty first series or a shorter other array it accesses memory outside. simulation stays inside any innovation matrix with two or more columns, using the first two only, for every horizon; a one-column matrix is read beyond its end.",
  "all arrays, parameters and horizons",
  "undefined behaviour is not observable by testing",
  "src/frds/algorithms/utils/mgarch.hpp:DCC::conditional_correlations", "src/frds/measures/lrmes.hpp:simulation")

p("Cholesky factor of the correlation matrix",
  "The factorisation behind the simulated bank returns succeeds exactly on square matrices whose lower triangle, mirrored, is positive definite, and then returns the unique lower triangular factor with positive diagonal and L L^T equal to the matrix; otherwise (not square, singular, indefinite, two perfectly correlated banks) LinAlgError and nothing else. Entries above the diagonal are never read, in any arithmetic, so an asymmetric matrix is accepted silently.",
  "all matrices of all sizes",
  "all matrices; uniqueness and positive definiteness quantify over all vectors",
  M + "_distress_insurance_premium.py:DistressInsurancePremium.estimate")
p("Simulated joint defaults follow the given probabilities and correlations",
  "Default probabilities outside (0,1) raise ValueError (NaN does not). With an exact normal quantile, bank i defaults in a scenario exactly when the normal cdf of its simulated return is below its probability; the mean number of joint defaults is the sum of the banks' sampled default frequencies; raising probabilities never lowers the frequency of at least k defaults. If the generator's normals have zero mean and identity second moments, the simulated returns have zero mean and exactly the given matrix as second moments. Passing a covariance matrix silently changes the default probabilities unless the variance is 1 or the probability 1/2.",
  "all probabilities, matrices, draws and scenario weights",
  "all random draws",
  M + "_distress_insurance_premium.py:DistressInsurancePremium.estimate")
p("Loss draws and complete outcome of the distress insurance premium",
  "Every loss draw is in [0.1, 1) and has the triangular law with mode 0.55 (the draw is at most x exactly when its uniform is at most F(x)), symmetric under U -> 1-U. estimate then raises ValueError for a bad probability, LinAlgError for a bad matrix, ValueError for mismatched sizes, IndexError exactly when some simulated total loss of all n banks exceeds n - 0.01, returns NaN exactly when there is no tail mass, and otherwise the expected tail loss, between 0 and n - 0.01. For one bank IndexError occurs exactly for a uniform above 1 - 1/4050.",
  "all probabilities, matrices, thresholds, draws and array contents",
  "rare events of the generator; all inputs",
  M + "_distress_insurance_premium.py:DistressInsurancePremium.estimate")

p("Memory safety of the isolation forest and its argument limits",
  "On arrays that are readable (every numeric cell present, every string terminated inside the array) the isolation forest extension stays inside all its arrays and returns exactly the anomaly scores of the abstract forest, for every number of worker threads and every order in which they deliver trees. Sizes or seeds outside the range of int raise OverflowError, negative ones become 2^64 plus the argument; a tree size of 0 or zero hardware threads is undefined behaviour, a negative forest size terminates the process, and a table without attributes is read out of bounds. A frame whose last object column ends with a string of maximal length is read beyond the array when that string is split on; one whose last value is shorter never is.",
  "all tables, sizes, seeds, thread counts, delivery orders and random draws",
  "undefined behaviour is not observable by testing; all schedules",
  IF + "iforest_module.cpp", IF + "IsolationForest.cpp:IsolationForest::growTree", IF + "IsolationForest.cpp:IsolationForest::pathLength")
p("anomaly_scores front end",
  "A successful anomaly_scores call returns a frame with the index of the input, in order, and exactly one column, of that length and with the requested name. KeyError is raised exactly when an excluded name is not a column; excluding columns equals passing a frame without them, and None equals an empty list. Only numeric and object columns that are kept matter, and only their order within their own kind: columns of any other dtype (bool, datetime, category) are silently ignored. A non-ASCII character raises ValueError; a frame without usable columns is undefined behaviour instead of an error; zero trees give NaN for every row. Otherwise row j is the anomaly score of observation j of the table of kept columns.",
  "all frames, exclusions, sizes, seeds, schedules and random draws",
  "all data frames and all schedules",
  IF + "__init__.py:anomaly_scores", IF + "iforest_module.cpp")

p("The whole-array program of the modified Merton model computes the cell-by-cell valuation",
  "mod_merton_computation written as numpy statements on whole arrays (reshape, tile, repeat, dstack, concatenate, slices, masks, broadcasting, order='F' reshapes) gives, for every shock matrix with Nsim2 rows and at least 3N-1 columns and the states fs as a vector or a column, the outputs of the valuation that treats one path, cohort and state at a time, with the documented shapes, or raises the same exception. Shocks after column 3N-1 are never used, so the last of the 3N columns the model draws has no effect. A shock matrix with another number of rows, or with N to 3N-2 columns other than 2N, raises ValueError; fewer than N columns raises IndexError; exactly 2N columns raises nothing and silently reuses the last factor for every second-generation loan; states given as a row raise ValueError; a horizon of minus one period is accepted and reads the factor one period before today.",
  "every array of states, parameter list, number of cohorts and paths, shock matrix of any shape, smoothing spectrum, rounding and solver, in any arithmetic",
  "a test fixes the shapes; the index bookkeeping has to be right for every shape, and broadcasting hides mistakes that only some shapes reveal",
  MM+"mod_merton_computation.py:mod_merton_computation", MM+"loan_payoff.py:loan_payoff", MM+"fftsmooth.py:fftsmooth")

p("The Python modified Merton model agrees with the MATLAB programs it is translated from",
  "Given the same shocks, with a whole number of horizon steps, at least two cohorts and paths, parameters as a column (or without guarantee) and a scenario count divisible by 40, the Python and MATLAB valuations come from identical loan values and give identical results, or both fail; default shocks are the same numbers if the generators deliver the same uniforms; loan pay-offs, face values, smoothing, sorting and lookup tables agree value by value. Deviations are exactly these: scenarios with a NaN loan value (MATLAB counts them as full repayment, NumPy makes the averages NaN; equity, default and volatilities agree); the guarantee in a row vector is ignored by MATLAB; scenario counts not divisible by 40 are refused by MATLAB and partly accepted by Python, odd ones only by Python's assertion refused; a window as wide as twice the data wraps around in Python; a negative horizon wraps around in Python's single-cohort model; rounding of the sort keys matters only if it changes the order; for negative asset value or volatility MATLAB's Merton residuals carry a penalty 9999999 x^2 that Python loses.",
  "all parameters, states, shock matrices, spectra, rounding and solvers, in any arithmetic",
  "no MATLAB in the test environment; agreement must hold for every input",
  MM+"mod_merton_computation.py:mod_merton_computation", MM+"mod_single_cohort_computation.py", MM+"fftsmooth.py:fftsmooth", MM+"merton_solution.py", MM+"matlab/ModMertonComputation.m", MM+"matlab/fftsmooth.m")

p("The simulation program runs to completion exactly for suitable path counts, and what it reports",
  "simulate(Nsim) stops with ValueError for Nsim = 0 and with AssertionError unless Nsim leaves remainder 0, 24, 30 or 36 modulo 40; for those it completes whenever the interpolation does, except with IndexError if the central state is one of the last eight. It then returns the seven-row table of C87 at the central state, for each of the 33 states the standard Merton fit to that state's equity value and volatility, and alternative (4) from its asset value and volatility. In exact arithmetic with an exact loan-yield solver the central state is number 17, so the table shows states 17, 25 and 9. The three grids have exactly 33, 69 and 105 points, in exact arithmetic and in IEEE double precision whatever the accuracy of the elementary functions.",
  "all path counts, random shocks, solvers, interpolation and rounding functions; in any arithmetic for the protocol, in binary64 for the grid sizes",
  "a default run takes hours and a test can only try a few path counts; grid sizes depend on rounding of an arange",
  MM+"mod_merton_simulation.py:simulate", MM+"mod_merton_create_lookup.py", MM+"fftsmooth.py:fftsmooth")

p("Table 1 of the simulation agrees with ModMertonSimulation.m",
  "The MATLAB and Python programs choose the same central state (if no distance to exp(rT/2) is NaN), fit the same six standard-Merton figures per state whenever their root finders return the same root with a volatility that is a number - in particular for any root finder that evaluates the equations only at non-negative asset values and volatilities - and print the same table, MATLAB with an extra separator row of -9999. In exact arithmetic, for the shipped configuration, any shocks and every positive multiple of 40 paths, both programs return these tables. Deviations: with NaN distances MATLAB takes the closest state among the others, Python the first NaN; a NaN volatility becomes 0.0001 in MATLAB and stays NaN in Python; a central state among the first eight stops MATLAB and makes Python show a state from the other end; one among the last eight stops both; MATLAB accepts exactly the positive multiples of 40 paths, all of which Python accepts too. For every valid call with a scenario count divisible by 40 the two valuations are identical.",
  "all banks, states, shocks, path counts and root finders, in any arithmetic; the end-to-end statement in exact arithmetic",
  "no MATLAB in the test environment; the deviations occur only on rare data",
  MM+"mod_merton_simulation.py:simulate", MM+"matlab/ModMertonSimulation.m", MM+"mod_merton_computation.py:mod_merton_computation")
p("Interest-rate interpolation of the empirical MATLAB program",
  "Strictly between two neighbouring grid rates the program returns the linear interpolation of the two grid values, so affine functions of the rate are reproduced and the weights add up to one. Exactly at a grid rate it should return that rate's value but returns 0, whatever the values; in IEEE double precision this happens for an observed rate of exactly 0, where the shipped grid starts. Outside the grid the results fade to 0 within one step. A NaN at any grid rate, even one without weight, makes the result NaN.",
  "all grids with a positive step, all values and observed rates; the zero-rate statement in binary64 for any summation order",
  "rates on the grid form a null set that random tests miss; statement holds for all value surfaces",
  MM+"matlab/ModMertonEmpirical_unobsbookF.m")


p("The simulation's alternative models are read off the right surfaces",
  "A completed simulate(Nsim) values each alternative bank - (1) overlapping cohorts with maturity 10, correlation 0.99 and volatility 0.2 sqrt(1/2); (2) one cohort with maturity 5, correlation 0.5 and volatility 0.2; (3) one cohort with maturity 5, correlation 0.99 and volatility 0.2 sqrt(1/2) - once for each of the 105 loan face values 0.40, 0.41, ..., 1.44 on the 69 wide states with the same shocks, interest 1%, horizon 5, the bank's debt, ltv 0.66, depreciation 0.005 and pay-out 0.002, and no growth guarantee. It interpolates the default probability and the borrower asset value of that surface, as functions of equity value and equity volatility (7245 points, state by state, aligned point by point with the values), at the 33 pairs of equity value and volatility of the true bank.",
  "all path counts, shocks, solvers, interpolation routines and rounding functions, in any arithmetic; the numbers in exact arithmetic",
  "a default run takes hours; a swapped surface or misaligned ravel yields plausible curves",
  MM+"mod_merton_simulation.py:simulate", MM+"mod_merton_create_lookup.py:mod_merton_create_lookup", MM+"mod_single_merton_create_lookup.py")

p("CCC and DCC estimation reports the likelihood of the reported model",
  "Estimation from two return series of equal length that are not constant, the marginal optimizers starting at the documented point and reporting their objective value: DCC.fit completes, reports the two marginal estimates followed by the optimizer's (a,b), and as log-likelihood the two Gaussian log-likelihoods plus the log-density of the Gaussian copula with the conditional correlations at (a,b) (clipped to [-0.99,0.99]) at the standardized residuals; when both marginal optimizers evaluated their estimate last, that number is the log-likelihood of the bivariate normal model with the reported parameters. CCC.fit hands the joint optimizer the two marginal estimates followed by the Pearson correlation of the standardized residuals, stores what it reports unchanged, and the reported log-likelihood is that of the bivariate normal model with constant correlation rho at the reported parameters, the variances recomputed from those parameters.",
  "all pairs of non-constant series of any length, both kinds of marginal model, all optimizer runs honouring their contract, both correlation back ends, exact arithmetic",
  "statement over all data and optimizer traces; a stale variance series or a dropped term changes the reported number by little",
  "src/frds/algorithms/_mgarch.py:GARCHModel_CCC.fit", "src/frds/algorithms/_mgarch.py:GARCHModel_DCC.fit", "src/frds/algorithms/_mgarch.py:GARCHModel_DCC.loglikelihood_model")


p("Closed-form prices are expected discounted payoffs",
  "blsprice's call and put are the expectations of e^(-rT) max(S_T - K, 0) and e^(-rT) max(K - S_T, 0), where S_T is lognormal with drift r - q and volatility sigma and the expectation is the improper integral against the standard normal density. The contingent-claim put is the expected discounted loss on the debt and the CDS put uses the expected discounted repayment. An exact root of the Merton equations prices equity as the expected discounted residual claim plus the value of the dividends. loan_payoff is the expected min(face value, borrower assets) given the common factor, and the promised yield is a root of find_face_value_indiv exactly when the loan's promise discounted at it equals the expected discounted repayment.",
  "all spot prices, strikes, rates, maturities, volatilities and loans with positive scale parameters, exact arithmetic",
  "an integral over all outcomes: Monte Carlo tests only bound the error statistically at a few points",
  f"{M}_option_price.py:blsprice", f"{M}_contingent_claim_analysis.py:ContingentClaimAnalysis.estimate", MM+"loan_payoff.py:loan_payoff", MM+"find_face_value_indiv.py:find_face_value_indiv", MM+"merton_solution.py:merton_solution")


p("The whole-array program of the single-cohort model computes the cell-by-cell valuation",
  "mod_single_cohort_computation, executed statement by statement on numpy arrays (concatenate, cumulative sum along paths, broadcasting, column-major flatten, argsort, fancy indexing and reshape), returns in every cell exactly the number obtained by valuing each (path, state) cell on its own, or raises the same exception; whether the states come as a vector or as a column. A shock matrix with another number of rows than Nsim2 raises ValueError, fewer than N shocks per path raise IndexError, states passed as a row raise ValueError, no paths raise ValueError. A negative horizon index counts from the last supplied shock. Only the first max(N, HN) shocks of each path matter, so the 3N periods drawn by the lookup builder yield the same prices as the N periods the single-cohort model needs.",
  "all state vectors, shock matrices, parameters, horizons, root finders, spectral filters and rounding functions, in any arithmetic (bit-exact)",
  "an index or axis error shows only for some shapes; equality of two programs over all shapes and contents",
  MM+"mod_single_cohort_computation.py:mod_single_cohort_computation", MM+"mod_single_merton_create_lookup.py:mod_single_merton_create_lookup", MM+"fftsmooth.py:fftsmooth")


p("The LRMES simulator inverts the GJR-GARCH-DCC filter",
  "Feeding the simulation with the innovations of a return path (z_m = residual over volatility, xi = (z_i - rho z_m)/sqrt(1 - rho^2), filtered day by day with the GJR variances and the DCC matrix as documented) returns exactly that path, for every path and horizon and in both back ends, and no other innovations do. So each pair of holding-period returns above -100% is reached by exactly described shocks. In particular the sample innovations that estimate() resamples, replayed in order from the first day, reproduce the observed firm and market log returns, provided the Python correlation back end is used and no in-sample variance was clipped; clipping is visible as a variance at its lower bound or above its upper one. The forecast does not start from the last pseudo-correlation matrix Q_T as documented but from the correlation matrix (1, rho_T): the two agree when Q_T has a unit diagonal or b = 0, and differ in general.",
  "all admissible parameters, return paths of any length and both back ends, exact arithmetic",
  "inverse-function statement over all paths; Monte Carlo output hides a filter/simulator mismatch",
  f"{M}_long_run_mes.py:LongRunMarginalExpectedShortfall.simulation", f"{M}_long_run_mes.py:LongRunMarginalExpectedShortfall.estimate", "src/frds/measures/lrmes.hpp:simulation", "docs/source/measures/long_run_mes.rst")


p("SRISK is the mean simulated capital shortfall over the systemic scenarios",
  "SRISK.estimate, called with raw returns, W <> 0 and D, returns the mean over the simulated scenarios with market return below C of k(D+W') - W', where W' is today's equity times one plus the simulated firm return and debt is unchanged; with no systemic scenario it returns today's shortfall. With several firms each gets its own mean shortfall, the aggregate is the sum of the positive ones, and the plain sum is the mean total shortfall of the system over one common set of scenarios: the aggregate is never below it and equals it when no firm has a surplus. For one firm with W and D plain Python floats the aggregate option raises AttributeError whenever the C++ simulation is used or no scenario is systemic, and otherwise gives the positive part.",
  "all raw returns above -100% with non-constant log returns, all feasible estimates reported by the optimizers, all draws, horizons, C, k, W, D and numbers of firms, exact arithmetic",
  "an end-to-end identity over all series, estimates and draws; tests compare one number with one seed",
  f"{M}_srisk.py:SRISK.estimate", f"{M}_long_run_mes.py:LongRunMarginalExpectedShortfall.estimate", "docs/source/measures/srisk.rst")

p("All firms of one SRISK call are stressed with the same systemic scenarios",
  "For one market series, seed, horizon and C, a drawn scenario is systemic for one firm exactly when it is systemic for every other: the simulated market path never depends on the firm's returns, its estimates, the correlation, or the contents of uninitialised arrays. So every firm's LRMES has the same divisor, and either all firms get an LRMES from scenarios or all get 0.",
  "all pairs of firm series, optimizers that report success after evaluating the objective, draws and thresholds, both back ends, in any arithmetic (bit-exact)",
  "a non-interference statement over all pairs of runs",
  f"{M}_srisk.py:SRISK.estimate", f"{M}_long_run_mes.py:LongRunMarginalExpectedShortfall.estimate", f"{M}_long_run_mes.py:LongRunMarginalExpectedShortfall.simulation", "src/frds/measures/lrmes.hpp:simulation")

p("SRISK documents log returns but converts its inputs to log returns again",
  "SRISK's arguments are documented as log returns, yet they are passed unchanged to LRMES, which expects simple returns and takes 100 ln(1 + x). Given the log returns of simple returns r the models are therefore estimated on 100 ln(1 + ln(1 + r)), strictly below the intended 100 ln(1 + r) for every r except 0, and a daily loss of more than 1 - 1/e (63%) becomes NaN. Simple returns must be supplied to get the documented measure.",
  "all return series, exact arithmetic",
  "a documentation-versus-code statement over all inputs; tests use the inputs the code happens to expect",
  f"{M}_srisk.py:SRISK", f"{M}_long_run_mes.py:LongRunMarginalExpectedShortfall")

p("PIN is the share of informed trades; the documented sum formula is not",
  "Under the documented trading tree the reported pin is the expected number of informed trades on a day divided by the expected number of trades, i.e. the average of the probability that a buy is informed and the probability that a sell is informed, weighted by how frequent buys and sells are. The documentation's equation (10) instead claims that it is the sum of those two probabilities: for equal uninformed rates the sum equals the reported value only when there is no informed trading at all, is strictly larger otherwise, is twice the value for equally likely good and bad news and can exceed one. With equally likely news a Bayesian market maker's spread is the reported pin times the range of values, as equation (11) says.",
  "all admissible parameters, all asset values",
  "identity and strict inequality over a continuum; a documentation-versus-code statement",
  f"{M}_probability_of_informed_trading.py:PIN.Parameters.calculate_pin", "docs/source/measures/probability_of_informed_trading.rst")

p("Symmetries of the PIN likelihood that the PIN estimator does not share",
  "Exchanging buys with sells together with the uninformed rates and good with bad news leaves both likelihoods and the pin unchanged; reordering the days changes neither likelihood nor the starting points; the likelihood of two samples put together is the sum of their likelihoods. The estimator itself is not symmetric in buys and sells: with on average fewer than one sell in ninety buys there is no starting point and estimate returns NaN without an error whatever the optimizer would do, while the same data with the sides exchanged have all 125 starting points.",
  "all samples, all interior parameters, all permutations of the days, all optimizers",
  "relations between runs on all pairs of related inputs",
  f"{M}_probability_of_informed_trading.py:PIN.loglikelihood_EHO2010", f"{M}_probability_of_informed_trading.py:PIN.loglikelihood_LK2011", f"{M}_probability_of_informed_trading.py:PIN.init_params_grid_search", f"{M}_probability_of_informed_trading.py:PIN.estimate")

p("The PIN objectives on the edge of the optimizer's bounds",
  "The bounds handed to the optimizer include zero uninformed rates. There loglikelihood_EHO2010 is NaN for every data set; loglikelihood_LK2011 equals the mixture likelihood as long as every day has a trade on the side with rate zero (and is +inf exactly when the sample is impossible), but NaN as soon as one day has none, although such a sample has positive probability. The edge is reached: starting points with a sell rate of exactly zero are produced for suitable data, and if there are no buys at all every starting point has buy rate and mu zero and both objectives are NaN at it.",
  "all parameters on the edge, all samples with non-negative counts, exact arithmetic with IEEE infinities and NaN",
  "all samples on a measure-zero boundary that examples do not hit",
  f"{M}_probability_of_informed_trading.py:PIN.loglikelihood_EHO2010", f"{M}_probability_of_informed_trading.py:PIN.loglikelihood_LK2011", f"{M}_probability_of_informed_trading.py:PIN.init_params_grid_search")


p("The unit of the returns: what scaling returns by a constant does to the GARCH models",
  "The documentation advises to scale returns (e.g. to percent). Multiplying the returns by c multiplies backcast, variance bounds and the starting omega by c^2 (and the starting mu by c); the objective at the correspondingly rescaled parameters is shifted by the constant T ln|c| and every variance is multiplied by c^2, provided no variance was compressed at its upper bound. In the first period in which one is, the excess over the bound is not scaled, so for every data set and every c^2 <> 1 there are admissible parameters for which the two units disagree. The optimizer's box is not in the unit of the data either: omega >= 1e-6 always, the start lies below that bound exactly when the variance of the returns is below 5e-5, and no fit can report a long-run variance below 1e-6.",
  "all return series with positive variance, all c (GJR: c > 0), all admissible parameters, both classes, with or without mean, exact arithmetic",
  "a relation between two runs over all inputs and parameters",
  f"{G}:GARCHModel.preparation", f"{G}:GARCHModel.loglikelihood_model", f"{G}:GARCHModel.bounds_check", f"{G}:GARCHModel.fit", "docs/source/algorithms/garch.rst")

p("Comparing GJR estimates with Stata's tarch needs more than the sign of gamma",
  "The documentation warns that Stata's gamma is the negative because Stata's indicator marks positive shocks. The variances computed by GJRGARCHModel are those of Stata's recursion with gamma negated and alpha replaced by alpha + gamma, for every residual series, and no other Stata parameters give the same updates; negating gamma alone makes every update too small by gamma r^2. The box gamma in [1e-6, 1] means that only a leverage effect, never its reverse, can be estimated.",
  "all parameters, residual series, backcasts and bounds, exact arithmetic",
  "identity and uniqueness over all series and parameters; a documentation-versus-code statement",
  f"{G}:GJRGARCHModel.compute_variance", f"{G}:GJRGARCHModel.fit", "docs/source/algorithms/gjr-garch.rst")

p("Kyle's lambda is the documented estimate only for signed square-root volumes",
  "The documentation regresses returns on S, the sum over the trades of a period of sign(v) sqrt|v|. The function returns that estimate (times a million) when it is handed S, but its argument is named and documented as signed dollar volume. With dollar volumes it returns another quantity: scaling all volumes by d divides it by d, the documented one by sqrt d, and the two can have opposite signs.",
  "all samples, all splits of periods into trades, all lstsq implementations meeting numpy's contract, exact arithmetic",
  "scaling laws over all samples; a documentation-versus-code statement",
  f"{M}_kyle_lambda.py:kyle_lambda", "docs/source/measures/kyle_lambda.rst")

p("The Z-score bounds the frequency of insolvency and ranks normal insolvency probabilities",
  "With ROA at its past mean and a positive score Z, at most a fraction 1/(1+Z^2) of the past periods had a loss reaching the capital ratio, whatever the data, and the bound is attained. If profits over assets are normal with mean ROA and the sample standard deviation, the probability that the loss exceeds the capital ratio is Phi(-Z); a bank has a higher score exactly when that probability is lower.",
  "all non-constant ROA histories, ROAs and capital ratios, exact arithmetic",
  "an inequality over all histories and an improper integral",
  f"{M}_z_score.py:z_score", "docs/source/measures/z_score.rst")

p("The dataset under concurrent access",
  "Any number of threads may access the stock-returns property and construct the dataset class at the same time, interleaved in any way. No access ever returns None: it returns a table that some access read from the file, or raises the error of its own read. Every construction returns the object made at import and no second object is made. The file is read at most once per access, and once a table is stored only accesses that had already found no table can still read. When a table is stored and no access is between its check and its store, every later access returns that very table and nothing is read again; a first access that runs alone and succeeds brings this about. It is false that the file is read only once or that all threads get the same table: overlapping first accesses each read, and can return different table objects, even a table other than the one they read themselves.",
  "all finite sets of calls, all schedules of their steps, all file contents at each read",
  "it ranges over thread interleavings, which a test cannot enumerate or force",
  "src/frds/datasets/_stocks.py:_StockReturns.stocks_us", "src/frds/datasets/_stocks.py:SingletonMeta.__call__")

p("Interrupted estimations",
  "fit() and estimate() may be cut off by an exception between any two of their attribute assignments, any number of times. A GARCH or GJR fit cut off before it reports success leaves data, estimates and residuals untouched, and the next fit does exactly what it would have done on the untouched object. Run again with the same optimizer behaviour, a univariate, CCC or DCC fit cut off before reporting success ends as if never interrupted, provided no GARCH sub-model was cut off between its flag and its residuals; GJR models recover from every interruption. An interrupted PIN estimation holds the best of the optimizer runs so far and a new estimation gives the same answer as on a fresh object. It is false that an object reporting success has estimates: the flag is set before the parameters, so each fit passes through a state reporting success with the old (NaN) values, after which GARCH fit returns None, and CCC and DCC fits return NaN, for ever; an interrupted second PIN estimation reports success with all parameters NaN.",
  "all objects, all optimizer behaviours, all interruption points and sequences of interruptions, any arithmetic",
  "crash points and histories of crashes cannot be enumerated by tests",
  f"{G}:GARCHModel.fit", f"{G}:GJRGARCHModel.fit", f"{MG}:GARCHModel_CCC.fit", f"{MG}:GARCHModel_DCC.fit", f"{M}_probability_of_informed_trading.py:PIN.estimate")

p("LK2011 never overflows; EHO2010 overflows at every starting value of an active stock",
  "In IEEE binary64 the LK2011 objective is a finite number for every sample of up to 2^53 days and all trade counts up to 2^50 whenever the probabilities lie between 2^-50 and 1-2^-50, the uninformed rates between 2^-500 and 2^500 and mu between 0 and 2^500; in particular at every starting value whose sell rate is not (nearly) zero. The default EHO2010 objective is not finite as soon as one day has min(B,S)+max(B,S)/2 >= 1025 k and one uninformed rate is at most k mu; hence, if the mean number of buys is at least 1 and one day reaches 8200 (say 5467 buys and as many sells), it is infinite or NaN at every starting value of the grid search, so that every optimizer run starts without a usable value.",
  "all samples, parameters and starting values in the stated ranges; any C library with a bounded log, an exp mapping non-positive numbers into [0,1] and a pow that overflows when the exact power does; any summation order",
  "overflow behaviour over all parameters and samples, independent of the C library",
  f"{M}_probability_of_informed_trading.py:PIN.loglikelihood_LK2011", f"{M}_probability_of_informed_trading.py:PIN.loglikelihood_EHO2010", f"{M}_probability_of_informed_trading.py:PIN.init_params_grid_search")

p("The unit, sign and order of the two series in the CCC and DCC models",
  "Multiplying the residuals of the two series by c1 and c2 (and their variances by c1^2 and c2^2) leaves the DCC conditional correlations of either backend unchanged, up to the sign of c1*c2; the CCC log-likelihood (with the correlation reflected likewise) and the two-step DCC log-likelihood are shifted by the constant -T(ln|c1|+ln|c2|), so the unit never changes which (a,b) is preferred. Exchanging the two series changes no conditional correlation.",
  "all residual series of equal length with positive variances and non-constant standardized residuals, all non-zero units, all admissible (a,b), both backends, exact arithmetic",
  "an invariance over all data, units and parameters",
  f"{MG}:GARCHModel_DCC.conditional_correlations", f"{MG}:GARCHModel_DCC.loglikelihood_model", f"{MG}:GARCHModel_CCC.loglikelihood", "src/frds/algorithms/utils/mgarch.hpp:conditional_correlations")

p("Values reported by the empirical MATLAB program",
  "With a table computed by the modified Merton model the program succeeds for every bank file and reports one row per bank. For a bank whose interest rate is strictly between two grid rates and whose (E, sE, 0.2) lies inside the triangulations of the two neighbouring rates, the reported loan value equals the reported debt value plus the OBSERVED equity value, the debt value is at most the book value of debt, the default probability is in [0,1], and every output is within the range of the surrounding grid points. At a rate on the grid every output is 0, so the balance sheet is lost and the bank looks default-free. Moving grid points with NaN or infinite equity volatility to 99 is not without effect as the source says, but if no volatility is negative it changes the reported default probability by at most sE/99.",
  "all grids of valid points, bank files and value surfaces; any linear interpolant (weights that are convex and depend only on the points); exact arithmetic",
  "no MATLAB in the test environment; identities over all surfaces, interpolation weights and banks",
  MM+"matlab/ModMertonEmpirical_unobsbookF.m", MM+"matlab/ModMertonCreateLookup.m")

p("Integer residual arrays passed to compute_variance and forecast_variance",
  "The constructors convert returns to float64, the static methods do not convert residuals. For float64 residuals nothing changes. For int64 residuals the pure-Python compute_variance (GARCH and GJR) and forecast_variance return whole numbers that are never negative and never exceed the variances the same residuals give as float64; a variance (or forecast) below 1 becomes 0, and then the log-likelihood is NaN although it is finite for float64. The C++ kernels read the integers' bits as doubles: with non-negative residuals below 2^52 every variance is bit for bit the one for residuals that are all zero (the data are ignored), and after a negative residual every variance is NaN. No error is raised in any of these cases.",
  "all non-empty int64 residual series (squares below 2^63 for the Python part, absolute values below 2^52 for the C++ part), non-negative parameters, positive bounds, both backends, any square computed as x*x in C++",
  "the tests pass float64; the effect of a silent cast at every step is over all series",
  f"{G}:GARCHModel.compute_variance", f"{G}:GJRGARCHModel.compute_variance", f"{G}:GJRGARCHModel.forecast_variance", "src/frds/algorithms/utils/utils_module.cpp:compute_garch_variance")


p("The generated test data for loan_payoff",
  "FRDSGenTestDataLoanPayoff.m always succeeds and returns Nsim2 x 10 x 99 factor values, a face value, the initial log value, rho, sig and T that are bit for bit the arguments with which simulate()'s bank is valued by mod_merton_computation for the same uniform draws: the payoff of element (i,j,k) is what the valuation of cohort j on path i in state k continues with (the size of its second loan if it is rolled over before the horizon, its value otherwise), and LoanPayoff.m and loan_payoff agree on the whole array. With exact arithmetic and a converged solver every payoff is the expected repayment, positive and below the face value; it strictly increases along the 33 factor states of each block, the raised block is above and the lowered block below the plain one; and it depends on the path only through the draws of periods 10..9+j, so the oldest cohort repays the same on every path.",
  "all uniform draws, inverse distribution functions, solvers and numbers of paths; any arithmetic for the first part, exact arithmetic for the second",
  "no MATLAB in the test environment; the data are random, and the agreement with the valuation ranges over all draws",
  MM+"matlab/FRDSGenTestDataLoanPayoff.m", MM+"loan_payoff.py:loan_payoff", MM+"mod_merton_computation.py:mod_merton_computation")

p("Spread measures in double precision have a small relative error",
  "For bids, asks, prices, later prices and midpoints that are doubles between 2^-100 and 2^100 (bid not above ask) and volumes that are zero or in that range, the percentage quoted spread, and the undirected percentage effective spread, realized spread and price impact, computed in IEEE double precision differ from the exact result for those inputs by at most k * 2^-52 times the exact result, where k is the depth of the summation tree numpy uses plus 6 (quoted spread), or twice that depth plus 8 (the trade measures), and the depth is below the number of observations; the choice between the volume-weighted and the plain average is never changed by rounding. This fails for the log quoted spread: with correctly rounded logarithms there are quotes with bid < ask whose log spread is computed as exactly 0, a relative error of 100 percent.",
  "every non-empty list of at most 2^50 quotes or trades in the stated range, every summation order and every math library (the refutation: the correctly rounded one)",
  "rounding errors can cancel or accumulate in any sample; a test compares a handful of samples to a tolerance and cannot bound the error of all of them, nor tell a cancellation-prone formula from a stable one",
  f"{M}spread.py:quoted_spread", f"{M}spread.py:effective_spread", f"{M}spread.py:realized_spread", f"{M}price_impact.py:simple_price_impact")

p("Rounding errors in the conditional variances grow only linearly",
  "compute_variance (GARCH and GJR, pure Python and compiled) and ewma in IEEE double precision: if parameters, backcast and residuals are zero or of magnitude 2^-100..2^100, the bounds are in 2^-300..2^300 and the exact variances stay at or below half their upper bound, then the variance of period t differs from the exact one for the same inputs by at most (3+2t) * 2^-52 (GARCH) or (5+3t) * 2^-52 (GJR) times the exact variance, whatever the parameters (explosive ones included) and also when the lower bound binds, and both backends return the same bits. The exponentially weighted average of period t has relative error at most (2+2t) * 2^-52 as long as its exact values do not fall below 2^-300.",
  "all parameters, backcasts, bounds and residual series of at most 2^50 observations in the stated range, both backends, every math library that squares by multiplying",
  "a recursion can amplify rounding errors exponentially; that it does not, for any series and any length, cannot be seen from test series",
  f"{G}:GARCHModel.compute_variance", f"{G}:GJRGARCHModel.compute_variance", f"{G}:GARCHModel.bounds_check", f"{G}:GARCHModel.ewma", "src/frds/algorithms/utils/garch.hpp:compute_garch_variance", "src/frds/algorithms/utils/garch.hpp:compute_gjrgarch_variance")

p("The LaTeX tables written for the paper can be read back",
  "matrix2latex_Stefan.m writes a table from which everything it was given can be read back: the rows of the file (the lines that end in a row break, cut at the column separators) are, in order and with nothing added, the row label followed by the text of each entry of the matrix - the number in the requested format, in parentheses or brackets where 'specform' says so, nothing where the entry is -9999 - the header line holds the column labels behind an empty corner cell, the column specification has an l for the labels and one alignment letter l, c or r per column, and the additional header line has one cell per group with its text, the number of columns given by 'topwidth' and a rule under exactly the columns of the groups marked '_'. An option name is accepted only if exactly one of the nine options begins with it (letters in any case); otherwise the call fails and no file is opened. The alignment must be one character or the word right: the words left and center, for which the code has branches, always fail (also with no file opened). The table of ModMertonSimulation.m is written and read back for whatever numbers are simulated.",
  "every matrix, format, marks, labels and header groups whose texts contain no column separator or line break, every number-to-text conversion, and every argument list for the refusals",
  "no MATLAB in the test environment; a test reads a few tables by eye, while column shifts between labels, groups, rules and entries depend on the combination of options and on all widths",
  MM+"matlab/matrix2latex_Stefan.m", MM+"matlab/ModMertonSimulation.m")


p("Accuracy of MES and the z-score in double precision",
  "For returns that are doubles, zero or of absolute value between 2^-100 and 2^100, at most 2^50 of them, in whatever order numpy adds: the value of MarginalExpectedShortfall.estimate differs from the exact mean of the firm's returns on the selected days (those whose market return compares below the percentile numpy computed) by at most (levels+2)*2^-52 times the mean absolute return, where levels is the depth of the summation tree, so it lies within the range of those returns up to that error, and it is NaN when no day is selected; np.std of a history bounded by B differs from the exact standard deviation sigma by at most E = 5*(levels+5)*2^-52*B, and when 4E <= sigma the z-score has relative error at most 2E/sigma + 2^-51; for a constant non-zero history the z-score is infinite, NaN, or at least |roa+capital_ratio|/(2E) in size. Two things fail in doubles: the MES of equal returns can be strictly larger than all of them (three times 0.1), and a constant history (three times 0.1) gives the finite z-score 14411518807585588 for roa = capital_ratio = 0.1.",
  "every list of such returns, every q, every summation order, every correctly rounded IEEE binary64 arithmetic",
  "rounding depends on every bit of every input and on the order of summation; tests use tolerances on a handful of series",
  f"{M}_marginal_expected_shortfall.py:MarginalExpectedShortfall.estimate", f"{M}_z_score.py:z_score")

p("Black-Scholes prices in double precision",
  "With a mathematical library whose log and exp have relative error 2^-52 and whose normal distribution function lies in [0,1] with absolute error 2^-52, for prices, time and volatility between 2^-100 and 2^100, rates that are zero or of that size, and |r*T|, |q*T| at most 100, blsprice returns two finite numbers; each differs from the exact price for the same inputs by at most 28*2^-52*N*(1+A), where N = S e^(-qT)(1+|qT|) + K e^(-rT)(1+|rT|) and A = (1+|ln(S/K)|+(|r|+|q|+sigma^2/2)T)/(sigma sqrt T) + sigma sqrt T. Put-call parity holds up to 30*2^-52*N, whatever the volatility and moneyness. The call never exceeds the computed discounted stock price and the put never exceeds the computed discounted strike; neither is below minus the error above. A strictly positive price is not guaranteed: with correctly rounded functions there is an option with a positive exact call price for which exactly 0 is returned.",
  "every option in the stated range and every library within the stated error bounds",
  "rounding errors depend on every bit of the inputs; a test compares a few options to a tolerance",
  f"{M}_option_price.py:blsprice")

p("Market volatility simulated by LRMES reverts to a level fixed by the sample",
  "Averaged over all n^h sequences of days the bootstrap of LongRunMarginalExpectedShortfall can draw, the squared deviation of the simulated market log return from mu on the (k+1)-th simulated day is the mean squared standardized residual times v_k, where v_0 is tomorrow's (known) variance and v_(k+1) = omega + kappa v_k, kappa = beta plus the sample mean of (alpha + gamma 1[z<0]) z^2; both back ends simulate these returns. If kappa < 1, v_k = L + kappa^k (v_0 - L) with L = omega/(1-kappa), otherwise v_k grows at least linearly; kappa is alpha + gamma/2 + beta (what the optimizer constrains) when the residuals have mean square one, half of it on negative days; in general it is not, and admissible estimates can make the simulated variance explode. With residuals of mean zero the h-day log return has mean h mu and variance the sum of the v_k. The share of all possible scenarios that are systemic is at most h times that variance over the squared distance of 100 ln(1+C) from h mu, and without the factor h if the residuals have mean zero.",
  "every admissible parameter set, sample of standardized residuals, horizon, day and threshold; averages over every possible draw",
  "the number of possible draws is n^h (1000^22 for a usual sample); a test sees one seed",
  f"{M}_long_run_mes.py:LongRunMarginalExpectedShortfall.estimate", f"{M}_long_run_mes.py:LongRunMarginalExpectedShortfall.simulation", "src/frds/measures/lrmes.hpp:simulation")
p("Monte Carlo error of LRMES",
  "Let p be the share of the n^h possible scenarios that are systemic, and the exact LRMES minus the mean firm return over those. Among all (n^h)^S possible draws of S scenarios, the share for which estimate() returns a value more than eps away from the exact one is at most 4/(S p) (1 - p + V/eps^2), where V is the variance of the firm return over the systemic scenarios; every draw gives a finite result. So the estimate converges as S grows, at a rate governed by S p, the number of systemic scenarios, which is also their average number; the share of the draws without any systemic scenario, for which 0 is returned, is exactly (1-p)^S.",
  "every fitted model, sample, horizon, number of simulations, threshold and tolerance; shares over every possible draw",
  "a test runs one seed; the statement is about the whole distribution over draws and the limit S to infinity",
  f"{M}_long_run_mes.py:LongRunMarginalExpectedShortfall.estimate", f"{M}_long_run_mes.py:LongRunMarginalExpectedShortfall.simulation", "src/frds/measures/lrmes.hpp:simulation")

p("LRMES estimates with the same seed share their scenarios",
  "Every call of estimate() restarts the generator from its seed. With the same seed and horizon, the scenarios of a run with more simulations begin with those of the shorter one, in every arithmetic and both back ends: if the longer call succeeds so does the shorter, the longer run continues from the shorter one's total and event count, and the number of systemic scenarios never falls. The longer estimate is the average of the shorter one and of the added scenarios' LRMES weighted by their numbers of systemic scenarios, and is unchanged when none of the added ones is systemic. With another threshold the same scenarios are used, so a severer threshold never has more events. Provided numpy draws the indices of one call one after the other, runs with different horizons cut one and the same sequence of days into scenarios (10000 scenarios of 22 days and 5000 of 44 use the same days in the same order).",
  "every generator, seed, horizon, pair of simulation counts or horizons, threshold, state of the object, arithmetic and back end",
  "relates all pairs of calls; a test compares two",
  f"{M}_long_run_mes.py:LongRunMarginalExpectedShortfall.estimate")

p("Isolation forest path lengths are centred on the score normaliser",
  "On numeric data without ties, if the generator draws uniformly, the path length the forest uses in a score, averaged over the members of a tree's sample and over everything the generator can draw, depends only on the number of members and the height limit - not on the data, the number of attributes or the order of the sample. It differs from the normaliser c(n) of the scores by at most 0.86 downwards and about 1.51 + 1/(n-1) - 1/n upwards at every height limit, so relative to c(n) it tends to 1 as the sample grows: the average member of a sample has a normalised depth near 1 (score near one half). The normaliser itself takes ln(n-1) + 0.5772 for the harmonic number H(n-1) and is below the mean depth of n uniformly cut values, 2(H(n)-1), by between 4/(4n-3) - 0.005 and 1/(n-1) + 0.002; for two members it is 0.154 although any tree that separates them adds a full level.",
  "every data set of numeric attributes without ties on the sample, sample of at least two members, height limit, and number range that all ranges of the generator divide",
  "The claim averages over all sequences of draws - astronomically many for any realistic sample - and holds for every data set and sample size; a test sees a few forests from one seed.",
  f"{IF}IsolationForest.cpp:growTree", f"{IF}IsolationForest.cpp:averagePathLength", f"{IF}IsolationForest.cpp:pathLength", f"{IF}IsolationForest.cpp:anomalyScore")

p("What makes an observation an outlier for the isolation forest",
  "Scores depend on numeric attributes only through the order of the values and the positions of missing values: two data sets with the same order in every attribute give every observation the same score, bit for bit, for every generator, seed and number of workers. In particular the largest value of an attribute can be replaced by any larger finite one without changing any score: how far out an outlier lies does not matter (unlike in Liu, Ting and Zhou, where cut values are drawn from the range). What does count is being extreme in rank: for a generator that draws uniformly, an observation of the sample with the smallest or the largest value in every attribute (no ties) has, averaged over everything that can be drawn, a path length between H(n-1) - 2 and H(n-1) + 2 in a tree of the code's height limit, so its normalised depth tends to 1/2 as n grows, while that of the average member tends to 1.",
  "every data set, pair of data sets with the same order, generator, seed, number of workers, sample size; averages over all sequences of draws",
  "relates all pairs of data sets and averages over all possible draws; a test sees one data set and one seed",
  f"{IF}IsolationForest.cpp:growTree", f"{IF}IsolationForest.cpp:pathLength", f"{IF}IsolationForest.cpp:anomalyScore")

p("Rounding errors in the Gaussian log-likelihood that the GARCH fits maximise",
  "In IEEE doubles the computed log-likelihood of a residual series under given variances differs from the exact sum of log normal densities by at most (8 + depth of numpy's summation tree) 2^-52 times the sum of the sizes of its terms, 1 + (|ln 2 pi| + |ln s| + r^2/s)/2 each; when the variances are themselves computed by the GARCH or GJR recursion from the same parameters the constant 8 grows by 3 + 2T or 5 + 3T for T observations. Hence two candidates whose exact log-likelihoods differ by more than the two bounds are always compared the right way round.",
  "every nonempty residual series of at most 2^50 (2^48 with the recursion) doubles that are 0 or between 2^-100 and 2^100 in size, all variances between 2^-500 and 2^500 or all parameters, backcasts and bounds in the range of the variance property, every summation order, every libm whose logarithm is accurate to 2^-52",
  "bounds the error for every input, length and summation order; a test can only compare a few values with a tolerance of its own choosing",
  f"{G}:GARCHModel.loglikelihood", f"{G}:GARCHModel.loglikelihood_model")

p("What the absorption ratio measures",
  "The estimate is the largest share of the assets' total variance that any k uncorrelated bets (k weight vectors of length one, orthogonal to each other, k the fraction times the number of assets rounded half up) can explain, and some such portfolios reach it. So it is at least the share of the k most volatile assets by themselves; it does not change when the assets are reordered, when signs are flipped, or when they are mixed by any rotation; it is 1 as soon as one portfolio is used if all assets move with a single factor; and for uncorrelated assets it is the share of the k largest variances, just k/n when these are equal.",
  "every return matrix of at least two assets and two days with positive total variance, every fraction in [0,1], every family of orthonormal portfolios, every rotation and permutation, every eigenvalue routine returning the spectrum",
  "a maximum over all families of portfolios and an invariance under all rotations cannot be sampled",
  f"{M}_absorption_ratio.py:AbsorptionRatio.estimate", f"{M}_absorption_ratio.py:AbsorptionRatio.eigvals", f"{M}_absorption_ratio.py:AbsorptionRatio.asset_covariance")

p("How long a starting value or a single shock stays in the conditional variances",
  "compute_variance (GARCH and GJR-GARCH) for two inputs that differ in the backcast and in any residuals, with the same parameters and bounds: the variances of period t differ by at most beta^t times the start weight (alpha+beta, or alpha+gamma/2+beta) times the difference of the backcasts, plus, for every earlier period j, beta^(t-1-j) times the difference of the impacts (alpha r^2, plus gamma r^2 if r<0) of the two residuals - also when bounds are active, as long as no upper bound below one is exceeded - and by exactly the signed sum of these when no bound is active. In particular the influence of the backcast and of a single day dies out like beta^t, a residual never changes the variance of its own or an earlier day, and changing the backcast moves the log-likelihood of a sample of any length by at most a constant that does not depend on its length. If an upper bound below one is exceeded the influence can be amplified by any factor. The exponentially weighted average forgets its initial value exactly like lambda^t.",
  "all parameter vectors with beta >= 0 (explosive ones included), all pairs of residual series, backcasts and positive bounds",
  "decay over an unbounded horizon for all pairs of inputs; tests compare one series with stored output", f"{G}:GARCHModel.compute_variance", f"{G}:GJRGARCHModel.compute_variance", f"{G}:GARCHModel.bounds_check", f"{G}:GARCHModel.ewma", f"{G}:GARCHModel.loglikelihood")

p("Rounding errors in SRISK and SES",
  "In IEEE double precision, for equity W between 2^-100 and 2^100, debt D and LRMES L zero or of that size (D not negative) and a capital ratio k in [0,1] zero or of that size, the SRISK of one firm differs from the exact kD - (1-k)W(1-L) by at most 8 * 2^-52 * (k(D+W) + W(1+|L|)), so its sign is right whenever the exact shortfall exceeds that amount. The aggregate SRISK of many firms differs from the sum of the positive parts of the exact shortfalls by at most (8 + number of levels of the summation tree) * 2^-52 times the sum of those gross sizes. The SES estimate (b*mes + c*lvg)/(b+c) built from the fitted coefficients is within 6 * 2^-52 * (|b*mes| + |c*lvg|)/|b+c| of the exact one if |b+c| >= 2^-100.",
  "all equities, debts, capital ratios and LRMES values in the stated ranges, all numbers of firms (up to 2^50), all summation orders of the array sum, all fitted coefficients",
  "error bounds hold for a continuum of inputs and for every summation order; tests compare a few values with a tolerance",
  f"{M}_srisk.py:SRISK.estimate", f"{M}_systemic_expected_shortfall.py:SystemicExpectedShortfall.estimate")

p("Rounding errors in the DCC conditional correlations",
  "In IEEE double precision, for weights a and b with 1-a-b >= 1/n, residuals zero or between 2^-100 and 2^100 in size and variances in that range, the C++ backend's conditional correlation of day t differs from the one exact arithmetic gives by at most (4n + 2T + 6t + 28) * 2^-52, T being the number of days: the error grows only linearly with time, although the correlation is a ratio that could cancel. So a computed correlation never exceeds one in size by more than that amount, and lies strictly inside (-1,1) wherever the exact one is further inside than that. The Python backend satisfies the same bound with (4n + 2K + 6t + 20) * 2^-52 if numpy's sample correlation of the standardised residuals carries an error of at most K * 2^-53 and its variances are in range.",
  "all residual and variance series in the stated range, of any length up to 2^48, all weights a and b with a+b < 1, both backends",
  "the bound covers a continuum of inputs and every length of series; tests compare a few paths with a tolerance",
  "src/frds/algorithms/utils/mgarch.hpp:DCC::conditional_correlations", f"{MG}:GARCHModel_DCC.conditional_correlations")

p("Rounding errors in the limit-order-book slopes and depth differences",
  "In IEEE double precision, with sizes that are zero or between 2^-100 and 2^100 and prices in that range: (i) the ask slope of quotes priced above the midpoint, and the bid slope of quotes priced away from it, are within a relative error of (d_k + d_n + 3) * 2^-52 of the exact slope, however small the distance to the midpoint, where d_k and d_n are the depths of the summation trees over k levels and n quotes; (ii) the slope difference is within (d_n + 7) * 2^-52 times the average of the two segment slopes' sizes; (iii) the scaled depth difference is within (2 d_k + d_n + 8) * 2^-51 of the exact one, on its scale from -2 to 2, and in both arithmetics averages the same quotes: those with some depth (NaN when there is none).",
  "all numbers of quotes and levels up to 2^50, all sizes and prices in the stated ranges, all summation orders of the array sums",
  "error bounds hold for a continuum of inputs and for every summation order; tests compare a few values with a tolerance",
  f"{M}lob_slope.py:DGGW_ask_slope", f"{M}lob_slope.py:DGGW_bid_slope", f"{M}lob_slope.py:DGGW_bid_side_slope_difference", f"{M}lob_slope.py:DGGW_ask_side_slope_difference", f"{M}lob_slope.py:DGGW_scaled_depth_difference")

p("Monte Carlo error of the simulated SRISK",
  "The model that a call of SRISK.estimate fits does not depend on the days its random generator draws; call exact the value returned when each of the n^h possible h-day scenarios (n days of data) is simulated exactly once. (i) Every draw of S scenarios returns a number, and among all (n^h)^S draws the share for which one firm's SRISK is more than |(1-k)W| eps away from its exact value is at most 4/(S p) (1 - p + var/eps^2), p being the share of the scenarios in which the market falls by more than C and var the variance of the firm's return over them. (ii) With several firms a scenario is systemic for all of them or for none, so p is common; the share of the draws for which the aggregate is more than sum |(1-k)W_c| eps away from its exact value is at most the sum of the firms' bounds. (iii) For every tolerance and level there is a number of simulations from which on at most that share of the draws is further off.",
  "all raw returns, fitted models, thresholds with a systemic scenario, equities, debts, capital fractions, horizons, numbers of firms and of simulations, tolerances",
  "a statement about all possible draws of a random generator for every number of simulations; a test runs one seed with a tolerance",
  f"{M}_srisk.py:SRISK.estimate", f"{M}_long_run_mes.py:LongRunMarginalExpectedShortfall.estimate")

p("Rounding errors in the LK2011 PIN log-likelihood",
  "In double precision PIN.loglikelihood_LK2011 returns a finite number that differs from minus the logarithm of the Poisson-mixture likelihood of the sample times the factorials of the counts (which the formula omits) by at most (15 + D) 2^-52 times the sum of the days' sizes, D being the depth of NumPy's summation of one value per day and the size of a day with n buys and k sells being eB + eS + n (1 + |ln(mu+eB)|) + k (1 + |ln(mu+eS)|) + 49 (mu + n (1 + ln(1 + mu/eB)) + k (1 + ln(1 + mu/eS))) + 154. Days for which the exponentials of the formula underflow to zero are included. Hence, when the log-likelihoods of two parameter vectors differ by more than their two bounds, the objective the optimiser minimises orders them correctly.",
  "all samples of up to 2^50 days with up to 2^30 buys and sells each, all doubles alpha and delta in [2^-50, 1-2^-50], eB and eS in [2^-40, 2^40], mu 0 or in that range; all library logarithms and exponentials accurate to a relative 2^-52 (exp on [-200,200], below 2^-199 further left); every order of summation",
  "a statement about every double-precision input; tests compare a few samples with a tolerance chosen by hand",
  f"{M}_probability_of_informed_trading.py:PIN.loglikelihood_LK2011")

p("DCC conditional correlations are weighted averages that forget",
  "For both backends, day t's DCC conditional correlation is the correlation of a 2x2 matrix whose entries are weighted averages of the products of the standardized residuals of the days before t and of the long-run matrix (sample correlations in Python, uncentred second moments in C++): day j has the weight a b^(t-1-j), the long-run matrix the rest, so the weights are at least 0 and add up to 1. Consequently, if the standardized residuals of two data sets agree from day u on, their correlations of day t >= u differ by at most 3 ((1-b) e + a M b^(t-u)) / (c (1-a-b)), e being the difference of the long-run matrices, M that of the earlier products and c a lower bound for the long-run variances (1 in Python): an old outlier acts on later days through the sample correlation, otherwise its effect fades like b^(t-u).",
  "all parameters a, b >= 0 with a + b <= 1 other than (1, 0) (a + b < 1 for forgetting), all residual and variance series of every length with non-constant standardized residuals, both backends, all u, t",
  "a statement about every series length and history, including how two histories compare arbitrarily far in the future",
  f"{MG}:GARCHModel_DCC.conditional_correlations", f"{MGH}:DCC::conditional_correlations")

p("Rounding errors of the CCC log-likelihood",
  "Computed in IEEE doubles with a libm within 2^-52 for log and pi (and squaring as a multiplication), the bivariate log-likelihood of the constant-correlation model, for given residuals, variances and correlation, differs from the exact sum of bivariate normal log-densities by at most (4n + 18 + depth) 2^-52 times the total size of the parts it is computed from, where 1/n is a lower bound for 1 - rho^2 and depth is that of the summation tree. So close to perfect correlation the error can grow with 1/(1 - rho^2), and two candidate correlations are ranked correctly whenever their exact log-likelihoods differ by more than the two error bounds.",
  "all series of equal length up to 2^50, all residuals that are zero or of size 2^-100 to 2^100, all variances between 2^-100 and 2^100, all correlations (0 or at least 2^-100 in size) with n (1 - rho^2) >= 1, n up to 2^40, every libm within the error bounds and every summation order",
  "unit tests compare a few values with a tolerance; the bound holds for every input and shows how much of a likelihood difference is noise",
  f"{MG}:GARCHModel_CCC.loglikelihood")

p("Rounding errors of the two-step DCC log-likelihood",
  "Computed in IEEE doubles with a libm within 2^-52 for log and pi (and squaring as a multiplication), the two-step DCC objective for given residuals, variances and conditional correlations - the two univariate likelihoods, the standardisation, the clipping at 0.99 (itself not a double) and the correlation component - is minus the exact sum of bivariate normal log-densities at the clipped correlations up to (631 + depth) 2^-52 times the total size of its parts, depth being that of the summation tree: the clipping keeps the loss of accuracy near perfect correlation bounded. Of two correlation paths the computed objective prefers the better one whenever their exact log-likelihoods differ by more than the two error bounds.",
  "all series of equal length up to 2^50, all residuals that are zero or of size 2^-100 to 2^100, all variances between 2^-100 and 2^100, all finite correlations that are 0 or at least 2^-100 in size (also far outside [-1, 1]), every libm within the error bounds and every summation order",
  "unit tests compare a few values with a tolerance; the bound holds for every input and shows how much of a likelihood difference is noise",
  f"{MG}:GARCHModel_DCC.loglikelihood_model")

p("Rounding errors of anomaly scores and the effect of thread scheduling on them",
  "Growing and scoring only compare the observations' numbers, so a forest grown on IEEE doubles is the forest exact arithmetic grows from the same random draws, NaN included; only the path totals, the normaliser and the power are rounded. With a libm whose log is within 2^-52 relative and whose pow(2, y), y <= 0, is within 2^-52 absolute, the score of any observation is a finite double that differs from the exact score by at most (number of trees + 2250) 2^-52. Hence the scores of one observation under two thread schedules, whose trees are summed in different orders, differ by at most twice that; and two observations whose exact scores differ by more than twice that are ranked correctly by the computed scores.",
  "all data sets (NaN and infinite values included), all random generators, all forests whose trees have at most 2^50 levels and observations per leaf (every forest grown with forest_size times tree_size at most 2^50), all schedules of any number of workers, every libm within the error bounds",
  "a unit test sees the schedules that happen to occur on one machine and compares scores with a tolerance; the bound says which tolerance is justified for every schedule and data set",
  f"{IF}IsolationForest.cpp:anomalyScore", f"{IF}IsolationForest.cpp:pathLength", f"{IF}IsolationForest.cpp:averagePathLength", f"{IF}IsolationForest.cpp:growTree")

p("Contingent claim analysis in double precision",
  "In IEEE doubles the put price returned by contingent claim analysis is, bit for bit, the put that blsprice computes for assets of value x0^2 and volatility x1^2 (the squares of the solver's vector, as rounded) struck at the default barrier, without dividends; the only possible error after the solver is an OverflowError of the last exponential. That put differs from the exact Black-Scholes put by at most 28 2^-52 times (discounted barrier and assets, weighted with the size of the exponents) times (1 + sensitivity of d1), and never exceeds the discounted barrier as computed. With a CDS spread of zero the premium returned equals the put exactly, provided the exact risky debt is at least twice that error bound; under the same proviso, for a CDS spread between 0 and 2^100, a rate >= 0 and a put computed as >= 0, the call succeeds and the premium lies between the put minus the discounted barrier and the put, all as computed.",
  "all solver results, barriers and maturities with x0^2, x1^2, barrier and maturity between 2^-100 and 2^100, rates zero or of that size with at most 100 time units of compounding, every libm with relative errors of 2^-52 for log and exp, exp(0) = 1, exp(x) in [0, 1] for x <= 0 and an absolute error of 2^-52 for the normal distribution function",
  "unit tests compare one example with a tolerance; the identity with blsprice and the error bound hold for every input",
  f"{M}_contingent_claim_analysis.py:ContingentClaimAnalysis.estimate", f"{M}_option_price.py:blsprice")

if __name__ == "__main__":
    here = os.path.dirname(os.path.dirname(os.path.abspath(__file__)))
    with open(os.path.join(here, "properties.jsonl"), "w") as f:
        for q in P:
            f.write(json.dumps(q) + "\n")
    print(len(P))
