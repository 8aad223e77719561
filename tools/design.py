#!/usr/bin/env python3
"""Writes DESIGN.md from the prose below, properties.jsonl and MANIFEST.json."""
import json, os, re, glob
here = os.path.dirname(os.path.dirname(os.path.abspath(__file__)))
HEAD = open(os.path.join(here, "tools", "design_head.md")).read()
# property -> (model files, how it is proved)
M = {
"C01": ("garch", "invariant over the recursion: every value left by bounds_check is at least a positive lower bound; in exact arithmetic and again for binary64 with any rounding-faithful log"),
"C02": ("garch", "the recursion is the one of an independent specification (Spec_garch), for any arithmetic; equal prefixes give equal prefixes"),
"C03": ("garch", "case analysis of the two bounds_check versions; induction over the series; the NaN case is a separating witness; bit-for-bit version on binary64 (Props_float5.v)"),
"C04": ("garch", "case analysis and monotonicity of log; the jump at the upper bound and the non-monotone place are theorems; binary64 version"),
"C05": ("garch", "induction: closed form as a weighted sum with geometric weights; causality for any arithmetic"),
"C06": ("garch", "weights normalise to one; weighted-mean lemmas; dependence on the first 75 squares only"),
"C07": ("garch", "order of the brackets from EWMA positivity; all-zero and NaN residuals are treated exactly"),
"C08": ("garch", "the running-maximum loop is characterised for any arithmetic; the documented argmax is refuted by a witness"),
"C09": ("garch", "state machine over call histories, optimizer = arbitrary trace oracle; invariants by induction over the history"),
"C10": ("garch", "state invariant after a successful fit; sigma2 can stem from a different evaluation: refuted with an explicit trace"),
"C11": ("garch", "equality with the independent Gaussian log-density; constant-variance maximiser by calculus"),
"C12": ("garch", "gamma = 0 reduces the step, sign arguments for the leverage term"),
"C13": ("garch", "the forecast list is the unbounded recursion; offset by one against the in-sample path"),
"C14": ("garch", "buffers with strides: the wrappers read the raw contiguous block; strided views are refuted"),
"C15": ("mgarch", "positive-semidefinite invariant of the quasi-correlation matrix (Cauchy-Schwarz); rounding refutes it in binary64"),
"C16": ("mgarch", "algebra on sample moments; the two targets coincide exactly on standardised series"),
"C17": ("mgarch", "equality with the independent bivariate normal log-density"),
"C18": ("mgarch", "decomposition identity summed over the sample"),
"C19": ("mgarch", "grid-search loop characterised for any arithmetic; independence of the likelihood"),
"C20": ("mgarch", "state machines with optimizer oracles; invariants over call histories"),
"C21": ("lrmes", "accumulator invariant; permutation invariance; bound via exp; the whole estimate() with its oracles"),
"C22": ("lrmes", "positivity + PSD invariants along the horizon; both backends step equally in exact arithmetic; binary64 refutation of |rho|<=1"),
"C23": ("lrmes", "monotone filter / count"),
"C24": ("measures", "closed form and monotonicity of the formula"),
"C25": ("measures", "sum of positive parts; type-error of the scalar path as a value"),
"C26": ("measures", "exact characterisation of accepted dtypes/shapes"),
"C27": ("measures", "column-wise map; independence"),
"C28": ("measures", "the interpolated percentile is specified independently (Spec_measures) and unique; selection lemmas"),
"C29": ("measures", "mean-of-subset bounds; emptiness characterised"),
"C30": ("measures", "permutation invariance, affine equivariance"),
"C31": ("measures", "weighted-combination algebra"),
"C32": ("ar", "symmetric-matrix trace/PSD arguments with eigvals under its contract (a real spectrum of a symmetric PSD matrix)"),
"C33": ("ar", "rounding function characterised; slices outside [0,1]"),
"C34": ("ar", "state machine of the cache, induction over histories"),
"C35": ("measures", "quadratic minimisation; lstsq by its normal equation"),
"C36": ("measures", "variance algebra"),
"C37": ("option", "Phi(x)+Phi(-x)=1"),
"C38": ("option", "Gaussian integral bounds"),
"C39": ("option", "sign of derivatives (Coquelicot)"),
"C40": ("option", "identities of put/debt/CDS; root exists and is unique by IVT/monotonicity; solver oracle"),
"C41": ("dip", "loop invariants over the simulated draws: frequencies sum to one, premium = conditional expectation"),
"C42": ("dip", "index bound and zero-mass cases characterised exactly"),
"C43": ("dip", "floor arithmetic; 0.29*100 in binary64 evaluated in the kernel"),
"C44": ("micro", "mean bounds; binary64 bounds via monotone rounding"),
"C45": ("micro", "dollar-volume weighted mean"),
"C46": ("micro", "pointwise identity, weighted sums; triangle inequality for the undirected version"),
"C47": ("micro", "homogeneity"),
"C48": ("micro", "exact values at the degenerate inputs"),
"C49": ("micro", "nanmean of level ratios with independent specification (Spec_micro)"),
"C50": ("micro", "index analysis"),
"C51": ("micro", "ratio bounds, antisymmetry; binary64"),
"C52": ("pin", "ratio of non-negative terms; binary64"),
"C53": ("pin", "exact characterisation of the grid points kept"),
"C54": ("pin", "log-sum-exp algebra"),
"C55": ("pin", "equality with the Poisson mixture, factorials via Gamma-free recursion"),
"C56": ("pin", "state machine with an optimizer oracle; fold invariant 'best so far'"),
"C57": ("iforest", "induction on tree growth with arbitrary random oracles"),
"C58": ("iforest", "2^(-x) bounds; harmonic-number normaliser; binary64"),
"C59": ("iforest", "threads as interleavings of disjoint writes; commutation"),
"C60": ("iforest", "integer arithmetic of the job split"),
"C61": ("iforest", "permutation invariance of the score"),
"C62": ("iforest", "growth and scoring comparisons separated exactly on NaN"),
"C63": ("iforest", "sampling size of the k-th tree"),
"C64": ("iforest", "modulus arithmetic of the seed offset"),
"C65": ("datasets", "class-level cache as a state machine; induction over arbitrary histories"),
"C66": ("merton", "the FFT product is proved to be a circular convolution through the exact DFT (Fourier.v), then index arithmetic"),
"C67": ("merton", "Black-Scholes lemmas"),
"C68": ("merton", "monotonicity + exact equivalence"),
"C69": ("merton", "system at its root; penalty branches analysed"),
"C70": ("merton", "averages over scenarios of pointwise identities"),
"C71": ("merton", "index-set partition by arithmetic on cohort ages"),
"C72": ("merton", "case analysis"),
"C73": ("merton", "stable argsort and inverse permutation"),
"C74": ("merton", "heap cell of the parameter list as explicit state"),
"C75": ("imports", "import system as a state machine; induction over arbitrary import histories"),
"C76": ("iforest", "generator state copied to both children: same draws"),
"C77": ("lrmes", "explicit state threading"),
"C78": ("option", "derivatives and homogeneity"),
"C79": ("merton", "IVT and strict monotonicity of the loan value"),
"C80": ("merton", "cancellation in the telescoped exponents"),
"C81": ("merton", "mean of lognormal factors in closed form"),
"C82": ("merton", "loop invariant over the grid"),
"C83": ("merton", "homogeneity of the loan block"),
"C84": ("merton", "composition with the smoother"),
"C85": ("merton", "composition of the single-cohort blocks"),
"C86": ("garch, mgarch", "feasible sets described by averaging the recursion step"),
"C87": ("simulation, merton", "argmin and index arithmetic; closed-form mean assets for the shipped grid"),
"C88": ("simulation, option", "lognormal probability; monotonicity"),
"C89": ("simulation, merton", "ratio bounds; logs"),
"C90": ("memory", "checked memory: invariant over the loops gives Done/UB exactly"),
"C91": ("memory", "byte-level layout of fixed-width strings"),
"C92": ("memory", "three nested loop invariants; refinement to the functional model"),
"C93": ("dipdraws (cholesky)", "the recurrence keeps the factor of the leading block (good_row); back substitution turns a failed pivot into a vector with non-positive quadratic form; uniqueness by double induction (Cholesky.v)"),
"C94": ("dipdraws, dip", "normal quantile by completeness and IVT; bilinearity of the weighted second moments; counting lemmas on the joint frequencies"),
"C95": ("dipdraws, dip", "inversion of the triangular cdf; composition with C41/C42"),
"C96": ("iforestpy, iforest, memory", "checked-memory semantics refined to the abstract forest; interleavings; explicit out-of-bounds reads"),
"C97": ("iforestpy, iforest, memory", "column selection as list functions; composition with C96"),
"C98": ("ndarray, mertonarrays, merton", "numpy arrays as shapes with index functions; lemmas for each operation on arrays of known shape and contents, then a refinement proof of the whole program"),
"C99": ("matlab, merton", "the .m files transcribed with 1-based, error-raising indexing; proved equal to the Python model (in any arithmetic), with every deviation characterised"),
"C100": ("simulate, simulation, merton", "the whole of simulate(Nsim) as one program over oracles for shocks, fsolve and griddata; outcome by cases on Nsim from the parity conditions of the smoothing step, grid sizes by exact computation of the arange lengths in XRA and, for any libm, in binary64"),
"C101": ("matlab2, matlab3, matlab, simulate", "the table part of ModMertonSimulation.m transcribed with NaN-ignoring min/max and 1-based indexing; equality with the Python table in any arithmetic, composed with C70, C99 and C100 to the end-to-end statement in exact arithmetic"),
"C102": ("empirical, empirical2, matlab2", "the weight matrix of ModMertonEmpirical_unobsbookF.m as a function; real analysis of the tent without tip; monotonicity of rounding for the zero rate"),
"C103": ("simulate3, simulate", "simulate as a program with the interpolation as an oracle; the lookup table unfolded to one valuation per face value, the ravelled tables as row-by-row lists"),
"C104": ("mgarch3, mgarch", "the fit functions as programs over optimizer runs; every evaluation of the objectives is shown to return, the reported value is unfolded to a sum of log-densities"),
"C105": ("expect, option, cca, loans", "expectations as improper Riemann integrals against the normal density; the exercise region is split off and the integral evaluated by the fundamental theorem of calculus"),
"C106": ("singlearrays, ndarray, mertonarrays, merton", "the array program is modelled one numpy statement at a time; each intermediate array is characterised by its shape and a cell function, and the last one is compared with the cell-by-cell model"),
"C107": ("replay, lrmes", "the documented filter is written as a recursion on observed returns; one simulation step is shown to be its inverse while the pseudo-correlation matrix stays positive definite, then induction over the path; the in-sample innovations are identified with the filter by induction over the days"),
"C108": ("srisk", "SRISK.estimate is instantiated with the modelled LRMES measure (Model_srisk.v); C21_end_to_end gives the LRMES, C24/C25 the formula; the mean of the shortfalls is rewritten by linearity; one index set of systemic scenarios is exhibited for all firms and the two sums are exchanged"),
"C109": ("srisk, lrmes", "relational proof: the simulator's market leg is shown to depend on market state, market parameters and market innovations only; those are traced through estimate_setup back to the single fit of the market series, which is independent of uninitialised memory once the solver evaluates and succeeds"),
"C110": ("srisk, lrmes", "refuted documentation: exact series handed to the models, strict inequality ln(1+x) < x, NaN branch of log"),
"C111": ("pin", "spec: three kinds of days with rates, expectations over them, Bayesian quotes; field identities, sign of the difference to the documented sum"),
"C112": ("pin", "closed form of both likelihoods (C54) as a sum over days; permutations; no-start condition (C53) applied to both labellings"),
"C113": ("pin", "sign/NaN analysis of every term in extended reals with IEEE rules, folded over the days; LK exponents on the edge computed exactly and matched with the Poisson mixture at rate zero"),
"C114": ("garch", "induction over the variance path with scaled bounds; case analysis of the clipping; log-density scaling; refutation with a huge omega for every data set"),
"C115": ("garch", "spec: Stata's update; algebra on the update lifted to the variance path; uniqueness by evaluation at four points"),
"C116": ("measures", "spec: documented regressor from trades; C35's normal equation applied to it; scaling of sums; sign counterexample"),
"C117": ("measures", "Cantelli's inequality over finite samples; Gaussian integral (Gauss.v, normal_mean of C105) of the insolvency indicator"),
"C118": ("threads", "small-step model of the property and of the metaclass call under arbitrary thread schedules (Model_threads.v); invariant of reachable states, a measure for the number of reads, settled states preserved by every step; two concrete schedules for the refuted promises; uninterrupted executions equal the model of C65"),
"C119": ("crash", "the methods rewritten as programs that record the state after every attribute assignment (Model_crash.v), proved to have the same complete runs as the models of C09, C20 and C56; Hoare-style triples over the recorded states; frame lemmas for what a fit depends on"),
"C120": ("pinfloat", "the two objectives of Model_pin.v run in binary64 (B64); magnitude bounds through every rounding for LK2011; for EHO2010 relative rounding errors of e/(mu+e), Bernoulli's inequality for the power, and propagation of non-finite values through products, logs and any summation tree"),
"C121": ("mgarch4", "the closed form of both backends proved for C15; the Q recursion commutes with sign changes and with exchanging the series; the bivariate log density under a change of scale"),
"C122": ("empirical3", "C70 and C101 at every grid point give the identities of the surface; convex weights carry linear identities and ranges through the 3-d interpolation, C102 through the one over rates; the weight of points moved to 99 is bounded by the reproduced volatility"),
"C123": ("intresids", "the cast is an oracle with the contract of truncation; induction over the series with 0 <= whole number <= float64 variance; the reading of the bits is Flocq's b64_of_bits, small subnormals square to +0"),
"C124": ("testdata", "mapM over paths, cohorts and states reduced to the valuation model cell by cell; the exact part reuses the closed forms of C58/C67; monotonicity from payoff_increasing_in_factor"),
"C125": ("accuracy", "Float64c: a value is k roundings away from an exact non-negative one, k adds up through +, *, / and a summation tree; differences of two doubles are one rounding (Sterbenz-free: the operands are exact); exponents tracked so nothing over- or underflows; the log spread refuted by three adjacent ticks whose logarithms must round alike"),
"C126": ("accuracy2", "every operation of the recursion is on non-negative numbers, so each costs one rounding and the counts add (Float64c); max with the lower bound keeps relative accuracy; induction over the series side by side with the exact run"),
"C127": ("latex", "Model_latex.v writes the file in a monad that keeps what was written when a run fails; Spec_latex.v is a reader of LaTeX tables that does not mention the writer (lines, row breaks, cells, spans); the writer's output is computed as a list of lines by induction over rows, columns and header groups and fed to the reader"),
"C128": ("averages", "Float64d.v bounds the absolute error of sums, means and standard deviations of signed doubles by induction over the summation tree (the standard deviation through root mean squares: shifting every deviation by d moves it by at most d); the two counterexamples are computed by the kernel in Flocq's binary64"),
"C129": ("option64", "the model of blsprice run in Flocq's binary64; forward error analysis with an absolute-error predicate (value, reference, size) pushed through every operation of the function; library functions enter only through accuracy contracts that correctly rounded functions are shown to satisfy; parity compares both prices to the same reference at the computed d1, d2"),
"C130": ("volterm", "Draws.v lists every sequence of draws once (proved) and defines averages and shares over them; the average over the first draw of the remaining average (tower rule) turns the simulated GJR recursion into a linear one, solved in closed form; the systemic share by Chebyshev's inequality over the list of draws; a counterexample for the persistence"),
"C131": ("montecarlo", "over the list of all (n^h)^S experiments: independence is a lemma about sums over sequences of draws; the error event is covered by two Chebyshev events (too few systemic scenarios, a large sum of centred firm returns), both computed exactly; tied to estimate() through C21"),
"C135": ("loglik64", "absolute error carried through every operation (Float64d/e): value, reference and size; logarithms of rounded arguments through |ln w - ln s| <= k ln(1+2^-53); sums in any order with a size per term; combined with the relative errors of the variances (C126) and the exact value (C11)"),
"C137": ("influence", "the adjustment to the bounds moves no more than its argument when the upper bound is at least one (ln(1+x) <= x), and is the identity when inactive; induction over time on the difference of two variance paths; the log density is Lipschitz in the variance above m, and a geometric sum bounds the total; the refutation doubles a variance above a small upper bound"),
"C138": ("srisk64","the relative-error calculus of Float64c/d along the evaluation order of the formula, 1-k and 1-L bounded separately; the aggregate by the bound for an arbitrary summation tree; the sign by the triangle inequality"),
"C139": ("dcc64","induction over time with the diagonal entries known to a relative error of L roundings and the off-diagonal one to L roundings of a majorant G that satisfies the same recursion; (Q11, G, Q22) stays positive semidefinite, so G / sqrt(Q11 Q22) <= 1 and the error of the ratio is absolute; the rounded 1-a-b is off by 2n+1 roundings"),
"C140": ("lob64","the difference of two doubles is correctly rounded, so the distance to the midpoint has one relative rounding; sums and means of non-negative terms keep relative errors; signed terms are tracked by the near calculus with the size they are relative to; quotes without depth give 0/0 = NaN in double precision exactly when their exact depth is zero"),
"C146": ("score64","the grown trees commute with the value map because growing only compares; relative error of the path total (one rounding per tree) and of the normaliser (near its own size by c(n) >= 0.154), then exp(-y) y <= 1 turns a relative error of the exponent into an absolute error of the score; two schedules are permutations with the same exact score (C61)"),
"C147": ("cca64","rf - 0 = rf and a exp(-0) = a hold bit for bit, so the put expression is the one of blsprice and C129 applies; for the zero spread the exact debt is compared with the accumulated errors so that the computed debt is a normal number, the quotient finite and the last exponent a zero"),
"C145": ("dcclik64","as C144 with the clipped correlation known up to one rounding (0.99 is rounded) and n = 51 because 51 (1 - 0.99^2) >= 1; the two univariate likelihoods by C135; the exact value is the bivariate log-likelihood by C18"),
"C144": ("ccc64","one term is tracked with the relative/absolute error calculus of C135: 1 - rho^2 is within 4n+1 roundings because the error 2^-52 of rho^2 is at most 2n 2^-53 (1-rho^2); the quadratic form is a difference of terms each known relative to its own size; log and sum add their own errors; comparison by the triangle inequality"),
"C143": ("dccavg","the matrix recursion of C15 in closed form by induction on the days (a geometric sum of past products; the missing weight is the long-run one); the correlation of a matrix is Lipschitz with constant 3/m when the diagonal is at least m (case split on which determinant product is larger); the difference of two weighted averages splits at day u"),
"C142": ("lk64","each day: relative error analysis (near) of the three exponents, of the exponentials of their differences with the maximum (absolute error, with a separate branch where exp may underflow), of the mixture (at least 2^-100 because one exponent is the maximum) and of its logarithm; the days by the summation-tree lemma; the exact value is the Poisson mixture by the lemmas of C55; comparison by subtraction"),
"C141": ("sriskmc","the fitted model is a function of the returns alone (estimated is re-proved for every other set of draws); SRISK is affine in the LRMES, so the second-moment bound of C131 carries over with the factor |(1-k)W|; several firms by a union bound, the positive part being 1-Lipschitz; the market path is the same for all firms (C108/C109), hence common events"),
"C136": ("portfolio", "Ky Fan's inequality from Bessel's inequality and the weighting lemma of C32; portfolio covariances are the bilinear form of the covariance matrix; the maximum is reached by the top eigenvectors (a complete family of unit vectors is orthogonal); a rotation maps a spectrum to a spectrum, a permutation is a rotation; one factor and uncorrelated assets by exhibiting the spectrum or the portfolio"),
"C133": ("pathlen", "the engine as a stream of numbers below N (a multiple of every range), draws by remainder, all streams equally likely (Draws.v); the ranks of the drawn members are a permutation of 0..n-1, so the mean over draws and members of the model's growTree/pathLength satisfies a recursion in the sample size (induction on the height); the excess over 2(H_n - 1) is bounded by the same recursion, and Harmonic.v compares H_m with ln m + 0.5772 by monotone bounds evaluated at m = 8"),
"C134": ("outlier", "simulation argument: trees of two data sets with the same order are related node by node (same path lengths), lifted through worker_loop and all_workers_trees for any Arith; extreme observations: the part they fall into has size rank or n - rank of the drawn member, giving the recursion E = 1 + mean of E(1..n); its excess over 1 + H(n-1) halves with every level (induction on the height)"),
"C132": ("scenarios", "numpy's generator as an abstract state machine (one call of choice per scenario); prefix and concatenation lemmas by induction over the calls, the accumulation loop is a fold, so it continues; the one-element-at-a-time contract is only used for the horizon clause and is met by an explicit generator"),
}
try:
    M.update({k: tuple(v) for k, v in json.load(open(os.path.join(here, "tools", "design_more.json"))).items()})
except FileNotFoundError:
    pass
props = [json.loads(l) for l in open(os.path.join(here, "properties.jsonl"))]
claims = {c["property"]: c for c in json.load(open(os.path.join(here, "MANIFEST.json")))["claims"]}
where = {}
for f in sorted(glob.glob(os.path.join(here, "rocq", "theories", "Props_*.v"))):
    for t in re.findall(r"^(?:Theorem|Corollary) (C\d+\w*)", open(f).read(), re.M):
        where[t] = os.path.basename(f)[:-2]
out = [HEAD.rstrip(), "", "## 6. Property by property", "",
       "Model files are `Model_<name>.v`. 'Theorems' lists everything the manifest claims for the property, by the file it is in.", ""]
for q in props:
    i = q["id"]
    if i not in M:
        raise SystemExit(f"no method for {i}")
    mods, how = M[i]
    c = claims[i]
    byfile = {}
    for t in c["theorems"]:
        byfile.setdefault(where[t], []).append(t)
    out += [f"### {i} {q['title']}", "",
            f"{q['statement']}", "",
            f"* Ranges over: {q['quantifier']}.",
            f"* Model: {', '.join('`Model_' + m.strip() + '.v`' for m in mods.split(','))}. Status: {c['status']}.",
            f"* Proof: {how}.",
            "* Theorems: " + "; ".join(f"`{f}.v`: " + ", ".join(ts) for f, ts in byfile.items()) + ".", ""]
open(os.path.join(here, "DESIGN.md"), "w").write("\n".join(out))
