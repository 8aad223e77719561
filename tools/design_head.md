# A Rocq (Coq) model of mgao6767/frds

Generated by `tools/design.py` (prose in `tools/design_head.md`).

## 1. Approach

* The code is modelled function by function as total Gallina functions in `rocq/theories/Model_*.v`;
  each definition cites file and lines in /repo, and says where it simplifies. Python exceptions are values
  (`res X := Ok x | Err e`, `Arith.v`); undefined behaviour of the C++ code is a value too (`run X := Done x | UB`, `Model_memory.v`).
* **Numbers.** Model functions are parametric in a record `Arith` of operations *without laws*
  (`+ - * / sqrt log exp pow < <= ==`, NaN/infinity tests, decimal literals, the normal cdf, and `asum`, an
  order-unspecified array sum). A theorem takes one of three forms:
  * `forall A : Arith`: whatever the arithmetic is, hence bit for bit for binary64 (structure, causality, protocols, memory).
  * about `XRA` (`XR.v`): reals extended by `PInf`, `MInf`, `NaN` with the IEEE rules for special values, but no rounding, no
    overflow and one unsigned zero. Nothing rests on Coq's totalised `1/0 = 0`, `ln (-1) = 0` or `sqrt (-1) = 0`.
  * about `B64 lm` (`Float64.v`, Flocq): IEEE binary64 with rounding, overflow and signed zeros; the parameter `lm` holds what IEEE
    does not fix (log, exp, pow, cdf, the summation tree) and each theorem states what it needs of it.
    Every such theorem mentions `B64` in its statement; no other theorem claims anything about rounding error.
* **Arrays** are lists (1-d) or lists of rows (2-d); shapes are explicit where the code checks them or depends on them.
* **External code** - scipy's `minimize` and `fsolve`, numpy's `lstsq`, `eigvals`, random generators, `std::mt19937_64` - is an argument of the
  model (an arbitrary function or answer, called an oracle), and where a theorem needs a contract it is a visible premise.
  numpy's FFT is replaced by the exact discrete Fourier transform, whose convolution theorem is proved (`Fourier.v`).
* **State** (estimator objects, caches, the import system, threads, the heap cell of a mutated list) is explicit; histories are arbitrary
  lists of calls, schedules arbitrary interleavings.
* Where the code violates what its documentation promises, a theorem with suffix `_refuted` gives the counter-example and companions
  say exactly what happens instead. No property is only partially proved, so no theorem carries the suffix `_partial`.

## 2. Files

| file | content |
|------|---------|
| `Arith.v`, `XR.v`, `Float64.v`, `Float64b.v`, `Float64c.v`, `Float64d.v`, `Float64e.v` | numbers: the interface, extended reals, binary64, its rounding lemmas, relative-error and absolute-error bounds |
| `Draws.v` | every sequence of equally likely draws, averages and shares over them (used for the bootstrap of LRMES) |
| `RealAux.v`, `Harmonic.v`, `Gauss.v`, `Fourier.v`, `Cholesky.v` | sums and quadratic forms, harmonic numbers, the normal distribution, the DFT, matrix factors |
| `Model_*.v` | the code |
| `Spec_*.v` | independent specifications used in statements |
| `Proofs_*.v` | lemmas |
| `Props_*.v` | the theorems `Cnn_...` and, beside each group, `Example Cnn_case...` showing that the hypotheses are met by a concrete case |

## 3. Trusted base

* The Coq 8.16.1 kernel (no `native_compute`; `vm_compute` only where the kernel's own VM replays it).
* The axioms `Print Assumptions` lists, theorem by theorem, in `ASSUMPTIONS.md` (generated by `tools/assumptions.py`). They are all from the
  standard library: `ClassicalDedekindReals.sig_forall_dec`, `ClassicalDedekindReals.sig_not_dec` and
  `FunctionalExtensionality.functional_extensionality_dep` (the real numbers) and `Classical_Prop.classic` (Coquelicot, Flocq).
  About a third of the theorems use none. Coquelicot, Flocq and mathcomp's ssreflect are used as libraries; they add no axioms.
  Checkers that list opaque constants of standard-library module implementations (`Rdefinitions.RbaseSymbolsImpl.*`, `RinvImpl.*`,
  `ssrunder.Under_rel.*`) show sealed definitions, not axioms.
* The translation of Python and C++ to Gallina, done by hand and by reading. It is the largest part of the trust.
* The reading of numpy/pandas/CPython behaviour built into the model (NaN comparisons, broadcasting and shape errors, slice semantics,
  `np.sum` of an empty array, iteration order of `itertools.product`, import-system rules).

There are no axioms, parameters, admitted proofs, functors or module types of our own.

## 4. What is modelled and what is not

| code in /repo/src/frds | model | not modelled |
|---|---|---|
| `algorithms/_garch.py`, `utils/garch.hpp`, `utils/utils_module.cpp` | `Model_garch.v` (values, protocol), `Model_memory.v` (memory), `Model_intresids.v` (int64 residual arrays) | the optimizer's algorithm (oracle); logging; `Enum`/dataclass mechanics; reference counts and allocation failure; a `params` argument that is not iterable |
| `algorithms/_mgarch.py`, `utils/mgarch.hpp` | `Model_mgarch.v`, `Model_memory.v`; interruption points of every fit and of PIN.estimate in `Model_crash.v` | as above |
| `algorithms/isolation_forest/*` | `Model_iforest.v`; memory, extension entry point and Python front end in `Model_iforestpy.v` | the bits of `mt19937_64` (oracle), overflow of `nObs`, the GIL and allocation failure inside threads; pandas' str() conversion |
| `measures/_long_run_mes.py`, `lrmes.hpp`, `measures_module.cpp` | `Model_lrmes.v`, `Model_memory.v` | the bits of numpy's generator (oracle) |
| `measures/_absorption_ratio.py` | `Model_ar.v` | LAPACK (oracle with contract) |
| `measures/` z_score, kyle_lambda, MES, SES, SRISK | `Model_measures.v`; SRISK with the LRMES measure it calls in `Model_srisk.v` | `lstsq`'s SVD (contract: normal equations) |
| `measures/spread.py`, `price_impact.py`, `lob_slope.py` | `Model_micro.v` | - |
| `measures/_option_price.py`, `_contingent_claim_analysis.py` | `Model_option.v` | the root finder (oracle) |
| `measures/_distress_insurance_premium.py` | `Model_dip.v`, `Model_dipdraws.v` | see the header of the file |
| `measures/_probability_of_informed_trading.py` | `Model_pin.v` | the optimizer (oracle) |
| `measures/modified_merton/*` | `Model_merton.v`, `Model_simulation.v`, `Model_simulate.v`; `mod_merton_computation.py` also statement by statement on numpy arrays in `Model_ndarray.v`, `Model_mertonarrays.v`, and `mod_single_cohort_computation.py` in `Model_singlearrays.v`; the `.m` files of `matlab/` in `Model_matlab.v`, `Model_matlab2.v`, `Model_empirical.v`, `Model_testdata.v`, `Model_latex.v` | `fsolve`, `griddata`, `scatteredInterpolant` (oracles), printing, figures, files |
| `datasets/_stocks.py`, all import statements | `Model_datasets.v` (one thread), `Model_threads.v` (any schedule of threads), `Model_imports.v` | the file contents; third-party imports are assumed to succeed |

Deprecated or trivial code without semantic content (package `__init__` re-exports beyond their import behaviour, docs, setup.py) is not modelled.

## 5. Wrong programs

`seeded/LOG.jsonl` records, one line per attempt, an edit of a model definition of the kind a bug would make, the claim it breaks, which theorems
then failed to check, and which theorems were tightened because the edit had at first gone unnoticed. The edits are applied to a scratch copy and rebuilt;
`tools/mutlog.py` writes the log from the results.
