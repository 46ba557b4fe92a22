# Formal model of GWInferno in Rocq

## 1. Approach

The model is a set of shallow, branch-by-branch transcriptions of the functions in
`/repo/gwinferno` into Gallina (`rocq/theories/M*.v`).  Every definition has a comment
with the file and lines it models and what it simplifies.

* **Numbers.** Floating-point values are `num := Fin r | PInf | NInf | NaN`
  (`Num.v`).  Special values follow IEEE-754 (inf-inf = NaN, 0*inf = NaN, comparisons with
  NaN are false, log 0 = -inf, ...).  Finite arithmetic is exact real arithmetic: there is
  no rounding, no overflow and one unsigned zero (`x/0 = sign(x) inf`).  Where the code
  relies on the largest finite float (`nan_to_num`) that constant is float32's, `FMAX`.
  `exp` and `log` are the exact functions, so `exp(-FMAX)` is a tiny positive number, not an
  underflow to 0.
* **Arrays** are lists (lists of lists for 2-d).  `jit`/`vmap` are transparent.
* **Exceptions** are values (`result`), **object mutation** is explicit state passing.
* **External calls** (`jax.random`, `scipy.special.spence`, `betaln`, KDEs, linear solves,
  file contents) are explicit function arguments of the model; theorems quantify over them
  and any contract assumed appears as a hypothesis of the theorem.
  `erf` is defined (as the Riemann integral of the Gaussian).
* **Specifications** live in `Spec.v` (and `Spec*.v`) and do not mention the model:
  "is a density on [a,b]", trapezoid sum, textbook Cox-de Boor recursion, ....
* **Property theorems** live in `Props*.v` which contain nothing but the statement, the
  proof `exact lemma`, `Print Assumptions`, and `Example`s showing that the hypotheses are met.
* A property the unchanged code violates gets a theorem `..._refuted` with a witness and,
  where something weaker holds, a theorem `..._partial`.

## 2. Trusted base

* Coq 8.16.1's kernel.
* Axioms, as listed by `Print Assumptions` under every theorem in `Props*.v`: only Coq's standard library's,
  `ClassicalDedekindReals.sig_forall_dec`, `ClassicalDedekindReals.sig_not_dec`,
  `FunctionalExtensionality.functional_extensionality_dep` (the real numbers), `Classical_Prop.classic`, and, for the
  one example `C31_solver_exists` (a linear solver exists), `Description.constructive_definite_description`.
  A theorem lists none, some or all of the first four.  Coquelicot, mathcomp and ssreflect add none: what a
  checker prints for `RbaseSymbolsImpl` and `Under_rel` are opaque module fields with bodies, not axioms.
* That the transcription in `M*.v` is faithful (checked by reading; each definition cites lines).
* The simplifications above: exact reals instead of float32, stated contracts of externals.

## 3. Per-property plan

| id | model | proof |
|----|-------|-------|
| C01, C02 | `powerlaw_pdf` over `num` | FTC on Rpower, both branches; case analysis for the mask |
| C03 | `truncnorm_pdf`, `erf` as integral | substitution in the Gaussian integral, erf strictly increasing |
| C04 | logistic helpers | algebra on exp |
| C05 | `smooth` | monotone inside window; refuted outside |
| C06 | `powerlaw_logit_pdf`, falloff pdf | algebra; refuted for the high side |
| C07 | `betadist`, `betaln` an argument | value on open interval, scale substitution; refuted at end points |
| C08-C12 | parametric models | composition of C01/C03/C07; iterated integrals |
| C13 | `PowerlawRedshiftModel` | trapezoid linearity; refuted below zmin |
| C14-C16 | conversions | real algebra (nra) |
| C17 | conversions with a heap of arrays | refuted by aliasing history |
| C18 | aligned chi_eff prior | piecewise integral by FTC |
| C19 | isotropic prior with dilogarithm oracle | case analysis over all chi |
| C20 | fuelled recursion of the boundary average | refuted: a cycle for every fuel |
| C21 | chi_p isotropic prior | density is the derivative of a product cdf |
| C22 | rejection loop as iteration over a stream; interpolant on the grid | loop invariant; trapezoid linearity |
| C23 | `jnp.diff` iterated, `apply_difference_prior` | induction on length and order |
| C24-C26 | knot construction, `_basis`, `bases` | induction on the order, Cox-de Boor telescoping |
| C27 | custom knots | refuted |
| C28-C30 | project/norm of the five spline classes | linearity of trapezoid; special values |
| C31-C33 | natural cubic spline, linear solve an oracle with contract A c = s | derivative computations; refuted at the right end; round trip refuted |
| C34 | bivariate bases | refuted (exception) ; index map also characterised |
| C35-C38 | mask/scatter models | induction over sample list |
| C39-C41 | spline perturbation | trapezoid linearity; constructor assertion |
| C42-C46 | cosmology object: state = tables, operations = queries | induction over grid and over histories; Coquelicot integral for the error bound |
| C47 | cumtrapz with JAX index clamping | refuted; exact value characterised |
| C48-C50 | Sine, Cosine, Powerlaw | FTC, inverse functions |
| C51-C54 | grid distributions | trapezoid linearity; refutations |
| C55-C58 | per-event and injection Monte-Carlo sums | exp/log algebra, Cauchy-Schwarz by induction |
| C59-C65 | `hierarchical_likelihood` as a trace of recorded sites | case analysis over special values; induction over events |
| C66-C69 | config reader and model construction over string dictionaries | induction over the configuration |
| C70-C72 | utils | induction over lists; aliasing state |
| C73-C83 | selection, data collection | induction over rows; oracles for random choice |
| C84, C85 | post-processing curves | trapezoid linearity |
| C86, C87 | the priors against integrals over spins | piecewise integration, product of cdfs |
| C88 | array calls of the isotropic prior | element-wise equality; refuted for array q |
| C89 | `max_chi_p` against conversions | real algebra; refuted for a_max < 1 |
| C90 | integer counts with int32 wrap-around | equal exactly up to 46340: above, the square exceeds every int32, so it wraps and the effective number changes |

| C91, C94 | log volume element; distance, volume element and volume of the flat universe | Coquelicot integrals of 1/E |
| C92 | isotropic chi_eff prior by cases against the pushforward of isotropic spins | piecewise integration with the dilogarithm oracle's derivative as contract |
| C93 | conditional chi_p prior: rejection loop, reweighting, KDE oracle | loop invariant over the stream of draws |
| C95 | least-squares coefficients, solver an oracle with contract | normal equations |
| C96, C99 | sections of a configuration; from the file to the likelihood's trace | induction over the configuration |
| C97, C98 | analysis time, totals; catalog reading | induction over rows and over files |
| C100-C102 | spline-modulated densities, spline evaluation, M-spline components | Cox-de Boor recursion, integrals of B-splines by induction on the order |
| C103 | gridded distributions between nodes | interpolation, inverse of a piecewise linear cdf |
| C104 | mean and variance of the Beta density | integration by parts on improper-free exponents |
| C105 | argparse on the declared options | induction over settings |
| C106, C107 | set-up helpers and example models | composition of C35-C41 and C60 |
| C108 | files as a map; load, prior, save, read | induction over histories of saves; chain of C73-C83 |
| C109 | order statistics of the draws, drawing commands | rank counting, permutations |
| C110 | import table, `setup`, `run_inference` with loaders as arguments | induction over events and parameters; refuted |
| C111 | result directory and label as strings | injectivity of decimal notation and of concatenation with separators |
| C112 | the batch script's command line | round trip through the argparse model of C105 |
| C113 | the B-spline model end to end, in elementary terms (SpecFit) | composition of C106, C107, C101 and C60; partition of unity for the gauge freedom, scaling of the estimators for the priors |
| C114 | the fractions recorded per sub-population with the predictive draws | the draw is the inverse-cdf index (C64), its ratio is read off the recorded sites; log weights give a negative ratio (refuted) |
| C115 | the power-law-peak model end to end, in elementary terms (SpecPeak) | each factor identified with its shape over its integral by C01, C03, C07, C12; then as C113; infinite weight at zero spin (refuted) |
| C116 | the two cosmologies built on import (MPlanck) | second-order chord error of the comoving rate (Lipschitz derivative), summed over the table and added to the interpolation error; history independence as C45 |
| C117 | the chain of C108 followed by the models of C113 and C115 | the loaded arrays are shown to be the columns of lists of binaries (`tables_hold`), each named in the files, then C113/C115 apply |
| C118 | MMain (second half of `main` of the B-spline example): reading the posterior by name, the three curve calculations of C84/C85, the two dictionaries, the conversion of C72 | each curve function is applied to the columns of a list of populations (SpecMain), its curve identified with the density of C113; dictionary lookups by computation |
| C119 | the same for the power-law-peak example | as C118, with the densities of C115; the infinite values at 0 and 1 of a Beta density with small shapes make the normalisation infinite |
| C120 | MConfig: the shipped YAML tree and Python model, the package's classes with the signatures of their constructors, their log densities, as a `world` for MConstruct | the file is read by computation; keyword binding decides the exception in every reachable state; with a redshift class that takes the grid, C66's theorem gives the weights and C55's the value, the densities identified with normalised power laws and a broken-line volume element |
| C121 | MTrace: the names of the posterior, the trace plot (KeyError for an unknown name) and the two files | C67 gives the sampling parameters and their entries; the steps of the builder keep the recorded sites; the explicit trace of C55 has the other four names; a witness document for the lost samples |
| C122 | MOptions: binding of the likelihood section to the keyword arguments, truth of YAML values | the bound flags are the chosen ones; then C99's theorem; the flag check of the likelihood comes first |
| C123 | MEvaluate: the arrays of `setup` as the model's arguments, one evaluation | C110's arrays give the tables C99 asks for; the weights rewritten event by event |

## 4. What is modelled and what is not

| file in /repo | model | not modelled |
|---|---|---|
| gwinferno/distributions.py | MDistributions | - |
| gwinferno/models/parametric/parametric.py | MParametric | - |
| gwinferno/models/bsplines/{single,separable,smoothing}.py, spline_perturbation.py | MBSplines, MSmoothing | broadcasting between arrays of different shapes |
| gwinferno/interpolation.py | MSpline | - (linear solves are oracles with contract) |
| gwinferno/numpyro_distributions.py | MNumpyro, MConfig (constructors' signatures) | batch shapes, numpyro's own argument validation |
| gwinferno/cosmology.py | MCosmology | - |
| gwinferno/preprocess/conversions.py, priors.py | MConversions, MPriors | the KDE and the dilogarithm (oracles) |
| gwinferno/preprocess/selection.py, data_collection.py | MSelection, MCollect, MStore | HDF5/netCDF/JSON encodings (contents are arguments), progress bars |
| gwinferno/pipeline/analysis.py | MAnalysis, MConstruct | `find_map` (a call of numpyro's SVI), the numpyro sampler |
| gwinferno/pipeline/parser.py, utils.py | MParser, MUtils, MCommand, MSetup | yaml syntax (the parsed tree is an argument) |
| gwinferno/postprocess/calculations.py, plot.py | MPostprocess, MPlot | rendering by matplotlib |
| examples/*.py, examples/config_files | MSetup, MPeak, MJobs, MMain, MConfig | the calls of the sampler, printing |
| bin/gwinferno_run_from_config.py | MRun, MTrace, MOptions, MEvaluate | the calls of the sampler, rendering of the trace plot, encoding of the deepdish file |

## 5. What the proofs found

Theorems named `..._refuted` state defects of the pinned code, each with its witness or for all inputs of a class.
MANIFEST.json's notes say in one line per property what fails and what holds instead.

## 6. Not expressible

Convergence/statistical quality of HMC, KDE accuracy, rendering of plots, file
formats (HDF5/netCDF encodings), wall-clock performance, float32 rounding error.
