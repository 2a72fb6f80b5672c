# Formal model of BayesO in Rocq — design

Subject: the Python package in `/repo/bayeso` (read as text only, never run).
Tool: Coq 8.16.1.  Sources: `rocq/theories/*.v`.

## 1. Approach

* The model is total, computable (where the carrier is) Gallina, written function by function.
  Each definition cites the file and the lines of `/repo` it follows and says what it simplifies.
* **Numbers.**  A plain record `Num` collects the operations the code uses (`+ - * / sqrt < <= ==`,
  conversion from integers, `isnan`, comparison with `np.inf`).  It has two instances:
  `NumR` (the exact real numbers of the standard library) and `NumF` (IEEE-754 binary64, Flocq's
  `binary_float 53 1024` with round-to-nearest-even, so NaN, signed infinities, overflow and rounding are real).
  Code that only compares is proved for every `Num` whose comparisons form a total order off NaN
  (both instances do); code whose claim is an arithmetic identity is proved over `NumR`; claims about rounding
  are proved or refuted over `NumF`.
* **Exceptions** are values: `res A = Ok a | Raise e`.
* **Effects.**  Objective functions, surrogate fits, scipy optimisers, random number generators and worker
  pools are oracles: arbitrary functions of an arbitrary world state, universally quantified.  Programs
  that call them live in `M A = W -> W * trace * res A`; the trace records every call to the target.
* **Matrices** are mathcomp `'M[R]` over the standard library reals (canonical structures built in `RStruct.v`),
  so determinants, inverses, traces and block matrices are the library ones.
* **Analysis** uses Coquelicot on the standard reals (`is_derive`, `RInt`).

## 2. Layout

| file | contents |
|---|---|
| `Base.v`, `Num.v`, `NumLaws.v`, `Monad.v` | exceptions, effect monad, number record and instances, array helpers |
| `*Model.v` | the model of one group of source files |
| `*Spec.v` | small independent specifications |
| `*Proofs.v` | lemmas |
| `*Props.v` | the theorems listed in `MANIFEST.json`, each `exact lemma`, with `Print Assumptions` and a witness `Example` |

## 3. Properties: what is modelled, how it is proved

Statuses are in `MANIFEST.json`.  `_refuted` theorems give a concrete witness that the English claim fails in
the faithful model; the surrounding theorems then say exactly what does hold.

| id | model | proof idea |
|---|---|---|
| C01 | `get_minimum` fold with Python `min` on F64 | induction on the row, invariant "best = min of the non-NaN prefix" |
| C02 | same, exact reals | unfolding to sums, sum-of-squares non-negativity |
| C03, C04 | `get_time` | induction on columns |
| C05, C06 | `get_grids` as meshgrid/reshape on lists | induction on the dimension; permutation with Cartesian product |
| C07, C08 | `normalize_min_max` over reals | field arithmetic, min/max characterisation |
| C09–C13 | loops of `utils_bo.py` over any ordered carrier with NaN | loop invariants |
| C14 | `check_hyps_convergence` | unfolding, norm over reals |
| C15–C17 | string dispatch | case analysis over all strings |
| C18–C21 | hyperparameter dictionaries as finite maps to tagged Python values; shapes as lists | case analysis + list induction |
| C22 | kernels over reals | monotonicity of exp; AM on polynomials; derivative sign |
| C23 | kernels over reals | SE by the exponential series; Matern by Gaussian scale mixtures (integral representation) |
| C24, C25 | set kernel and `cov_main` loops | list/matrix induction |
| C26 | PSD + positive multiple of identity | mathcomp: `x^T K x > 0` implies unit |
| C27 | ladder with arbitrary factorisation oracle | induction on the ladder |
| C28 | gradient functions | Coquelicot derivatives |
| C29–C34 | GP posterior formulas on matrices | Schur complements, block inverses |
| C35 | TP posterior | same plus scalar factor |
| C36–C38 | likelihoods | determinant of Cholesky factor, block inverse |
| C39, C40 | argument passing in `gp_kernel.py`; derivative of the t likelihood | computation; witness |
| C41 | optimiser as oracle | unfolding |
| C42–C47 | acquisition formulas with the normal cdf as an integral | Gaussian integral, monotonicity, derivative sign |
| C48–C55 | regression trees with random choices as oracles | induction on fuel/depth |
| C56 | samplers over F64 with arbitrary unit draws | Flocq rounding lemmas |
| C57–C62 | wrappers in the effect monad | induction on the number of iterations |
| C63–C67 | BO classes as state machines | invariants over call sequences |
| C68–C71 | Thompson sampling and function sampling | loop invariants; witnesses |
| C72, C73, C80 | logger: text of arrays and dictionaries, handler registry | list induction; unique readability by a grammar; global handler state |
| C74, C75 | growing forests; the split search | totality by induction on fuel; minimum over all thresholds |
| C76, C40 | gradients of the likelihoods | matrix derivatives entry by entry (Coquelicot), log det by cofactors |
| C77 | Student-t likelihood | Cholesky determinant, real Gamma function as an oracle |
| C78, C79 | `predict_with_optimized_hyps` | unfolding with the optimiser as oracle; witness |
| C81 | `compute_posteriors`, `compute_acquisitions` and `optimize` over the modelled surrogates | the batch is a map over points; composition with C63–C67 |
| C82 | whole runs | simulation between two runs, step by step; witness |
| C83 | constructor followed by `optimize`, three surrogates | Hoare-style invariant: data in range, stored hyperparameters usable; totality of every component |
| C84 | the same with a kernel over sets | the fit always raises; witness |
| C85 | the three public methods of an object, stopped after n iterations and resumed | relational logic over side-by-side executions (`RelProofs.v`); binary64 witness for mode `converged` |
| C86 | the methods of a used and of a fresh object | the same relational logic; invariant of the settings; binary64 witness for mode `converged` |
| C87 | sequences of calls of the three methods | induction over the calls with an invariant of the object; C83 for each call |
| C88–C90 | `utils_plotting.py` as a list of drawing commands | induction over the experiments on top of C01–C04; slice arithmetic; witness for the loose check |
| C91 | runs followed by a plot | composition of C87 and C88 |
| C92 | GP prediction as best linear prediction | completing the square with the definite training matrix; uniqueness of the minimiser |
| C93 | change of units of the inputs | kernels agree on the transformed data; all returned arrays equal; the default (Cholesky) likelihood from the equal factors |
| C94 | one more observation | solution of the bordered system (Schur complement) |
| C95 | likelihood and prediction | determinant and quadratic form of the bordered matrix; leading blocks of the Cholesky factor for the default computation; induction over the observations |
| C96 | predictions far from the data | explicit decay bound 16 / (1 + r / 4) for the profiles; bounds on the weights |
| C97 | `normalize_min_max` over F64 | monotonicity of rounding; exact end points; witnesses |
| C98 | random forests over F64 | magnitude bounds carried through sums, means and squares, so every split score is finite; totality by induction on the depth; witnesses |
| C99 | acquisition functions over F64 | magnitude bounds, special functions as oracles with contracts |
| C100 | constructor and run with surrogate `rf` over F64 | number-generic version of the C83 invariant (`BOTotalN.v`), C98 and C99 for each step |
| C101 | kernel matrices over F64 | (x - y)^2 = (y - x)^2 bit for bit; invariant of the loop over sets |
| C102 | deviations over F64 | case analysis on the float; correctly rounded square root |
| C103 | the three functions of `wrappers_bo_function.py` on a BOwGP object, `FunSpec.v` | induction over the calls with the invariant of C83 |
| C104 | the same, with unusable options | symbolic execution up to the failing assertion, counting target calls |
| C105 | `thompson_sampling_gp` with optimiser and linear algebra as contracts | Hoare-style invariant; the posterior covariance is definite (C31), so the first rung of the jitter ladder succeeds |
| C106 | `trees_common.py`, generic trees, random forests over R | relational proof: every step commutes with the conversion of units |
| C107 | the same with a factor for the responses | the same, plus a bound on within-side variances (Popoviciu); witness evaluated |
| C108 | Student-t predictions: order, other test points, units, far points | from C31/C32/C93/C96 by C35 and invariance of `beta` (quadratic form in the inverse Gram matrix) |
| C109 | one more observation for a Student-t process | Kalman formula (C94) and the bordered quadratic form for `beta` |
| C110 | more data never increases Student-t deviations (false) | C109; the jitter keeps the reduced variance positive, so a surprising observation outweighs it |
| C111 | likelihoods and the order of the observations (false for the default computation) | permuted matrices, their inverses and determinants; lower bound on the diagonal of the factor; witness with three observations, two at one place |
| C112 | chosen hyperparameters fit at least as well as the defaults | the call of the optimiser (C41) starts at the defaults, where the objective has a value; decoding and validation give back the vector; the value does not depend on whether the gradient is asked for |
| C113 | targets with side effects on their argument or result (false for the initial inputs) | second model with explicit references; refinement to the first |
| C114 | monotonicity of `ei`, `aei`, `pi` with a positive jitter (false near deviation 0) | derivatives, normal tail bounds |
| C115 | unit and origin of the responses in regression (false: fixed jitter) | the scaled Gram matrix, its inverse and determinant; witness with one observation |
| C116 | order in binary64: time axis, mean curve, simple acquisitions | infinities as numbers beyond the range; every rounded operation is then a clamped rounding of the exact one, hence monotone |
| C117 | retries of Thompson sampling | induction over the ladder; an attempt that fails leaves no event; one iteration is taken apart into candidates, posterior, failed attempts, successful attempt |
| C118 | plots reject wrong shapes first | each assertion is turned into the condition it tests; nothing is emitted before the last one |
| C119 | small variance near measured inputs | the average of the k measurements is one of the linear predictors of C92, so its error bounds the variance; the profiles lie above their parabolas at zero |
| C120 | predictions change slowly | Cauchy-Schwarz for the inverse covariance matrix and for the posterior covariance, which is semidefinite |
| C121 | forests use the order of the inputs only | relational proof over the growing of a tree: candidate thresholds lie between the same neighbours, so every split, score and choice agrees |
| C122 | the posterior mean is a penalised least squares fit | completing the square: the cost of any combination is that of the posterior weights plus a non-negative form that vanishes only for the same function |
| C123 | repeated measurements count through their totals | the weight of a response is a function of its input; sums grouped by input |
| C124 | only mutual distances of the inputs matter | kernels that agree on the data give the same matrices; constant coordinates and rotations keep distances |
| C125 | proposals of the forest surrogate do not depend on the units of the inputs | every sampler is affine in the bounds; with C106 the forest, its predictions and the acquisition values are the same, so the same candidate wins |
| C126 | whole runs with forests do not depend on the units of the inputs | offsets: a relational proof through the loop (distances to evaluated points are unchanged); factors: refuted by the absolute tolerance of the repetition check |
| C127 | whole runs with any surrogate do not depend on the origin of the inputs | kernels read differences only, so every matrix is the same; a relational proof through fit, acquisition, optimisers and loop |
| C128 | confidence bands hold for functions of the kernel's space | the error is a linear functional of the function; Cauchy-Schwarz in the augmented space (kernel plus noise) |
| C129 | pure exploration resolves the whole search space | pigeonhole on a grid of cells: two evaluated points of one cell are so close that the second was not uncertain; with C128, predictions are accurate |
| C130 | following the upper confidence bound finds the minimum of every function of the kernel's space | C128, the growing kappa and the pigeonhole of C129: among exponentially many rounds one has a small deviation compared with 1/kappa; existence of loops by completeness of the reals |
| C131 | reported times are durations that fit into each other | a program logic with start and end time, through trees, fits, optimisers and the loops |
| C132 | measurement errors are damped | optimality of the weights along rays gives w.k = w'(K + t)w; positive semidefiniteness at (1, -2w) bounds w'w |
| C133 | the flag for debug messages changes nothing but the log | a logged version of the whole program; two simulations through every function (flag on and off, logged and unlogged) and the log as a function of the options |
| C134 | regression accepts only data that fit together | inversion of every check; an invariant of the loops over sets |
| C135 | the same for sequences of calls of the three functions of `wrappers_bo_function.py` on one object | the simulations of C133 for these functions, induction over the calls |
| C136 | measurement errors and the Student-t process | Cauchy-Schwarz for the inverse of the kernel matrix; lengths of vectors with one common coordinate |
| C137 | what the deviations of a Student-t process say about the target | the quadratic form of the responses is at most the squared norm of the target; C120 and C128 |
| C138 | proposals are robust against measurement errors | C132 for every candidate of a batch |
| C139 | proposals of the Student-t surrogate are robust against measurement errors | C136 for every candidate of a batch |

## 4. Trusted base

### 4.1 Kernel and axioms

* The kernel of Coq 8.16.1.  No check of it is switched off, there is no `Axiom`, `Parameter`, `Admitted`, no functor,
  module type or plugin in the sources.
* `ASSUMPTIONS.md` lists, for every theorem of the `*Props.v` files, exactly what `Print Assumptions` reports.
  Only five constants ever occur, all from the standard library:
  `ClassicalDedekindReals.sig_forall_dec`, `ClassicalDedekindReals.sig_not_dec` (construction of the reals),
  `FunctionalExtensionality.functional_extensionality_dep`, `Classical_Prop.classic`,
  `ClassicalEpsilon.constructive_indefinite_description` (used to give the reals the choice structure mathcomp's matrices ask for).
* `coqchk -o` on the whole development reports in addition constants such as
  `mathcomp.ssreflect.bigop.BigOp.bigop`, `finset`, `perm`, `fintype`, `tuple`, `finfun`, `generic_quotient`,
  `Coq.ssr.ssrunder…` and `Coq.Reals.Rdefinitions.RbaseSymbolsImpl…`.  These are not axioms: they are definitions sealed behind an opaque module
  signature in those libraries (`Module M : SIG`), which `coqchk` prints as assumptions because the exported field has no body.
  `Print Assumptions` looks through the sealing and does not list them.

### 4.2 What is modelled

| source | model file | part |
|---|---|---|
| `utils/utils_common.py` | `UtilsModel.v` | `get_grids`, `get_minimum`, `get_time` |
| `utils/utils_bo.py` | `UtilsModel.v`, `HypsModel.v`, `AcqModel.v` | everything |
| `utils/utils_covariance.py`, `utils_gp.py` | `HypsModel.v`, `CovModel.v`, `GPModel.v` | hyperparameter dictionaries, vectors, bounds, validation, prior mean |
| `utils/utils_logger.py` | `LoggerModel.v` | everything; the text of one number is an arbitrary function |
| `covariance.py` | `CovModel.v` | kernels, set kernels, `cov_main`, inverse, Cholesky ladder, gradients |
| `gp/gp.py`, `gp/gp_kernel.py`, `gp/gp_likelihood.py` | `GPModel.v`, `LikModel.v`, `HypOptModel.v`, `ThompsonModel.v` (function sampling) | everything |
| `tp/*.py` | same files | everything |
| `acquisition.py` | `AcqModel.v` | everything |
| `trees/*.py` | `TreesModel.v` | everything |
| `bo/base_bo.py` | `BOModel.v`, `SamplingModel.v` | constructor, samplers, initial points |
| `bo/bo_w_*.py` | `BOModel.v`, `BOAcqModel.v`, `BOFullModel.v` (with the modelled surrogates instead of oracles) | constructors, acquisition optimisation, `compute_posteriors`, `compute_acquisitions`, `optimize` |
| `wrappers/*.py` | `WrapperModel.v`, `MutModel.v` (targets with side effects), `BOModel.v`, `BOProgram.v` (constructor and `optimize` in one program), `BOObject.v` (object with its attributes and three methods), `LogRunModel.v`, `LogFunModel.v` (with all log messages and `print_info`) | everything |
| `utils/utils_plotting.py` | `PlotModel.v` | the six plotting functions, as the list of drawing commands |
| `thompson_sampling.py` | `ThompsonModel.v` | everything |

**Not modelled**: fonts, axis decorations and pauses of figures, `utils_common.validate_types`
(counts annotations when the package is imported, checks nothing at calls), `isinstance` assertions other than those on dictionary entries and prior means,
the GPyTorch/torch-free build files, documentation and examples.

### 4.3 What is left abstract (oracles)

Each is a universally quantified function that may depend on and change an arbitrary world, may raise, and may return anything,
except for the contracts listed with it, which appear as hypotheses of the theorems that need them:

* the target function, the clock, worker-pool scheduling, random generators, quasi-random sequences, `scipy.optimize.*`,
  DIRECT and CMA-ES: no contract (C56 assumes draws of `uniform`/Sobol/Halton in [0, 1), as documented by numpy/scipy);
* linear algebra over the reals (`CovSpec.v`, `LikSpec.v`): `inv_contract` (`np.linalg.inv` of a positive definite matrix is its inverse), `chol_contract`
  (`scipy.linalg.cholesky` of a positive definite matrix is its lower triangular factor), `cho_solve_contract`, `slogdet_contract`;
* `scipy.stats.norm.cdf/pdf` are the Gaussian integral and density (`Gauss.v`); `np.exp`, `np.log`, `np.pi` the real functions;
* `scipy.special.gamma`, `digamma`: `gamma_contract` (`GradSpec.v`: positive, recurrence, logarithmic derivative), inhabited by `GammaWitness.v`;
* random draws: `choice_contract`, `uniform_contract` (`TreesSpec.v`), `draw_contract`, `chi_contract` (`ThompsonSpec.v`), `unit_contract`,
  `gauss_contract`, `qmc_contract` (`SamplingSpec.v`): the documented shapes and ranges;
* for C85 only (`ResumeSpec.v`): `clock_is_private` (nothing but the clock depends on how often the clock was read), inhabited in `ResumeProps.v`;
* for C83 only (`BOTotalSpec.v`): `proper_minimizer` (`scipy.optimize.minimize` returns a vector of the length of its start if the objective returns at
  every vector without zero entries), `proper_from`, `proper_direct` (bounded optimisers return a point of a nonempty box if the objective returns at every
  point), `proper_samples` (C56), `choice_total`, `uniform_total`, `int_of_integers`; all inhabited in `BOTotalProps.v`;
* for C106, C107 only (`TreesUnitsSpec.v`): `uniform_affine` (`np.random.uniform(low, high)` is `low + (high - low) u`); inhabited in `TreesUnitsProps.v`;
* for C105 only (`ThompsonRunSpec.v`): `proper_initials` (C56), `proper_normal` (`multivariate_normal` accepts a symmetric positive definite covariance of the
  size of the mean); inhabited in `ThompsonTotalProps.v`;
* for C98–C100, C116 only (`FloatSpec.v`): `unit_valued` (`norm.cdf`, `norm.pdf` map numbers into [0, 1]), `monotone` (`norm.cdf` does not decrease), `log_like` (0 <= log x <= x for x >= 1),
  `int_of_floats` (`int` of a float holding a count), `proper_samplesN`, `returns_inN`; all inhabited in `FloatProps.v`.  `np.random.uniform` needs no
  contract there: `FloatTrees.v` proves that a forest without random locations does not call it;
* matplotlib: `plot` and `fill_between` accept arrays of equal length and raise `ValueError` otherwise; nothing else fails;
* the text of one float (logger): arbitrary; where reading back is claimed, no separator characters in it.

### 4.4 Conventions that could hide something

* Division and square root over `NumR` are total in Coq (`x / 0 = 0`, `sqrt` of a negative is 0), unlike numpy's inf/nan.  Theorems over the reals
  therefore assume what makes them meaningful: positive length scales, positive noise or jitter, positive deviations where the formula divides by them.
  C83 says that no step raises in exact arithmetic; it does not exclude NaN from a division by zero or an overflow, after which
  `get_best_acquisition_by_evaluation` raises `TypeError` (C09 says exactly when).
  Where the code can divide by zero the property says so (C43).
* `NumF` follows IEEE-754 binary64 with one NaN, rounding to nearest even; numpy sums are left folds (numpy sums long arrays pairwise: the magnitude
  bounds of C98–C100 do not depend on the order, but the model computes one order).  Transcendental functions occur in `NumF` theorems as oracles only.
* Python integers are `Z`; array shapes are `nat`.  Negative indices are modelled where the code uses them.
* `OutsideModel` is an exception value for situations the model does not describe; theorems that conclude `Ok` exclude it and theorems about
  raised exceptions name the exception.

## 5. Findings

Besides the `_refuted` theorems (each one is a discrepancy between documentation or evident intent and code):

* BOwGP / BOwTP accept the `set_*` covariances, but `optimize` then always fails (its inputs are two-dimensional).
* `tp.predict_with_optimized_hyps` accepts optimiser names of the GP list for which `tp_kernel` fails its assertion (C79).
* Thompson sampling returns the first candidate whatever the sampled function is: `np.argmin` is taken over the single column of a `(1, n)` array (C68).
* `get_logger` adds a handler each time it is called with the same name, so messages are repeated (C73).
* `sample_functions` loses a dimension with one test point, and one sample cannot be told from one point (C71).
* `optimize(seed=…)` does not hand the seed to the sampling of acquisition starting points (C70).
* "converged" mode ignores `normalize_Y` (C64), and the `rf` surrogate rejects the default acquisition optimiser (C16).
* In "combined" mode, if both fits have a NaN likelihood, `None` is appended to the history and an AssertionError follows (C65, C67).
* With DIRECT or CMA-ES a DEBUG record ('num_samples is ignored.') is written in every round although debug=False, and with debug=True an
  AssertionError of `get_str_array(None)` replaces the ValueError of `np.vstack` if no candidate is left (C133).
* The deviations of a Student-t process with fixed hyperparameters vanish everywhere as measurements accumulate anywhere: the covariance is multiplied
  by (nu + beta - 2)/(nu + n - 2), and beta stays bounded for targets of the kernel's space (C137).
* A single response, or equal ones, are not normalised, so the unit of the responses then changes the proposal (C82).
* `BayesianOptimization` accepts the `set_*` kernels, but every run with one raises `AssertionError` after its initial evaluations, because `optimize` only takes 2-D inputs (C84).
* `run_single_round` does not check the sampling method and the number of samples: a misspelt name is noticed only after all initial evaluations
  of the target are spent, whereas the class wrapper rejects it in its constructor (C104).
* Thompson sampling with one candidate per iteration raises `IndexError` after the initial evaluations, because `sample_functions` then returns a
  one-dimensional array (C105).
* In mode `converged` an object stops selecting hyperparameters for good, also when it is later used on other data; a fresh object with the
  same settings behaves differently, so a run cannot be resumed with one (C85, C86).
* `plot_minimum_vs_iter` checks `num_init <= n`, but `get_minimum` needs `num_init < n`; without experiments it raises `UnboundLocalError` (C90).
* A split with an empty side is scored with the fixed penalty 1e8, so for responses of order 1e5 a coordinate in which all rows agree can be preferred to
  a real split: the tree stops separating rows, and the unit of the responses matters (C107).
* A surprising observation raises every predicted deviation of a Student-t process, also far from it (C110).
* The default (Cholesky) likelihood adds 1e-7 inside the logarithms of the diagonal, so it depends on the order of the observations (C111) and is not
  exactly the product of the predictive densities (C95); both effects are bounded.
* The initial inputs are handed to the target as views and its results are kept as references until all initial evaluations are done: a target that
  overwrites its argument changes the reported inputs, one that returns a reused array makes all initial responses equal (C113).  Iterations copy at once.
* The jitter added to the deviation in `ei` makes the value at deviation 0 negative just above the best response and nearly zero far above it, so among
  certain predictions the worse mean wins; and a small deviation can count against a point (C114).
* The jitter 1e-5 on covariances has no unit: converting responses, signal and noise to another unit changes the predictions by more than the conversion (C115).
* `validate_hyps_dict` lets a NaN `dof` through (C20).
* `neg_log_pseudo_l_loocv` ignores the prior mean (C38) and cannot be evaluated with a scalar length scale in several dimensions (C39).
* The gradient entry of the degrees of freedom in `tp_likelihood` is not the derivative (C40); kernel gradients are wrong or missing in the cases named in C28.
* `ei` is negative at deviation zero for some means because of its added jitter (C43).
* Growing a forest raises `TypeError` when all split scores overflow, that is for responses from about 1e154 on (C98).
* `normalize_min_max` returns NaN when the range of finite responses overflows, and can make different responses equal (C97).
* Samplers can overflow for ranges wider than the largest double (C56), `get_grids` can leave the box by rounding (C06), forest means can leave the range of responses by rounding (C52).
