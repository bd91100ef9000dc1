# Formal model of empyricalRMT — design

Subject: `stfxecutables/empyricalRMT`, source tree `/repo` (read as text, never run, never changed).
Prover: Coq 8.16.1.  Sources in `rocq/theories`, logical prefix `Verif`.

## 1. How the model is organised

* `Base.v` — result type (`Ok`/`Raise exn`: Python exceptions as values), Python
  sequence helpers (negative indices, slices), the record `Num F` of float operations and its
  instances:
  * `Num_R` — exact real arithmetic (Coq's standard-library reals);
  * `Num_Q` — exact rationals, computable;
  * `Num_b64` — IEEE-754 binary64 with rounding, infinities and NaN, from the standard library's
    `SpecFloat` (computable, axiom free).
* `M_*.v` — the model, one definition per Python function, each citing file and lines.
  Model definitions are total, and generic in `Num F` wherever the code uses only + - * / and
  comparisons.  So the same text is evaluated on binary64 or rationals (`vm_compute` examples) and reasoned about
  over the reals.
* `S_*.v` — small independent specifications (counting, permutations, sums, slices,
  densities, directory trees).  They do not mention model definitions.
* `P_*.v` — proofs.
* `T_*.v` — property theorems: statement, proof, `Print Assumptions`, and an `Example`
  showing a concrete non-trivial case that meets the hypotheses.

Theorem names start with the property id (`C01_...`).  Suffixes: `_partial` (the part of the statement that
holds, when another theorem of the same property refutes the rest), `_refuted` (the statement as a user would expect it is false
of the faithful model; the theorem exhibits the witness, or proves the exact faulty behaviour for all inputs).
In `properties.jsonl` such statements carry a parenthesis "(FALSE of the code: ...)"; the manifest says "proved" when
everything the entry states, parenthesis included, is proved.

## 2. What is modelled, and how each property is treated

| id | model of | model file | shape of proof |
|---|---|---|---|
| C01-C04 | `_step_function_fast`, `_step_function_correct`, `step_values`, `.steps` | M_Step, M_EigVals | any type with IEEE-like comparisons (instances: reals, rationals, binary64); loop invariants on two indices; fuel shown sufficient (termination); NaN divergence as "no fuel suffices" |
| C05-C08 | `EigVals.__init__`, `make_1d_array`, `spacings`, the `_steps` cache | M_EigVals | sorting = permutation + order; shapes as lists of dimensions; histories of reads and in-place writes |
| C09-C17, C64 | `trim.py`: label post-processing, `TrimIter`, `TrimReport` loop, indices, percentages, score, selection, slicing; `find_first/last` | M_Trim | HBOS and the fits are arbitrary oracles; induction over iterations |
| C16 | `TrimReport.best_overall`, `TrimReport.__init__`, `Eigenvalues.get_best_trimmed` | M_Best, M_Report, M_Smooth | label selection, lookups, index search and `.item()` step by step; pandas sorts modelled as a stable insertion sort with NaN last; real arithmetic, except "always raises", which holds on any numeric type |
| C18, C19, C21, C66, C67 | `trim_marchenko_pastur`, `from_time_series`, `from_correlations` | M_Series | eigensolvers are oracles |
| C20, C22, C68 | `_eigs_via_transpose`, `np.cov`, `correlate_fast` | M_Corr | mathcomp matrices over any real closed field; characteristic polynomials |
| C23-C25, C65 | `construct.py`, `Eigenvalues.generate`, the enumerations | M_Generate, M_Enum | random draws are an arbitrary stream; random state machine |
| C26, C27 | `unfold_goe`, `unfold_poisson` | M_Analytic | Coquelicot integrals; `scipy.integrate.quad` taken as the exact integral |
| C28-C31, C33, C34 | `Smoother.fit/fit_all`, `unfold`, `Trimmed.unfold`, `evaluate_smoother`, `emd_detrend`, column names | M_Smooth | fitting routines and EMD are oracles |
| C35-C37, C39, C40, C44, C45 | `sigma_L`, `delta_L`, the parallel loops, the automatic limit | M_Loops | random draws as an arbitrary stream; invariants over unbounded iteration counts |
| C38 | `kahan_add` | M_Quad | exact over R; error-free transformation over Flocq binary64 |
| C41-C43 | `_slope`, `_intercept`, `_integrate_fast`, `_int_simps_nonunif`, `_sq_lin_deviation` | M_Quad | algebra over R, induction over the grid |
| C46-C50 | `ensemble.py` | M_Ensemble | derivatives and improper integrals; Gaussian moments proved from scratch (P_Gauss) |
| C51-C53, C71 | `brody.py`, `Unfolded.fit_brody` | M_Brody | Gamma is any function satisfying Euler's integral on (1, 2] (existence proved); optimizer is an oracle |
| C54-C56, C69, C70 | `compare.py` | M_Compare | `np.empty` contents are an arbitrary oracle |
| C32, C57-C59, C62, C63 | `signalproc`, `Eigenvalues.detrend`, `exponentials.py` | M_Signal | algebra over R |
| C60 | `make_directory`, `make_parent_directories` | M_Files | file system as a map from paths to directory / file |
| C61, C72 | `_handle_plot_mode`, `_validate_bin_sizes` | M_Plot | effect traces; telescoping counts |
| C74-C76 | `TrimReport` summary table, `_get_autounfold_vals`, `trim_unfold_auto`, column lookup by regular expression | M_Report | strings as character lists; the number formatter is any function printing the right number of decimals; rounding and float32 storage are arbitrary functions |
| C77-C85 | the drawing functions of `plot.py`, `TrimIter.summary` | M_Draw | a figure is the list of what is handed to matplotlib / seaborn (data, curves, points); the density estimate, the optimizer, Si, Ci and the quadrature are arbitrary functions (identified with their integrals by hypothesis where a curve's formula is claimed; existence proved) |
| C86-C88 | `_unfolded_fit`, `_observables`, `plot_observables`, `plot_level_variance`, `plot_spectral_rigidity` | M_Observ, M_Draw | composition of C45, C77, C82, C83 |
| C89-C91 | `goe_unfolded`, `correlated_eigs`, `_generate_GOE_tridiagonal_direct` | M_Construct | random draws and eigensolver are arbitrary; second moments by a linear expectation operator |
| C92-C94 | the sampling loops again: change of scale, storage order, evenly spaced levels | M_Loops, M_Quad, M_Step | equality of two runs for the same random stream; counting over R |
| C95 | `from_time_series(use_sparse=True)` | M_Sparse, M_Corr | the matrix handed to the solver; ragged `np.array` of (values, vectors) raises, as in NumPy 1.24 and later |
| C96, C97 | `is_symmetric` (up to two dimensions), `nd_find`, `flatten_4D`, `variance` of utils.py | M_Utils | finite numbers; `variance` of a non-empty list; `fast_r` is not modelled |
| C98-C101 | `Smoother.fit`, `fit_all`, `Eigenvalues.unfold` (models of C28-C34) | M_Smooth | real arithmetic; what NumPy's `polyfit` and SciPy's `UnivariateSpline` promise is a hypothesis of C99-C101 (`LeastSquares`, `SmoothsWithin` in S_Fit.v), not an axiom |
| C102 | `Eigenvalues.generate`: refused kinds | M_Generate | as C25 |
| C103 | `EigVals.plot_sorted`, `plot_distribution`, `plot_steps`, `plot_spacings`: argument passing | M_Call | Python's binding of arguments to named parameters; the parameter lists are those of the drawing functions |
| C104 | `Smoother.__init__` | M_Call | as C05, C06 |
| C105, C106 | `HandlerColormap.create_artists`, `_setup_plotting`, `_raw_eig_sorted` | M_Call | as C77; real arithmetic for C105 |
| C107 | `time_series_eigs` | M_Sparse, M_Corr | as C20; the random data is an arbitrary matrix |
| C108 | `delta_L`, `_slope`, `_intercept`, `_sq_lin_deviation`, `_int_simps_nonunif` (models of C39-C43) | M_Loops, M_Quad | real arithmetic |
| C109-C112 | `np.linspace`, the staircase, `np.random.uniform`, `spacings`, `kahan_add` and the running means of `delta_L` and `sigma_L` in binary64 | M_Quad, M_Step, M_EigVals, M_Loops | IEEE-754 binary64 evaluated operation by operation in source order (Flocq); `kahan_add` is compiled without `fastmath`, its callers with it, so a compiler may for instance multiply by a reciprocal instead of dividing: that is not covered |
| C113 | `from_time_series` (dense branch) with `np.cov`, `correlate_fast`, `_eigs_via_transpose` as flat arrays with shapes | M_Cov, M_Series | real arithmetic; `np.linalg.eigvalsh` external (LinAlgError below two dimensions, no values for 0 x 0); `np.sum` left to right |
| C114 | the `spectral_rigidity` and `level_variance` curves of ensemble.py | M_Ensemble | real arithmetic, Euler's constant anywhere in [0.577, 0.578] |
| C115 | `TrimIter.inlier_length`, `outlier_length`, `proportion_kept`, `proportion_removed` | M_TrimCount, M_Trim | real arithmetic |
| C116 | `mkdirp`, `make_directory` | M_Mkdirp, M_Files | as C60 |
| C117 | `_level_number_variance` against the `level_variance` methods | M_Draw, M_Ensemble | real arithmetic; sine and cosine integrals by derivative and limit, quadrature exact (hypotheses) |
| C118 | `fit_brody(method="spacing")` | M_Brody | real arithmetic; Gamma by its integral, minimiser exact (hypotheses) |
| C119 | the window count of `sigma_L`, averaged over centres | M_Loops | real arithmetic; centres uniform on the real interval |
| C120 | `Unfolded.plot_nnsd/plot_next_nnsd/plot_nnnsd/plot_brody_fit/plot_fit`, `EigVals.plot_spacings` | M_Forward, M_Call | parameter names, defaults and the calls made; what is drawn is M_Draw |
| C121 | `sigma_L`, averaged over independent centres | M_Loops | real arithmetic; centres independent and uniform on the real interval; `tol <= 0`, so that exactly k windows are drawn |
| C122 | `delta_L`, averaged over independent centres; `_delta_grid` | M_Loops, M_DeltaGrid | real arithmetic; centres independent and uniform on the real interval; `tol <= 0`, so that exactly k windows are drawn |
| C123 | the `spectral_rigidity` and `level_variance` formulas of `ensemble.py` | M_Ensemble | exact reals; `np.euler_gamma` is an arbitrary number; the integral is improper at 0 |
| C124 | `TrimReport.__get_trim_iters`, `TrimIter.proportion_removed` in binary64 | M_Trim | fewer than 2^53 eigenvalues; detector and smoothers are oracles |
| C125 | `sigma_L` in binary64 | M_Loops | magnitudes at most 2^900; `np.random.uniform` is `lo + (hi - lo) * u` with u in [0, 1 - 2^-53] |
| C126 | the `nnsd` formulas of `ensemble.py`, `TrimReport.__evaluate_unfolding` | M_Ensemble, M_Trim | exact reals; improper integrals over the half line |
| C127 | one window of `delta_L` / `_delta_grid` against the formula of README.md:77 | M_Quad, M_Step | exact reals; the window is centred at c as in the code (the README writes it as [c, c + L]) |
| C128 | `delta_L` with exactly k windows, `_delta_grid` with k random centres | M_Loops, M_Quad, M_DeltaGrid | exact reals; independent uniform draws as an iterated integral; `tol <= 0`, so the loop never stops early |
| C129 | `sigma_L` with exactly k windows | M_Loops | exact reals; independent uniform draws as an iterated integral; `tol <= 0`; the probability is the average of the indicator function |
| C130 | the rigidity `delta_L` approximates (README), in closed form | S_RigidityForm (specification), M_Loops, M_Quad | exact reals |
| C131 | `Poisson.spectral_rigidity`, `Poisson.level_variance` against independent uniform levels | M_Ensemble | exact reals; averages over the levels as iterated integrals |
| C132 | `Poisson.nnsd_cdf`, `Poisson.nnnsd` against independent uniform levels; `spacings` | M_Ensemble, M_EigVals | exact reals; the Gamma function is an arbitrary function in the refutation |
| C133 | `TrimReport.__init__`, `_get_autounfold_vals`, `trim_unfold_auto` under maps of the axis | M_Trim, M_Smooth, M_Report | exact reals; polynomial smoothers only (gompertz=False, no splines); the outlier detector is assumed unaffected by unit and origin, `np.polyfit` a least-squares fit |
| C134 | `unfold_poisson` against the densities exp(-\|x\|)/2 and the standard normal of `generate` | M_Analytic | exact reals; `quad` as the exact integral |
| C135 | `_generate_GOE_matrix`, `_generate_GOE_tridiagonal` at size 2 against `GOE.nnsd_cdf` | M_Generate, M_Ensemble | exact reals; independent draws as iterated integrals against the normal density; a chi-square number with one degree of freedom is the square of a normal one; any solver returning the eigenvalues |
| C136 | GUE branch of `generate` at size 2 against `GUE.nnsd` | M_Generate, M_Ensemble | as C135 |
| C137 | `exponentials.exponential` | M_Signal | real arithmetic, x >= 0, d > 0 |
| C138 | `construct._generate_GOE_matrix`, `Eigenvalues.generate` (gue) | M_Generate | real arithmetic; invariance of the joint density of the draws; change of variables in the integral itself not formalised |
| C139 | `construct._generate_GOE_matrix`, `construct._generate_GOE_tridiagonal`, `Eigenvalues.generate`, `Eigenvalues.unfold_goe` | M_Generate, M_Analytic | real arithmetic; eigensolver a variable assumed to diagonalise; chi-square numbers as sums of squares of normal numbers |
| C140 | `Eigenvalues.from_time_series`, `TimeSeriesEigenvalues`, `Eigenvalues.trim_marchenko_pastur`, `correlater.correlate_fast` | M_Cov, M_Series | real arithmetic; eigensolver a variable, for covariances assumed to scale with the matrix |
| C141 | `construct._generate_GOE_matrix`, `construct._generate_GOE_tridiagonal`, the GUE branch of `Eigenvalues.generate`, `Eigenvalues.unfold_goe` | M_Generate, M_Analytic | real arithmetic; eigensolver a variable assumed to diagonalise; chi-square numbers as sums of squares of normal numbers |
| C142 | `Eigenvalues.from_time_series` (`covariance=True, trim_zeros=False`), `_eigs_via_transpose` | M_Cov, M_Series | real arithmetic; eigensolver a variable assumed to diagonalise matrices of order min(n, t); averages are iterated integrals against the normal density |
| C143 | `Compare.__histograms` | M_Hist, M_Compare | real arithmetic for the theorems; counts are unbounded integers |
| C144 | `TrimReport.plot_trim_steps`, `_plot_trim_iters`, the defaults of `Eigenvalues.trim_report` | M_Steps, M_Draw, M_Report | exact reals; number formatting and matplotlib calls beyond titles, points and labels left out; detector and fits are oracles |
| C145 | `Eigenvalues.trim_marchenko_pastur` in binary64 | M_Series | eigenvalues at most 2^900, N and T at most 2^50; `x ** 2` is the rounded product x * x, `np.sqrt` is the correctly rounded root |
| C146 | `delta_L`, `_slope`, `_intercept`, `_sq_lin_deviation`, `_int_simps_nonunif`, `_integrate_fast` in binary64 | M_Quad, M_Loops | operations in source order (`fastmath` re-association not modelled); ranges stated in the theorem |
| C147 | `_constants.py`, the import statements of all modules | M_Progress | `from _constants import x` fails when the name is not bound; imports inside functions and under TYPE_CHECKING do not run; third-party packages installed |
| C148 | `show_progress` of `sigma_L`, `delta_L`, `sigma_parallel`, `delta_parallel`, `TrimReport`; the printed percentage of `trim_unfold_auto` | M_Progress, M_Loops, M_Trim | the numbers printed, not the text and terminal codes around them; the threads' stores and messages in any order |
| C149 | `show_iters` of `_spectral_rigidity`, `_level_number_variance`, `plot_spectral_rigidity`, `plot_level_variance` | M_Iters, M_Draw, M_Observ | as C82, C83, C88; seaborn raises ValueError for a missing column |
| C150 | the `kind` attribute through `__init__`, `generate`, `detrend`, `unfold`; string and member arguments; the message `unfold` prints | M_Kind, M_Enum, M_Generate, M_Smooth, M_Signal | which message is printed and the degree it names, not its wording |
| C151 | `construct._generate_GOE_matrix`, `construct._generate_GOE_tridiagonal`, `Eigenvalues.generate`, `Eigenvalues.unfold_goe` | M_Generate, M_Analytic | as C139 |
| C152 | `Eigenvalues.__init__` (warning about small spectra) | M_Warn, M_EigVals | class attributes as one dictionary keyed by class; Python's own filtering of repeated warnings is not modelled |
| C153 | `construct._generate_GOE_matrix`, `Eigenvalues.generate`, `Eigenvalues.unfold_goe` | M_Generate, M_Analytic | as C139; the loop equations are a recursion on the list of exponents (S_Moments) |
| C154 | `construct._generate_GOE_matrix`, `Eigenvalues.generate`, `Eigenvalues.unfold_goe` | M_Generate, M_Analytic | as C153; a count of levels is not shown measurable: its average is enclosed between the averages of polynomials of the levels (`AverageWithin`, S_Law) |
| C155 | `Eigenvalues.generate`, `construct.goe_unfolded` | M_Generate, M_Construct | exact arithmetic; the eigensolver is a parameter, required only to return some list of eigenvalues |
| C156 | `Smoother.fit_all` | M_Smooth | exact arithmetic, no detrending; the fitting routines are parameters; the DataFrames are lists of columns |
| C157 | `construct._generate_GOE_tridiagonal`, `construct._generate_GOE_matrix`, `Eigenvalues.unfold_goe` | M_Generate, M_Analytic | as C154; a chi-square draw with k degrees of freedom is the sum of squares of k independent normal numbers; proved by Householder's reduction one row at a time (P_House), Wick's formula for polynomials of Gaussian matrices (P_Wick) and a reordering of the draws (P_Tridiag) |
| C158 | `Eigenvalues.generate`, `Eigenvalues.unfold`, `construct.goe_unfolded` | M_Generate, M_Kind, M_Smooth, M_Analytic, M_Construct | as C157; the random state is the list of the normal numbers still to come (S_Tape), consumed in the order of the calls: chi-square numbers before the diagonal |
| C159 | `from_time_series` with `trim_zeros=False`, `trim_marchenko_pastur` on standard normal data | M_Cov, M_Series, M_EigVals | as C142: any routine meeting `Diagonalises`; averages are improper iterated integrals over the n t normal numbers (S_Normal); `AverageWithin` bounds an average from both sides without assuming that it exists; `trim_zeros=True` is covered for its default `zeros="negative"`, which drops values <= 0; ratios above one are C160 |
| C160 | `from_time_series`, `_eigs_via_transpose`, `trim_marchenko_pastur` on standard normal data with n >= t | M_Cov, M_Series, M_EigVals | as C159; the ratio c = 1 is C161 |
| C161 | as C159 and C160, with n/t tending to 1 | M_Cov, M_Series, M_EigVals | as C159; the area under the density, which is unbounded at 0, is Coquelicot's `is_RInt_gen` from the right of 0 |
| C162 | `from_time_series` with covariance=False (`correlate_fast`, `_eigs_via_transpose`), `trim_marchenko_pastur` on standard normal data of any ratio n/t | M_Cov, M_Series, M_EigVals | real arithmetic; the eigensolver is any routine that diagonalises symmetric matrices; data with a constant series, where the code divides 0 by 0, are left open: the limits hold whatever number in [0, 1] is used there, since their weight tends to 0; with and without the default zero trimming |
| C163 | `from_time_series` with covariance=False (with and without the default zero trimming), `trim_marchenko_pastur(largest=True)` | M_Cov, M_Series, M_EigVals | real arithmetic; the eigensolver is any routine that diagonalises symmetric matrices; data with a constant series, where the code divides 0 by 0, are excluded; in exact arithmetic an eigenvalue that is zero is dropped by the default zero trimming, in floating point it may come out as a tiny positive value and stay |
| C164 | `from_time_series` with covariance=True (with and without the default zero trimming), `trim_marchenko_pastur` | M_Cov, M_Series, M_EigVals | real arithmetic; the eigensolver is any routine that diagonalises symmetric matrices |
| C73 | `Unfolded.ensemble_compare` | M_EnsCompare | uses the theorems of C55, C69 |

## 3. Trusted base

* Coq's kernel (and `vm_compute` where an `Example` uses it).
* Axioms: only those of Coq's standard library; section 5 lists them theorem by theorem.
* The reading of Python/NumPy/numba/pandas/SciPy semantics described in the comments of the model files
  (pinned versions of `/repo/requirements.txt`: numpy 1.23.3, scipy 1.9.1, pandas 1.4.4, statsmodels 0.13.2).
* Not modelled: numba `fastmath` reassociation, float rounding in theorems stated over `R`,
  NumPy's pairwise summation order, memory exhaustion, colours, titles, legends and axis limits of figures, text of warnings,
  the text of progress messages (their numbers are modelled, C148), float32 storage of the trim summary, symbolic links / permissions / concurrent processes in the file system.
* "The input array is not modified" is a fact about the model's shape (arrays are values) except where a heap of writes is modelled
  explicitly (C08, C44).
* External routines are universally quantified functions, never axioms: HBOS, EMD,
  polynomial/spline/curve fitting, eigensolvers, optimizer, random generator, Gamma, sine and cosine integrals, kernel density estimate.  Where a theorem needs a fact
  about one (an eigensolver returns roots of the characteristic polynomial, the density estimate has one value per grid point), it is
  a hypothesis of that theorem.
* Parts of the package with no model: the test helpers, the command-line examples.

## 4. Findings (statements refuted, or behaviour a reader of the documentation would not expect)

1. **C02** The array step function returns all zeros when its last grid point equals the smallest eigenvalue (`<=` in the early exit), so
   scalar and array forms disagree there.
2. **C04** With a NaN in the input the jitted loop never ends.
3. **C08** Cached `.steps` is not refreshed after an in-place write into `.vals`.
4. **C11** When no outlier is found at iteration 0, row 1 of the trim report repeats row 0.
5. **C12** `trim_indices` are inclusive, the documentation uses them as a half-open slice.
6. **C13** With tied eigenvalues low and high percentages need not add up to the total.
7. **C15** With a one-row report (every `Trimmed.unfold_auto`) the first listed smoother is chosen regardless of score: a column with fewer
   than two distinct scores loses all entries to the strict 0.9-quantile mask.
8. **C16** `best_overall` raises for every report with a smoother: `ValueError` from `.item()` on a row of six values when the smoothing factors are listed, `KeyError` earlier when only heuristic splines are fitted. `get_best_trimmed` raises for every argument (`SmoothMethod` members and unknown strings are refused; the three accepted strings reach `best_overall`).
9. **C21** `from_correlations` returns matrix entries below `atol` instead of eigenvalues above it.
10. **C24** The two GOE generators differ by a factor sqrt 2 in eigenvalue scale.
11. **C25** Generating a Poisson spectrum without a seed reseeds the global generator.
12. **C27** `unfold_poisson` is even in x with values in [N, 2N): not a counting function.
13. **C29, C31** `Trimmed.unfold` stores a closure that returns None; the exponential closure needs three arguments (TypeError);
    `unfold(detrend=True)` detrends twice; string smoothers passed to `fit` end in RuntimeError.
14. **C30** `emd_detrend` is off by one.
15. **C34** Names of heuristic splines are formatted with three digits in one place and two in another.
16. **C37** `min_L_iters` is ignored.
17. **C40** Runs of at most 1000 iterations average unwritten zeros into the rigidity.
18. **C42** The irregular Simpson rule is not exact with two points.
19. **C46** `nnsd` is not clipped at negative spacings. **C48** the default grid of `GOE.nnnsd` is halved, so the curve has mass two
    over its nominal grid. **C50** GUE and GSE ignore `n_points`, GSE also the upper end of the range.
20. **C52** `log_brody` has the wrong sign in its exponential term. **C71** the mle objective sums densities, not logarithms.
21. **C55** `Compare` with a base curve fills only the first entry. **C70** the histogram helper miscounts.
22. **C58** `linear_detrend` multiplies by the number of rows instead of the slope. **C59** `Detrend.linear` always raises, `Detrend.difference`
    leaves one uninitialised entry. **C63** `inverse_gompertz` is NaN on the curve's range.
23. **C60** A missing home directory is created although only folders below it should be.
24. **C67** Shifted Marchenko-Pastur endpoints are stored in the wrong order.
25. **C73** `ensemble_compare` fails for GUE and GSE with its default arguments.
26. **C74** Asking for the same smoother twice makes the trim summary raise `ValueError`.
27. **C75** `trim_unfold_auto(spline_smooths="heuristic")` with splines only always raises `KeyError` (consequence of C34).
28. **C78** `_spacings` and `_next_spacings` ignore `brody_fit`; the spacing fit is always drawn.
29. **C80** The density estimate of the eigenvalue distribution figures uses positive eigenvalues only.
30. **C81** `_brody_fit` (`Unfolded.plot_brody_fit`) raises on every input: an array of axes is passed where one is needed.
31. **C82** In the rigidity figure the Poisson curve is drawn at L, the others at L over the mean spacing; a frame with only the documented
    columns L and delta is refused.
32. **C83** The level-variance figure looks rows up by label where it means position: KeyError, or the wrong formula, for filtered or reordered frames.
33. **C84** The staircase of equal eigenvalues is drawn as identically zero.
34. **C85** `_plot_trim_iters` raises for a single panel of width 1.
35. **C86** In the unfolding-fit figure the line "Step Function" is one below the step function; a perfect unfolding is shown with difference 1.
36. **C88** `plot_spectral_rigidity(data=...)` returns its argument `L`, not the L of the data it plots.
37. **C90** `correlated_eigs` accepts a negative percentage and then replaces almost all rows.
38. **C91** `_generate_GOE_tridiagonal_direct` divides only the diagonal by sqrt 2: its matrix is not a scaled GOE matrix.
39. **C93** `delta_L` assumes ascending values: stored otherwise, windows below the first stored value contribute 0. `Trimmed.unfold`
   and the `Unfolded` constructor keep the order they are given.
40. **C94** `sigma_L` lets windows overrun the ends of the spectrum, so even perfectly rigid spectra show a variance growing like L^2.
   The docstring says the window is open; the code counts both end points.
41. **C95** `use_sparse=True` hands only the lower triangle to the symmetric solver (all eigenvalues 1 for correlations), raises unless
   `return_eigenvectors=False` is passed, and is ignored when N > T.
42. **C96** `is_symmetric` calls every 1-D array, and constant rows or columns, symmetric.
43. **C97** `flatten_4D` of a 1-D array raises TypeError because `np.prod(())` is a float.
44. **C98** the steps that the smoothers fit are 1, ..., n even when eigenvalues coincide: at the first of two equal eigenvalues the step is smaller than the number of eigenvalues up to it (`_step_function_fast` is commented out at smoother.py:116).
45. **C101** spline unfolding with a fixed smoothing value forces the unfolded values to the ranks 1, ..., n: the sum of squared deviations is at most 1.4 with the default, however many levels there are, so the spacings of any long spectrum come out nearly equal to one.
46. **C103** the forwarding plot methods refuse every positional argument: `f(eigs=self.values, *args)` gives the first parameter twice.
47. **C106** `_setup_plotting` silently ignores `axes` without `fig` and `fig` without `axes` and draws on a new figure.
48. **C107** `time_series_eigs` raises UnboundLocalError for any `dist` but "normal"; with its default sizes at least 801 of the 1000 eigenvalues are zero.
49. **C73** for "nnnsd" `ensemble_compare` estimates the density of the undivided distances to the next-nearest neighbour (mean two), but compares it with a density of mean one for Poisson and with a curve of mass two for GOE (see C48).
50. **C108** `delta_L` draws window centres over the whole spectrum, so windows of length L stick out of it near the ends, where the staircase is flat: evenly spaced levels (whose rigidity is at most about 1/3) give a value above 2 for the window about the lowest level.
51. **C109** `np.linspace` over a subnormal range is not ascending and the two-index staircase then miscounts; over a range above the largest float it contains NaN.
52. **C110** `np.random.uniform(lo, hi)` can return `hi`.
53. **C113** `from_time_series` with a single series always raises (LinAlgError for covariances, ValueError for correlations): `np.cov` squeezes the 1 x 1 matrix to a number. The docstring of `time_axis` has the meaning of 0 the wrong way round.
54. **C114** the rigidity curves are large-L formulas used from L = 0.5 on: the GOE curve is negative up to L = 1 and the ensembles are in reversed order up to L = 2.
55. **C115** `proportion_kept` and `proportion_removed` of one iteration are not complements: the first already discounts the iteration's outliers.
56. **C116** `make_directory` reports success when a regular file stands at the path.
57. **C118** `fit_brody(method="spacing")` leaves out the increments below the smallest and above the largest spacing, and drops tied spacings, so it is not maximum spacing estimation; the choice between any two values of beta can be reversed by this.
58. **C119** Window centres are drawn up to the ends of the spectrum, so windows overrun it and hold fewer than L levels on average; on a ladder of unit spacing this happens for every L above 2.
59. **C120** Without options `plot_spacings` drops spacings above 5 and `plot_nnsd` above 10, although both draw the same figure; `plot_next_nnsd` does not take `kde_bw`.
60. **C121** The level variance from k windows is on average (1 - 1/k) times the variance of the window count: it is the population variance of the sample.
61. **C122** With k windows `delta_L` returns on average k/1000 (0.999 at k = 1000) of the mean rigidity unless k > 1000, because the buffer is averaged whole; the unused `_delta_grid` has no such bias.
62. **C124** Whether a trim of exactly the share `max_trim` is allowed is decided by rounding: of 10 eigenvalues a trim of 3 is refused with `max_trim=0.3` (1 - 7/10 is 0.30000000000000004), a trim of 6 is kept with `max_trim=0.6`.
63. **C125** The ends of the windows of `sigma_L` are rounded, so a level just outside a window can be counted (C125_tie_refuted); away from such ties the binary64 counts are exact.
64. **C126** The score's reference variance (`EXPECTED_GOE_VARIANCE = 0.286`) is not the variance 4/pi - 1 = 0.2732 of the package's own GOE spacing law, so spacings that follow `GOE.nnsd` exactly score about -0.045 rather than 0.
65. **C132** `Poisson.nnnsd` returns a Brody density with beta = 0.6 and says the actual law is not known; it is 4s exp(-2s) for the halved spacings the package plots (C132_next_nearest), and no value of the Gamma function makes the Brody curve equal to it.
66. **C134** `unfold_poisson` is right for levels of density exp(-|x|)/2, but `generate(kind="poisson")` and `_generate_poisson` draw standard normal levels: unfolded with it their expected density runs from 0.798 over 1.316 down to 0 instead of being 1 (C134_normal_refuted).
67. **C137** The docstring of `exponential` calls b the intercept; the value at zero is b - a and b is the asymptote. **C63** `inverse_gompertz` inverts -a exp(b exp(-exp(c y))), not the Gompertz curve (C63_what_it_inverts).
68. **C139** `unfold_goe` integrates the semicircle on [-sqrt(2n), sqrt(2n)], which fits the tridiagonal generator (sum of squares n(n+1)/2); the full-matrix generator used for the same `kind` has twice the sum of squares, n(n+1), so its eigenvalues leave that band by a factor sqrt 2 and are mapped to the flat ends of the unfolding (C139_full, C139_band).
69. **C140** `trim_marchenko_pastur` compares eigenvalues with end points computed for unit variance. For eigenvalues of covariances (`covariance=True`) these do not scale with the data, so the choice of unit decides which eigenvalues are signal: in one unit all are, in another none (C140_unit_refuted).
70. **C141** The zeros of the average characteristic polynomial of the full GOE matrix leave the band of `unfold_goe` at size seven (C141_full_refuted); those of the tridiagonal matrix never do (C141_band).
71. **C142** The Marchenko-Pastur law on the stored end points has the exact mean of the covariance eigenvalues of pure noise but a mean square that is too small at every finite size, by (n+t)/(t(t-1)) (C142_law): the end points are asymptotic, and noise eigenvalues of small data sets spread further than they allow.
72. **C143** `Compare.__histograms` (never called) raises its "should be impossible" RuntimeError on ordinary data: whenever every bin holds a value of one curve (C143_full_bins). When it does return, the counts are never the two histograms unless all values are equal (C143_never_right_refuted): the counters start at 0, 1, 2, ..., each value that moves the loop to the next bin is not counted, and the others are counted one bin too far to the right.
73. **C144** `plot_trim_steps` of a report with a single iteration in one column prints its lines and then raises AttributeError (C144_one_column_refuted). The documented default smoothers of `trim_report` (cubic splines with eleven smoothing factors) are not the real ones: polynomials of degree 3 to 11 and the Gompertz curve (C144_defaults_refuted).
74. **C145** The Marchenko-Pastur thresholds are rounded, so an eigenvalue within a few units in the last place of an end can be put on the wrong side (C145_edge_refuted: N = 4, T = 9, the double nearest to 25/9); farther away than 2^-49 of the upper end the double-precision selection is exact.
75. **C146** A window too small for its centre makes the grid points coincide in double precision: the Simpson rule then divides 0 by 0 and the rigidity is NaN, returned with converged = False and no exception (C146_small_window_refuted: L = 2^-60 about 1.5). While the levels are at most 2^26 window lengths in magnitude (and L is between 2^-20 and 2^40) the result is always a finite number.
76. **C147** On Windows `_constants.py` (17-25) does not define `ITER_COUNT`, which `levelvariance.py` and `rigidity.py` import, so these two modules and with them `unfold`, `construct`, `trim` and `eigenvalues` cannot be imported (C147_windows_refuted).
77. **C148** "Finding max iters" shows twice the iteration count while it runs and the plain count at the end, so the number drops, and the last one shown is half of the limit then used (C148_counter_refuted).
78. **C148** The percentages count the positive variances (non-zero rigidities), not the finished ones: values of exactly zero keep it at 0 (C148_zeros_refuted). The last percentage of a complete run need not be 100 (C148_last_refuted).
79. **C149** `plot_level_variance(sigma=..., show_iters=True)` always raises ValueError: the frame it makes has no "iters" column (C149_given_refuted).
80. **C150** `Eigenvalues(values, kind="goe").unfold()` fits a polynomial: the constructor does not convert the string, and `unfold` compares by identity (C150_constructed_refuted). `Trimmed.unfold` refuses every string, the three it documents included (C150_trimmed_refuted). Without a smoother `unfold` announces degree 7 whatever degree is passed and fitted (C150_message_refuted). Its documentation promises a polynomial of degree 19 for kind "poisson"; the code uses the Poisson law (C150_generated).
81. **C152** The comment "don't warn more than once per execution" (eigenvalues.py:55) holds only without derived classes: the flag is set on the class of the object, so a derived class warns first and `Eigenvalues` once more (C152_subclasses_refuted).
82. **C153** The density of `unfold_goe` (eigenvalues.py:817) is the semicircle of radius sqrt(2n); the spectra of the full GOE matrices of `_generate_GOE_matrix` follow the semicircle of radius 2 sqrt(n), so every even moment 2m is off by the factor 2^m in the limit (C153_ratio_refuted).
83. **C154** `unfold_goe` (eigenvalues.py:810) applied to spectra of full GOE or GUE matrices maps, in the limit of large matrices, a share 1/4 - 1/(2 pi) (about 0.091) of the levels to exactly 0 and the same share to exactly n (C154_unfold_refuted, C154_gue_unfold_refuted): their spacings become exactly zero. Dividing the levels by sqrt 2 first repairs it for the GOE (C154_scaled). The tridiagonal generator (sizes above 500 with `use_tridiagonal`) has that scale built in and is unfolded correctly in the limit (C157_unfold), so the defect depends on which generator `generate` picks.
84. **C158** `Eigenvalues.generate(n, "goe").unfold()` (eigenvalues.py:66, 720): `use_tridiagonal` is documented as giving "identical eigenvalue distributions", but the two branches differ by a factor sqrt 2 that the analytic unfolding does not know about. Above order 500 the default call gives asymptotically uniform unfolded values (C158_tridiagonal); with `use_tridiagonal=False`, and for every order up to 500, it goes through the full matrix, for which about 9.1% of the unfolded values are exactly 0 and as many exactly n in the limit (C158_full_refuted).
85. **C163** `trim_marchenko_pastur(largest=True)` on correlations without the shift cannot report anything when (1 + sqrt(n/t))^2 >= n, not even for identical series (for example n = t = 4), because the eigenvalues sum to n; with n = t it reports fewer than a quarter of the values. A limit of the method rather than a fault (C163_few).
86. **C164** `trim_marchenko_pastur(use_shifted=True)` on covariances: the shift 1 - e_max/n (eigenvalues.py, the shifted cut-points) presumes eigenvalues that sum to n, as for correlations. One series with a sample variance above n makes the shift negative, and then every eigenvalue, zeros included, is reported as signal and none as noise (C164_shift_refuted; example with two series 0, 4 and 1, 1).

Noticed while reading, with no theorem attached: README.md:120 imports `generate_eigs` from `empyricalRMT.construct`, which defines no such function; `trim_unfold_auto` (eigenvalues.py:602) never reads its argument `prioritize_smoother`; `fast_r` (utils.py:167, never called) multiplies `x * y` without summing, so its numerator is an array.

## 5. Print Assumptions, per theorem

Generated from `Print Assumptions` on every property theorem (the same commands are in the `T_*.v` files).
All axioms are the standard library's: `sig_forall_dec`, `sig_not_dec` (`Coq.Reals.ClassicalDedekindReals`),
`functional_extensionality_dep` (`Coq.Logic.FunctionalExtensionality`), `classic` (`Coq.Logic.Classical_Prop`).
They come with the standard reals (first two and extensionality) and with Coquelicot / the classical parts of the reals library (`classic`).
Coquelicot and mathcomp are used as libraries of definitions and proved lemmas; they contribute no axiom.
(An inventory of compiled files also shows sealed-module constants of mathcomp and of `Rdefinitions`; these are opaque
definitions with bodies, not axioms, and `Print Assumptions` does not list them.)

**No axioms (closed under the global context)** — 124 theorems:
`C01_reference_counts`, `C01_step_counts`, `C02_argument_kinds`, `C02_scalar_array_agree_partial`, `C02_scalar_array_agree_refuted`, `C03_steps_staircase`, `C04_step_nan_hangs`, `C04_step_terminates`, `C04_steps_nan_hangs`, `C05_construct_sorted`, `C06_constructor_dispatch`, `C06_constructor_exact`, `C06_make_1d_shapes`, `C08_originals_isolated`, `C08_reads_pure`, `C08_steps_fresh_after_write_refuted`, `C09_fails_only_empty`, `C09_labels_one_end`, `C102_implemented`, `C102_refused`, `C102_uniform`, `C103_errors`, `C103_keywords`, `C103_positional_refuted`, `C104_constructor`, `C106_sorted_figure`, `C107_time_series_eigs`, `C108_refuted`, `C109_refuted`, `C10_trim_iterations`, `C110_half_open_refuted`, `C116_make_directory_refuted`, `C116_mkdirp`, `C11_rows_shrink_partial`, `C120_defaults_refuted`, `C120_forwarding`, `C120_spacings`, `C12_documented_slice_refuted`, `C12_trim_indices_inclusive`, `C13_percentages_ties_refuted`, `C144_defaults_refuted`, `C147_difference`, `C147_elsewhere`, `C147_imports`, `C147_windows_refuted`, `C148_counter_refuted`, `C148_in_order`, `C148_last_refuted`, `C148_levelvariance`, `C148_messages`, `C148_percentages`, `C148_platform`, `C148_rigidity`, `C148_trim`, `C148_zeros_refuted`, `C150_constructed_refuted`, `C150_detrend`, `C150_detrended`, `C150_generate`, `C150_generated`, `C150_message_refuted`, `C150_trimmed_refuted`, `C150_unfold`, `C152_once`, `C152_subclasses_refuted`, `C152_when`, `C16_get_best_trimmed_any_refuted`, `C17_trim_manually`, `C17_use_trim_iteration`, `C20_direct_matrix_entries`, `C20_transpose_trick`, `C22_correlate_fast`, `C23_full_entries`, `C25_generated_ascending`, `C25_no_seed_only_advances_partial`, `C25_no_seed_poisson_refuted`, `C25_seed_reproducible`, `C28_default_smoother`, `C28_trimmed_keeps_order`, `C28_unfold_sorted`, `C29_evaluate_smoother`, `C29_evaluate_smoother_refuted`, `C31_detrend_applied_twice_refuted`, `C32_at_most_once`, `C32_result`, `C33_bad_arguments_raise`, `C33_only_bad_arguments_raise`, `C34_columns_line_up`, `C34_heuristic_names_refuted`, `C34_names`, `C34_names_distinct`, `C36_iterations`, `C37_min_iters_refuted`, `C37_minimum_100`, `C39_iterations`, `C44_levelvariance`, `C44_rigidity`, `C45_levelvariance_limit`, `C45_no_L`, `C55_base_refuted`, `C56_construct`, `C56_lengths`, `C57_dimension`, `C57_rows_any`, `C59_class_linear`, `C59_difference`, `C60_effect`, `C60_failure`, `C60_missing_home_refuted`, `C61_effects`, `C61_result`, `C61_saves`, `C62_length`, `C64_find_first_last`, `C65_matrix_kinds`, `C65_names`, `C68_spectrum_bounds`, `C70_histogram_refuted`, `C74_repeated_smoother_refuted`, `C76_regex_columns`, `C95_lower_triangle_refuted`, `C95_option_refuted`, `C97_flatten`, `C97_nd_find`

**`functional_extensionality_dep`, `sig_forall_dec`** — 103 theorems:
`C05_construct_order_independent`, `C07_spacings`, `C105_stripes`, `C108_between`, `C108_evenly_spaced`, `C108_near_line`, `C10_max_trim_respected`, `C115_complement_refuted`, `C115_counts`, `C119_mean`, `C11_rows_shrink_refuted`, `C121_expected_refuted`, `C121_mean_square`, `C121_number_variance`, `C122_integrable`, `C124_boundary_refuted`, `C125_tie_refuted`, `C132_binomial`, `C132_gaps`, `C133_auto`, `C133_report`, `C13_percentages_add_up`, `C141_scale`, `C141_zeros`, `C143_counts`, `C143_errors`, `C143_full_bins`, `C143_never_right_refuted`, `C143_raises`, `C143_shifted`, `C144_one_column_refuted`, `C144_steps`, `C146_small_window_refuted`, `C148_counted`, `C148_kept`, `C14_score`, `C153_odd`, `C153_values`, `C15_fails`, `C15_selection_partial`, `C15_selection_refuted`, `C16_best_overall_refuted`, `C16_get_best_trimmed_refuted`, `C21_from_correlations_refuted`, `C21_returns_small_entries`, `C30_emd_detrend_shifted_refuted`, `C30_errors`, `C35_population_variance`, `C36_flag`, `C38_exact`, `C39_running_mean`, `C40_last_means`, `C40_short_runs_refuted`, `C41_constant_x`, `C41_least_squares`, `C41_recovers_line`, `C42_linear`, `C43_any_line`, `C43_defined`, `C43_nonnegative`, `C43_translation`, `C45_levelvariance_auto`, `C45_rigidity_auto`, `C45_rigidity_limit`, `C54_mean_abs`, `C54_mean_sq`, `C54_permutes`, `C55_first_entry`, `C56_unlabelled`, `C58_linear_refuted`, `C58_mean`, `C59_affine`, `C59_emd`, `C59_linear`, `C59_quadratic`, `C62_affine`, `C62_quadratic`, `C72_counts`, `C72_degenerate`, `C74_summary_table`, `C75_auto_heuristic_refuted`, `C75_auto_provenance`, `C75_auto_selects`, `C80_figure`, `C80_negatives_refuted`, `C84_degenerate`, `C84_equal_refuted`, `C84_staircase`, `C85_one_panel_refuted`, `C85_panels`, `C85_summary`, `C86_off_by_one_refuted`, `C90_negative_refuted`, `C90_rows`, `C92_level_variance`, `C92_rigidity`, `C93_level_variance`, `C93_rigidity_refuted`, `C94_inside`, `C94_refuted`, `C96_not_square_refuted`, `C96_square`, `C97_variance`

**`functional_extensionality_dep`, `sig_forall_dec`, `sig_not_dec`** — 63 theorems:
`C100_affine`, `C100_mirror`, `C101_default_refuted`, `C101_pinned`, `C113_matrix`, `C113_time_axis_refuted`, `C113_too_small_refuted`, `C119_bias`, `C119_edge_refuted`, `C122_delta_grid`, `C122_expected_refuted`, `C123_determined`, `C126_goe_score_refuted`, `C128_delta_grid`, `C128_error`, `C129_consistent`, `C129_error`, `C138_goe`, `C138_gue`, `C138_sign`, `C140_correlations`, `C140_covariances`, `C140_unit_refuted`, `C141_band`, `C145_edge_refuted`, `C155_generate`, `C155_unfolded`, `C156_columns`, `C156_succeeds`, `C160_null`, `C161_nonneg`, `C163_few`, `C163_found`, `C163_group`, `C163_sum`, `C163_zero_trimming`, `C164_found`, `C164_shift_refuted`, `C164_sum`, `C18_marchenko_pastur`, `C18_missing_sizes`, `C19_corner_cases`, `C19_zero_trimming`, `C23_matrices`, `C24_same_scale_refuted`, `C50_points`, `C50_points_refuted`, `C57_rows`, `C66_time_axis`, `C67_stored_endpoints_refuted`, `C69_correlate`, `C69_lengths`, `C89_as_generate`, `C89_which_matrix`, `C90_perfect`, `C91_fails`, `C91_middle`, `C91_scale_refuted`, `C98_curves`, `C98_steps`, `C99_errors_fall`, `C99_exact`, `C99_mean`

**`classic`, `functional_extensionality_dep`, `sig_forall_dec`, `sig_not_dec`** — 156 theorems:
`C109_grid`, `C109_staircase`, `C110_centre`, `C110_rigidity`, `C111_spacings`, `C112_level_variance`, `C112_rigidity_mean`, `C114_ordered`, `C114_small_L_refuted`, `C117_agree`, `C117_jump`, `C118_inner`, `C118_outer_refuted`, `C118_ties_refuted`, `C123_pandey`, `C124_max_trim`, `C125_counts`, `C125_level_variance`, `C126_variances`, `C127_average`, `C127_exact`, `C127_limit`, `C127_rate`, `C128_documented`, `C130_closed_form`, `C130_evenly_spaced`, `C130_sampled`, `C131_level_variance`, `C131_rigidity`, `C132_nearest`, `C132_next_nearest`, `C132_next_nearest_refuted`, `C134_laplace`, `C134_normal_refuted`, `C135_full`, `C135_tridiagonal`, `C136_gue`, `C137_curve`, `C137_intercept_refuted`, `C139_band`, `C139_full`, `C139_gue`, `C139_tridiagonal`, `C141_full`, `C141_full_refuted`, `C141_gue`, `C141_tridiagonal`, `C142_law`, `C142_noise`, `C145_double_precision`, `C146_rigidity`, `C146_sample`, `C148_percent_double`, `C149_data`, `C149_given`, `C149_given_refuted`, `C149_levelvar`, `C149_levelvar_error`, `C149_rigidity`, `C149_rigidity_method`, `C149_variance_method`, `C151_band`, `C151_full`, `C151_gue`, `C151_tridiagonal`, `C153_band`, `C153_full`, `C153_full_limit`, `C153_gue`, `C153_gue_limit`, `C153_ratio_refuted`, `C154_full`, `C154_gue`, `C154_gue_unfold_refuted`, `C154_scaled`, `C154_unfold_refuted`, `C155_hermitian`, `C155_routine`, `C155_symmetric`, `C157_averages`, `C157_density`, `C157_law`, `C157_same`, `C157_unfold`, `C158_construct`, `C158_full_refuted`, `C158_gue_refuted`, `C158_tridiagonal`, `C159_averages`, `C159_default`, `C159_law`, `C159_trim`, `C160_default`, `C160_law`, `C160_trim`, `C161_default`, `C161_law`, `C161_trim`, `C162_default`, `C162_law`, `C162_trim`, `C26_semicircle_unfolding`, `C27_poisson_unfolding_refuted`, `C38_binary64`, `C42_simpson_cubic`, `C42_simpson_exact`, `C42_trapezoid_exact`, `C42_two_points_refuted`, `C46_laws`, `C46_negative_refuted`, `C46_sampled`, `C47_densities`, `C48_default`, `C48_explicit`, `C49_default_grid`, `C49_increasing`, `C49_poisson`, `C49_relation`, `C51_endpoints`, `C51_law`, `C51_mean`, `C52_log_refuted`, `C53_dispatch`, `C53_evaluate`, `C53_unfolded`, `C63_increasing`, `C63_inverse_refuted`, `C63_what_it_inverts`, `C71_mle_refuted`, `C73_defaults_refuted`, `C73_gue_gse`, `C73_scores`, `C77_errors`, `C77_figure`, `C78_method_refuted`, `C79_figure`, `C79_too_few`, `C81_never_drawn_refuted`, `C82_columns`, `C82_figure`, `C82_scaling`, `C82_scaling_refuted`, `C83_columns`, `C83_figure`, `C83_labels`, `C83_reordered_refuted`, `C83_repeated`, `C87_automatic`, `C87_no_spacing`, `C87_panels`, `C88_lengths`, `C88_mismatch`, `C88_rigidity`, `C88_rigidity_data_refuted`, `C88_variance`, `C89_values`
