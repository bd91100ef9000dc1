{"id": "C01", "title": "Array step function counts eigenvalues <= x", "statement": "For a sorted, NaN-free, non-empty spectrum and a sorted, NaN-free, non-empty grid x whose last point is strictly above the smallest eigenvalue or strictly below it, step_values(eigs, x)[j] (equivalently EigVals.step_function(x)[j]) is exactly the number of eigenvalues <= x[j], for every j, including repeated eigenvalues, repeated grid points, infinities, grids wholly below, wholly above, or starting inside the spectrum.", "quantifier": "all sorted spectra and all sorted grids of any length over any totally ordered set of float values", "why_tests_cant": "The two-pointer sweep has three loops and two early returns whose interplay depends on the interleaving of two unbounded arrays; tests only sample a few random grids.", "anchors": ["empyricalRMT/observables/step.py:_step_function_fast", "empyricalRMT/observables/step.py:step_values", "empyricalRMT/_eigvals.py:EigVals.step_function"]}
{"id": "C02", "title": "Scalar and array forms of the step function agree", "statement": "step_values(eigs, x) for a float x and step_values(eigs, np.array([.., x, ..])) report the same count for every sorted spectrum and grid; anything but a float or an array raises ValueError.  (FALSE of the code exactly when the last grid point equals the smallest eigenvalue: the array form then returns all zeros.)", "quantifier": "all sorted non-empty spectra and grids", "why_tests_cant": "The disagreement needs an exact tie between the last grid point and the smallest eigenvalue, which random float tests hit with probability zero.", "anchors": ["empyricalRMT/observables/step.py:step_values", "empyricalRMT/observables/step.py:_step_function_fast"]}
{"id": "C03", "title": ".steps is the staircase of the spectrum", "statement": "For an Eigenvalues object whose spectrum has at least two distinct values, .steps[i] = #{j : vals[j] <= vals[i]}; the sequence is non-decreasing, starts at the multiplicity of the smallest value and ends at n; and for a constant spectrum (including a single eigenvalue) .steps is all zeros.", "quantifier": "all spectra of any length, any multiplicities", "why_tests_cant": "Quantifies over every multiset of eigenvalues, including degenerate ones that tests never construct.", "anchors": ["empyricalRMT/_eigvals.py:EigVals.steps", "empyricalRMT/observables/step.py:_step_function_fast"]}
{"id": "C04", "title": "Step function terminates and stays in bounds", "statement": "For every non-empty NaN-free spectrum and grid, sorted or not, _step_function_fast terminates and never indexes outside its arrays; for any grid containing a NaN that the sweep reaches, it does not terminate (IEEE comparison semantics); .steps of any spectrum with one NaN and one ordinary value therefore hangs.", "quantifier": "all finite arrays of IEEE values, any order, with or without NaN", "why_tests_cant": "Non-termination and out-of-bounds reads in unchecked jitted code cannot be established by running finitely many cases.", "anchors": ["empyricalRMT/observables/step.py:_step_function_fast", "empyricalRMT/_eigvals.py:EigVals.steps"]}
{"id": "C05", "title": "Construction yields a sorted rearrangement, independent of input order", "statement": "Eigenvalues(values).vals is an ascending rearrangement of the supplied 1-D values (NaNs last), original_values equals vals, and any two permutations of the same values give equal objects; constructing again from .vals changes nothing.", "quantifier": "all 1-D inputs of any length and order", "why_tests_cant": "Needs equality over every permutation of every input.", "anchors": ["empyricalRMT/_eigvals.py:EigVals.__init__", "empyricalRMT/eigenvalues.py:Eigenvalues.__init__"]}
{"id": "C06", "title": "Accepted input shapes", "statement": "make_1d_array accepts an array exactly when its total element count equals the length of its first axis (so (n,), (n,1), (n,1,1).. and empty first axis), preserving the row-major order of the elements, and otherwise raises ValueError; the EigVals constructor rejects every ndim > 2 and sends a 2-D input to the symmetric eigenvalue routine exactly when it is square and equal to its transpose, to the general one otherwise, storing the values in ascending order or passing the routine's exception on.  A 0-D input, documented as acceptable, raises TypeError.", "quantifier": "all array shapes of any dimension", "why_tests_cant": "Quantifies over all shapes, an infinite family.", "anchors": ["empyricalRMT/_validate.py:make_1d_array", "empyricalRMT/_eigvals.py:EigVals.__init__", "empyricalRMT/eigenvalues.py:Eigenvalues.__init__"]}
{"id": "C07", "title": "Spacings are the non-negative gaps of the spectrum", "statement": ".spacings has n-1 entries for n>=1, every entry is >= 0, their sum is max - min, they do not depend on the order in which the values are stored, are unchanged by translating the spectrum and scale linearly under positive scaling.", "quantifier": "all spectra of any length (exact arithmetic)", "why_tests_cant": "Universal algebraic law over all inputs.", "anchors": ["empyricalRMT/_eigvals.py:EigVals.spacings"]}
{"id": "C08", "title": "Reading observables has no side effects; cached steps stay correct", "statement": "For every finite sequence of reads of vals, original_values, steps, spacings and step_function on one object, in any order, each read returns the same value it would return as the very first operation; values/original arrays are not changed by reads, and original_values is unaffected by in-place writes into the array returned by vals.  (The cached .steps is however NOT refreshed after such a write.)", "quantifier": "all finite histories of accessor calls interleaved with in-place writes", "why_tests_cant": "History quantification: a test exercises one call order.", "anchors": ["empyricalRMT/_eigvals.py:EigVals.steps", "empyricalRMT/_eigvals.py:EigVals.original_values", "empyricalRMT/_eigvals.py:EigVals.spacings"]}
{"id": "C09", "title": "Outlier labels mark one contiguous end only", "statement": "Whatever labels the HBOS detector returns, the labels used for trimming mark either a prefix or a suffix of the sorted spectrum (never both, never an interior value), always leave at least one value, and are unmarked altogether if neither end value is flagged.", "quantifier": "every Boolean label vector the external detector may produce, any length >= 1", "why_tests_cant": "The detector is an external black box; all 2^n label vectors for all n are covered.", "anchors": ["empyricalRMT/trim.py:TrimIter._get_outlier_labels", "empyricalRMT/utils.py:find_first", "empyricalRMT/utils.py:find_last"]}
{"id": "C10", "title": "Trim iterations are bounded, nested, contiguous and respect max_trim", "statement": "For every detector behaviour, every spectrum, every max_iters and max_trim >= 0, the trim iterations recorded by TrimReport number at least 1 and at most max_iters+1, carry ids 0,1,2,.., start with the untrimmed spectrum, each is a non-empty contiguous slice of the previous one, and each removes at most the fraction max_trim of the original values (exact arithmetic).", "quantifier": "all detectors, spectra, max_iters, max_trim", "why_tests_cant": "Loop with external, data-dependent control flow; unbounded iteration count.", "anchors": ["empyricalRMT/trim.py:TrimReport.__get_trim_iters", "empyricalRMT/trim.py:TrimIter.next_iter", "empyricalRMT/trim.py:TrimIter.inliers"]}
{"id": "C11", "title": "Each trim-report row is a smaller range than the previous", "statement": "Each subsequent row of the trim summary contains strictly fewer eigenvalues than the one before.  (FALSE of the code when no outlier is found at iteration 0: row 1 then repeats row 0; true for all later pairs.)", "quantifier": "all detectors, spectra, max_iters, max_trim", "why_tests_cant": "Depends on all possible detector outputs.", "anchors": ["empyricalRMT/trim.py:TrimReport.__get_trim_iters", "empyricalRMT/trim.py:TrimReport.summary"]}
{"id": "C12", "title": "trim_indices locate the kept values in the original spectrum", "statement": "For a spectrum with distinct values, trim_indices[k] = (s, e) satisfies: the k-th trimmed spectrum is exactly the original values at positions s..e inclusive.  The documented reading eigs[s:e] always misses the last kept value; with repeated values the located range may be strictly larger than the kept one.", "quantifier": "all spectra and all trim iterations", "why_tests_cant": "Quantifies over all tie patterns and slices.", "anchors": ["empyricalRMT/trim.py:TrimIter.trim_indices", "empyricalRMT/trim.py:TrimReport.trim_indices", "empyricalRMT/utils.py:find_first", "empyricalRMT/utils.py:find_last"]}
{"id": "C13", "title": "Low and high trim proportions add up to the total", "statement": "For spectra with distinct values, (values removed below) + (kept) + (values removed above) = n, so the unrounded low and high trim percentages sum to the total trim percentage, and exactly one of them is zero at the first trim.  (With ties the reported low/high percentages can fall short of the total.)", "quantifier": "all spectra, all contiguous trims", "why_tests_cant": "Universal arithmetic identity over all slices and tie patterns.", "anchors": ["empyricalRMT/trim.py:TrimIter.lower_percent_removed", "empyricalRMT/trim.py:TrimIter.upper_percent_removed", "empyricalRMT/trim.py:TrimIter.percent_removed"]}
{"id": "C14", "title": "Unfolding score depends only on spacing mean and variance", "statement": "The score recorded for an unfolding with n >= 3 values is (var-0.286)/0.286 + (mean-1)/2 where mean = (last-first)/(n-1) and var is the unbiased spacing variance (>= 0); it is invariant under translating the unfolded values and is 0 when mean = 1 and var = 0.286.", "quantifier": "all unfoldings of any length (exact arithmetic)", "why_tests_cant": "Algebraic law over all inputs.", "anchors": ["empyricalRMT/trim.py:TrimReport.__evaluate_unfolding"]}
{"id": "C15", "title": "Automatic unfolding picks the best-scoring smoother and trim", "statement": "The smoother chosen by trim_unfold_auto/unfold_auto has the least average absolute score (over the rows below the 90th percentile), and the chosen trim row has the least absolute score in that smoother's column, ties to the earliest row.  (FALSE of the code when the report has a single row, as in every Trimmed.unfold_auto call: the first listed smoother is returned regardless of scores.)", "quantifier": "all score tables of any size", "why_tests_cant": "Selection rule over arbitrary tables; the degenerate case silently returns a plausible answer.", "anchors": ["empyricalRMT/trim.py:TrimReport._get_autounfold_vals", "empyricalRMT/trim.py:Trimmed.unfold_auto", "empyricalRMT/eigenvalues.py:Eigenvalues.trim_unfold_auto"]}
{"id": "C16", "title": "best_overall / get_best_trimmed return a trimmed spectrum", "statement": "TrimReport.best_overall() and Eigenvalues.get_best_trimmed() return a result for well-formed input.  (FALSE of the code: best_overall raises for every report with at least one smoother - ValueError when the smoothing factors are listed, KeyError when only heuristic splines are fitted - and get_best_trimmed raises for every argument: ValueError for every SmoothMethod member and unknown string, and for 'poly', 'spline' and 'gompertz' as soon as the report can be built.)", "quantifier": "all reports / all argument values", "why_tests_cant": "A universally quantified failure; no test asserts the return value.", "anchors": ["empyricalRMT/trim.py:TrimReport.best_overall", "empyricalRMT/eigenvalues.py:Eigenvalues.get_best_trimmed"]}
{"id": "C17", "title": "Manual trimming and iteration selection follow Python index semantics", "statement": "trim_manually(start,end) keeps exactly the sorted values at ranks start..end-1 for 0<=start<=end<=n, its result is sorted, for negative or out-of-range bounds it clips as Python slices do and never raises; use_trim_iteration(i) returns row i for 0<=i<len, row len+i for -len<=i<0, ValueError above and IndexError below.", "quantifier": "all spectra and all integer bounds", "why_tests_cant": "All integer pairs including negative and huge ones.", "anchors": ["empyricalRMT/eigenvalues.py:Eigenvalues.trim_manually", "empyricalRMT/trim.py:TrimReport.use_trim_iteration"]}
{"id": "C18", "title": "Marchenko-Pastur trimming partitions the spectrum", "statement": "With series length T and N series, trim_marchenko_pastur(largest=True) keeps exactly the eigenvalues above the upper cut-point and largest=False exactly those strictly between the cut-points; the two are disjoint, order is kept, the cut-points satisfy 0 <= lower <= upper when not shifted or when the largest eigenvalue is at most N, and the noise set is empty whenever the largest eigenvalue exceeds N in shifted mode; missing N or T raises ValueError.", "quantifier": "all spectra, N, T > 0", "why_tests_cant": "Universal over real spectra and sizes.", "anchors": ["empyricalRMT/eigenvalues.py:Eigenvalues.trim_marchenko_pastur"]}
{"id": "C19", "title": "Zero-trimming of time-series eigenvalues", "statement": "from_time_series keeps exactly the eigenvalues > 0 (zeros='negative'), > z (zeros=z a float), or > -100*min when min <= 0 and everything otherwise (zeros='heuristic'); in the heuristic and 'negative' modes every kept value is positive whenever the smallest is <= 0; unrecognised settings and an empty result raise ValueError.", "quantifier": "all spectra and settings", "why_tests_cant": "Universal over spectra and settings.", "anchors": ["empyricalRMT/eigenvalues.py:Eigenvalues.from_time_series"]}
{"id": "C20", "title": "Transpose trick preserves the non-zero covariance/correlation spectrum", "statement": "For N > T the eigenvalues computed from the T x T matrix are, for every data matrix, exactly the eigenvalues of the N x N covariance (or correlation) matrix apart from N-T zeros: the characteristic polynomials satisfy chi_NxN = X^(N-T) * chi_TxT; in particular a non-zero number is an eigenvalue of one iff it is an eigenvalue of the other.", "quantifier": "all real data matrices of all sizes N > T", "why_tests_cant": "Linear-algebra identity for all matrices and sizes.", "anchors": ["empyricalRMT/eigenvalues.py:_eigs_via_transpose", "empyricalRMT/eigenvalues.py:Eigenvalues.from_time_series"]}
{"id": "C21", "title": "from_correlations returns the eigenvalues with near-zeros removed", "statement": "Eigenvalues.from_correlations(data, atol) returns the eigenvalues of data with those of magnitude < atol removed.  (FALSE of the code: it returns exactly the matrix entries with magnitude < atol.)", "quantifier": "all matrices and tolerances", "why_tests_cant": "Universal over matrices; there is no test of the function.", "anchors": ["empyricalRMT/eigenvalues.py:Eigenvalues.from_correlations"]}
{"id": "C22", "title": "Correlation matrices are valid", "statement": "correlate_fast(arr) is symmetric with unit diagonal and entries in [-1,1] whenever every row has positive variance, does not depend on ddof or on positive rescaling/translation of rows, and in exact arithmetic the final clipping changes nothing.", "quantifier": "all data matrices of any size (exact arithmetic)", "why_tests_cant": "Cauchy-Schwarz-type statement over all matrices.", "anchors": ["empyricalRMT/correlater.py:correlate_fast"]}
{"id": "C23", "title": "Generated matrices are symmetric / Hermitian of the right shape", "statement": "For every stream of random draws, the full GOE matrix is symmetric, the GUE matrix Hermitian, and the tridiagonal GOE matrix is symmetric, zero off the three central diagonals, with size diagonal entries and off-diagonal entries drawn with size-1, size-2, .., 1 degrees of freedom.", "quantifier": "all random streams and all sizes", "why_tests_cant": "Tests sample a few seeds and sizes.", "anchors": ["empyricalRMT/construct.py:_generate_GOE_matrix", "empyricalRMT/construct.py:_generate_GOE_tridiagonal", "empyricalRMT/eigenvalues.py:Eigenvalues.generate"]}
{"id": "C24", "title": "Both GOE generation paths use the same scale", "statement": "The full-matrix and the tridiagonal GOE paths give spectra of the same scale, i.e. equal expected trace of the squared matrix for every size.  (FALSE of the code: the full path is exactly twice the tridiagonal one, so eigenvalue scales differ by sqrt 2, and unfold_goe's band edge sqrt(2N) fits only the tridiagonal one.)", "quantifier": "all sizes >= 1 and all random variables with the stated moments", "why_tests_cant": "Statement about expectations over all sizes.", "anchors": ["empyricalRMT/construct.py:_generate_GOE_matrix", "empyricalRMT/construct.py:_generate_GOE_tridiagonal", "empyricalRMT/eigenvalues.py:Eigenvalues.generate"]}
{"id": "C25", "title": "Seeding makes generation reproducible; no seed leaves global state alone", "statement": "Eigenvalues.generate with the same non-None seed returns the same eigenvalues whatever random calls happened before, for GOE, GUE and Poisson; with seed None the global random state is only advanced, never reseeded.  (The second half is FALSE for Poisson.)", "quantifier": "all prior histories of random calls, all kinds, sizes and seeds", "why_tests_cant": "History quantification over global RNG state.", "anchors": ["empyricalRMT/construct.py:_generate_poisson", "empyricalRMT/eigenvalues.py:Eigenvalues.generate"]}
{"id": "C26", "title": "Semicircle unfolding is monotone with range [0, N]", "statement": "unfold_goe maps every eigenvalue into [0, N], preserves order (so the i-th unfolded value belongs to the i-th eigenvalue), is strictly increasing inside the band |x| < sqrt(2N), sends everything at or below the lower edge to 0 and everything above the upper edge to exactly N; an empty spectrum is refused with a ValueError.", "quantifier": "all spectra of any size (quadrature taken as the exact integral)", "why_tests_cant": "Real-analysis statement over all inputs.", "anchors": ["empyricalRMT/eigenvalues.py:Eigenvalues.unfold_goe", "empyricalRMT/construct.py:goe_unfolded"]}
{"id": "C27", "title": "Poisson unfolding is a monotone counting function", "statement": "unfold_poisson is an order-preserving map of the eigenvalues onto [0, N].  (FALSE of the code: it equals N(2 - exp(-|x|)), is even in x, takes values in [N, 2N), and so collapses x and -x.)", "quantifier": "all spectra (quadrature taken as the exact integral)", "why_tests_cant": "Real-analysis statement over all inputs.", "anchors": ["empyricalRMT/eigenvalues.py:Eigenvalues.unfold_poisson"]}
{"id": "C28", "title": "unfold() returns sorted values of unchanged length for every smoother", "statement": "For every smoothing routine behaviour, Eigenvalues.unfold returns one unfolded value per eigenvalue in ascending order, with original eigenvalues retained; the default smoother is the semicircle for GOE, the exponential for Poisson and a polynomial otherwise.  Trimmed.unfold does not sort.", "quantifier": "all fitting-routine outputs, all kinds and smoother arguments", "why_tests_cant": "Fitting routine is an arbitrary function.", "anchors": ["empyricalRMT/eigenvalues.py:Eigenvalues.unfold", "empyricalRMT/trim.py:Trimmed.unfold", "empyricalRMT/smoother.py:Smoother.fit"]}
{"id": "C29", "title": "evaluate_smoother reproduces the unfolding", "statement": "For an Unfolded obtained by smoothing, evaluate_smoother(original eigenvalues) returns the unfolded values (before sorting).  (Holds for Eigenvalues.unfold with poly, spline and gompertz; FALSE for Exponential, which raises TypeError, and for Trimmed.unfold, which yields None or NotImplementedError.)", "quantifier": "all spectra, smoothers and fitted coefficients", "why_tests_cant": "Quantifies over all fits and both call paths.", "anchors": ["empyricalRMT/unfold.py:Unfolded.evaluate_smoother", "empyricalRMT/smoother.py:Smoother.fit", "empyricalRMT/trim.py:Trimmed.unfold"]}
{"id": "C30", "title": "EMD detrending of unfolded values", "statement": "emd_detrend returns u[i] minus the EMD trend at i; with a zero trend it is the identity.  (FALSE of the code, which is off by one: it returns u[0] followed by u[i-1]-trend[i-1], duplicating the first value and dropping the last; length and first value are preserved.)", "quantifier": "all spectra and all trends the EMD oracle may return (exact arithmetic)", "why_tests_cant": "Universal over oracle outputs; index-shift law for all lengths.", "anchors": ["empyricalRMT/detrend.py:emd_detrend"]}
{"id": "C31", "title": "unfold(detrend=True) detrends once", "statement": "Eigenvalues.unfold(..., detrend=True) applies the EMD detrending once to the smoothed values.  (FALSE of the code: it is applied twice for fitted smoothers and not at all for the GOE and Poisson smoothers.)", "quantifier": "all spectra, smoothers, EMD outputs", "why_tests_cant": "Universal over oracle outputs.", "anchors": ["empyricalRMT/eigenvalues.py:Eigenvalues.unfold", "empyricalRMT/smoother.py:Smoother.fit"]}
{"id": "C32", "title": "A spectrum can be detrended at most once", "statement": "For every sequence of detrend calls on an Eigenvalues object and its results, no object is ever produced by two detrendings; a second call raises ValueError; a detrended object has as many values as the original and no ensemble kind.", "quantifier": "all histories of detrend calls and methods", "why_tests_cant": "History quantification.", "anchors": ["empyricalRMT/eigenvalues.py:Eigenvalues.detrend"]}
{"id": "C33", "title": "Smoother argument validation", "statement": "Smoother.fit raises before fitting exactly for: an unknown smoother name or object, a polynomial degree that is not an int or < 3, a spline degree that is not an int or > 5 (None included, although a default is announced), a spline smoothing value that is neither a float nor 'heuristic', the GOE and Poisson members, and every string smoother name (RuntimeError, although validation accepts the name).", "quantifier": "all argument combinations", "why_tests_cant": "Exhaustive over the argument space.", "anchors": ["empyricalRMT/smoother.py:Smoother.fit", "empyricalRMT/smoother.py:Smoother.__validate_args"]}
{"id": "C34", "title": "Summary columns line up with fitted smoothers", "statement": "For every choice of polynomial degrees, spline smoothing factors and degrees and gompertz flag, the names used for the summary columns equal, in order, the names of the unfolding columns returned by fit_all; names are pairwise distinct when degrees are distinct and smoothing factors differ in three decimals.  (Name equality is FALSE for spline_smooths='heuristic': 2 vs 3 decimals.)", "quantifier": "all parameter lists of any length", "why_tests_cant": "Lists of arbitrary length, string formatting of every value.", "anchors": ["empyricalRMT/smoother.py:Smoother.fit_all", "empyricalRMT/smoother.py:Smoother._get_smoother_names", "empyricalRMT/trim.py:TrimReport.__iters_to_dataframe"]}
{"id": "C35", "title": "Level variance is the exact population variance of the sampled counts", "statement": "For every sequence of random window centres, after k iterations the value returned by sigma_L is, in exact arithmetic, the population variance of the k window counts drawn after the initial one (the initial sample has no influence); hence it is >= 0, at most (n/2)^2, and 0 iff all counts agree; a window counts eigenvalues in the closed interval [c-L/2, c+L/2].", "quantifier": "all spectra, L, iteration limits, tolerances and random streams", "why_tests_cant": "Loop invariant over unbounded iterations and arbitrary random streams.", "anchors": ["empyricalRMT/observables/levelvariance.py:sigma_L", "empyricalRMT/utils.py:kahan_add"]}
{"id": "C36", "title": "Level variance iteration count and convergence flag", "statement": "sigma_L always stops; the reported iteration count k satisfies 1 <= k <= max(1, max_iters); if it stops before max_iters then the convergence flag is true, k is a multiple of 500 and exceeds min_iters; the flag is true exactly when the spread of the buffer of running values is below tol, which for k >= 1000 is the spread of the last 1000 running variances.", "quantifier": "all spectra, limits, tolerances, random streams", "why_tests_cant": "Termination and exit-state invariant of an unbounded loop.", "anchors": ["empyricalRMT/observables/levelvariance.py:sigma_L"]}
{"id": "C37", "title": "min_L_iters is honoured by level_variance", "statement": "Unfolded.level_variance(min_L_iters=m) performs at least m iterations per L unless max_L_iters is reached.  (FALSE of the code: the argument is discarded and 100 is used.)", "quantifier": "all m, spectra, tolerances, random streams", "why_tests_cant": "Requires reasoning about all runs of a stochastic loop.", "anchors": ["empyricalRMT/unfold.py:Unfolded.level_variance", "empyricalRMT/observables/levelvariance.py:level_number_variance"]}
{"id": "C38", "title": "Compensated addition", "statement": "kahan_add(s,u,c) in exact arithmetic returns s+u-c with zero carry; with binary64 rounding, when |s| >= |u-c| (rounded) and no overflow, updated_sum minus the returned carry equals exactly s plus the rounded u-c, i.e. no information is lost by the addition.", "quantifier": "all reals / all binary64 values", "why_tests_cant": "Error-free transformation over 2^192 triples.", "anchors": ["empyricalRMT/utils.py:kahan_add"]}
{"id": "C39", "title": "Rigidity running mean is the exact mean of the sampled values", "statement": "For every random stream, after k >= 2 iterations the running mean in delta_L is the exact average of all k sampled Delta3 values, the iteration count satisfies 2 <= k <= max(2, max_iters), and stopping before max_iters implies convergence and that k is a multiple of 1000 above min_iters.", "quantifier": "all spectra, L, gridsizes, limits, random streams (exact arithmetic)", "why_tests_cant": "Loop invariant over unbounded iterations.", "anchors": ["empyricalRMT/observables/rigidity.py:delta_L"]}
{"id": "C40", "title": "Returned rigidity is the average of the last 1000 running means", "statement": "delta_L returns the mean of the last 1000 running means, so if every sampled value equals d it returns d.  (FALSE of the code for k <= 1000: unwritten zero entries are averaged in, giving d*k/1000 for k < 1000 and 0.999 d at k = 1000; true for k > 1000.)", "quantifier": "all spectra, random streams, max_iters", "why_tests_cant": "Needs analysis of buffer state for all iteration counts.", "anchors": ["empyricalRMT/observables/rigidity.py:delta_L"]}
{"id": "C41", "title": "Slope and intercept are the least-squares line", "statement": "For every non-empty x, y of equal length, the pair returned by _slope/_intercept (and utils.slope/intercept) minimises the sum of squared residuals over all lines, residuals sum to zero, and if y is an affine function of non-constant x the line is recovered exactly; a constant x gives slope 0.", "quantifier": "all data of any length (exact arithmetic), all competing lines", "why_tests_cant": "Optimality over a continuum of lines and all data.", "anchors": ["empyricalRMT/observables/rigidity.py:_slope", "empyricalRMT/observables/rigidity.py:_intercept", "empyricalRMT/utils.py:slope", "empyricalRMT/utils.py:intercept"]}
{"id": "C42", "title": "Quadrature rules are exact on low-degree polynomials", "statement": "On every strictly increasing grid, trapezoidal integration is exact for affine functions and the irregular Simpson rule with at least 3 points (odd or even number) is exact for quadratics; on uniform grids with an odd number of points Simpson is exact for cubics; both are linear in the values.  With exactly 2 points the Simpson rule wraps indices and is not even exact for affine functions.", "quantifier": "all strictly increasing grids of any length, all coefficients", "why_tests_cant": "Polynomial identity for grids of unbounded length.", "anchors": ["empyricalRMT/observables/rigidity.py:_int_simps_nonunif", "empyricalRMT/observables/rigidity.py:_integrate_fast"]}
{"id": "C43", "title": "Sampled rigidity values are non-negative and translation invariant", "statement": "For L > 0 and gridsize >= 3, each sampled Delta3 value is >= 0 for both integration methods (uniform-grid Simpson weights are all positive), is at most the value obtained from any other line for the trapezoidal weights times a constant, and shifting spectrum and window centre together leaves it unchanged.", "quantifier": "all spectra, centres, L, gridsizes (exact arithmetic)", "why_tests_cant": "Positivity of weights for every grid size; invariance law.", "anchors": ["empyricalRMT/observables/rigidity.py:delta_L", "empyricalRMT/observables/rigidity.py:_sq_lin_deviation", "empyricalRMT/observables/rigidity.py:_int_simps_nonunif"]}
{"id": "C44", "title": "Parallel loops are schedule independent", "statement": "For every order/interleaving in which the iterations over L are executed, sigma_parallel and delta_parallel fill position i of every output with the result computed for L[i] alone; outputs have the length of L; L is not modified.", "quantifier": "all schedules (permutations), all L arrays", "why_tests_cant": "All n! schedules for every n.", "anchors": ["empyricalRMT/observables/levelvariance.py:sigma_parallel", "empyricalRMT/observables/rigidity.py:delta_parallel"]}
{"id": "C45", "title": "Automatic iteration limit", "statement": "With max_iters <= 0 both observables first probe the largest L; they raise ConvergenceError exactly when that probe does not converge, and otherwise use twice the probe's iteration count as limit for every L; with max_iters > 0 no probe is made and no ConvergenceError is raised. Without any L to probe, max_iters <= 0 is a ValueError and max_iters > 0 returns an empty table.", "quantifier": "all L arrays, probe outcomes, limits", "why_tests_cant": "Universal over probe outcomes.", "anchors": ["empyricalRMT/observables/levelvariance.py:level_number_variance", "empyricalRMT/observables/rigidity.py:spectral_rigidity"]}
{"id": "C46", "title": "Poisson and GOE spacing laws are consistent probability laws", "statement": "For Poisson and GOE, nnsd is >= 0 on s >= 0, is the derivative of nnsd_cdf on s > 0, integrates to one over [0, infinity), and nnsd_cdf is non-decreasing from 0 with limit 1; the mean spacing is 1.  (On s < 0 the density claim is FALSE of the code: nnsd_cdf clips its argument but nnsd does not, so GOE.nnsd is negative and Poisson.nnsd exceeds 1.)", "quantifier": "all real s", "why_tests_cant": "Analytic statement over the reals.", "anchors": ["empyricalRMT/ensemble.py:Poisson", "empyricalRMT/ensemble.py:GOE"]}
{"id": "C47", "title": "GUE and GSE spacing laws are probability densities", "statement": "GUE.nnsd and GSE.nnsd formulas are >= 0 for s >= 0 and integrate to one over [0, infinity).", "quantifier": "all real s", "why_tests_cant": "Analytic statement (Gaussian integrals).", "anchors": ["empyricalRMT/ensemble.py:GUE", "empyricalRMT/ensemble.py:GSE"]}
{"id": "C48", "title": "GOE next-nearest-neighbour law", "statement": "GOE.nnnsd evaluated at explicit spacings equals the GSE nearest-neighbour formula at the same values; on the default grid it is evaluated at half spacings, so the returned curve as a function of the (unhalved) returned grid integrates to 2 rather than 1.", "quantifier": "all spacings", "why_tests_cant": "Analytic identity.", "anchors": ["empyricalRMT/ensemble.py:GOE.nnnsd", "empyricalRMT/ensemble.py:GSE.nnsd"]}
{"id": "C49", "title": "Theoretical rigidity and number variance curves", "statement": "Poisson: rigidity = L/15, level variance = L.  GOE: level variance = 2*rigidity + const with const = 9/(2 pi^2) for every L > 0; all curves are increasing in L; called without L they are evaluated on the evenly spaced default grid.", "quantifier": "all L > 0", "why_tests_cant": "Analytic identity over all L.", "anchors": ["empyricalRMT/ensemble.py:Poisson", "empyricalRMT/ensemble.py:GOE", "empyricalRMT/ensemble.py:GUE", "empyricalRMT/ensemble.py:GSE"]}
{"id": "C50", "title": "n_points controls the number of returned curve points", "statement": "nnsd(n_points=n) without explicit spacings returns n grid points spanning the requested range for every ensemble.  (True for Poisson and GOE; FALSE for GUE, which always returns 10000, and for GSE, whose grid is constant.)", "quantifier": "all n and ranges", "why_tests_cant": "Universal over n.", "anchors": ["empyricalRMT/ensemble.py:GUE.nnsd", "empyricalRMT/ensemble.py:GSE.nnsd", "empyricalRMT/ensemble.py:GOE.nnsd", "empyricalRMT/ensemble.py:Poisson.nnsd"]}
{"id": "C51", "title": "Brody distribution interpolates between Poisson and GOE", "statement": "For every beta in [0,1] and s > 0, brody_dist is positive and is the derivative of brody_cdf, brody_cdf is increasing with values in [0,1) and limit 1; beta = 0 gives the Poisson law and beta = 1 the GOE law.", "quantifier": "all beta in [0,1], all s", "why_tests_cant": "Analytic statement over two continua.", "anchors": ["empyricalRMT/brody.py:brody_dist", "empyricalRMT/brody.py:brody_cdf", "empyricalRMT/ensemble.py:Poisson.nnsd", "empyricalRMT/ensemble.py:GOE.nnsd"]}
{"id": "C52", "title": "log_brody is the logarithm of brody_dist", "statement": "log_brody(s,beta) returns log(brody_dist(s,beta)) for positive s.  (FALSE of the code for every s > 0: the exponential term has the wrong sign, the difference being exactly 2*alpha*s^(beta+1).)", "quantifier": "all s > 0, beta in [0,1]", "why_tests_cant": "Analytic statement.", "anchors": ["empyricalRMT/brody.py:log_brody"]}
{"id": "C53", "title": "Brody fit evaluation", "statement": "fit_brody dispatches case-insensitively to the spacing or mle method and raises ValueError otherwise; in brody_fit_evaluate the spacings column is sorted, ecdf is strictly increasing in rank from 1/n to 1, brody_cdf lies in [0,1), and 0 <= msqd <= mad <= 1, mad^2 <= msqd, for every fitted beta.", "quantifier": "all spacings arrays and all optimizer outcomes", "why_tests_cant": "Optimizer is an arbitrary oracle.", "anchors": ["empyricalRMT/brody.py:fit_brody", "empyricalRMT/brody.py:brody_fit_evaluate", "empyricalRMT/unfold.py:Unfolded.fit_brody"]}
{"id": "C54", "title": "Pairwise curve comparison matrices", "statement": "mean_sq_difference and mean_abs_difference without base curve return n x n tables that are symmetric, non-negative, zero on the diagonal, zero off it only for equal curves, permute with the curves, and for mean_abs_difference satisfy the triangle inequality.", "quantifier": "all lists of equal-length curves", "why_tests_cant": "Metric laws over all curves.", "anchors": ["empyricalRMT/compare.py:Compare.mean_sq_difference", "empyricalRMT/compare.py:Compare.mean_abs_difference"]}
{"id": "C55", "title": "Comparison against a base curve covers every curve", "statement": "With a base curve, entry i of the returned column is the mean squared (absolute) difference between the base and curve i, for every i.  (FALSE of the code for i >= 1: the loop returns in its first pass and later entries are uninitialised memory; true for one curve.)", "quantifier": "all curve lists, all uninitialised memory contents", "why_tests_cant": "Uninitialised memory may coincidentally look right; needs quantification over its contents.", "anchors": ["empyricalRMT/compare.py:Compare.mean_sq_difference", "empyricalRMT/compare.py:Compare.mean_abs_difference"]}
{"id": "C56", "title": "Compare validates its inputs", "statement": "Constructing Compare raises ValueError exactly when there are no curves, only one curve without base curve, or the number of labels differs; the comparison methods raise ValueError when curve lengths differ, and when the base length differs provided a base label was given; without a label a one-point base is compared with every point of the first curve, a one-point first curve with every point of the base, and any other pair of different lengths is a ValueError.", "quantifier": "all lists of curves, labels, bases", "why_tests_cant": "Exhaustive over list lengths.", "anchors": ["empyricalRMT/compare.py:Compare.__init__", "empyricalRMT/compare.py:Compare.__validate_curve_lengths"]}
{"id": "C57", "title": "Signal filtering keeps exactly the active rows", "statement": "get_signals returns, in order, exactly the rows whose variance and norm exceed the threshold, for every 2-D array, and raises for every other dimension.", "quantifier": "all arrays and thresholds", "why_tests_cant": "Universal over arrays.", "anchors": ["empyricalRMT/signalproc/clean.py:get_signals", "empyricalRMT/signalproc/clean.py:fill_mask"]}
{"id": "C58", "title": "Row detrending removes means and lines", "statement": "mean_detrend leaves every row with zero mean and is idempotent; linear_detrend maps every row that is an exact line in time to zero.  (The latter is FALSE of the code: the slope is replaced by the number of rows.)", "quantifier": "all matrices (exact arithmetic)", "why_tests_cant": "Algebraic law over all inputs.", "anchors": ["empyricalRMT/signalproc/detrend.py:mean_detrend", "empyricalRMT/signalproc/detrend.py:linear_detrend"]}
{"id": "C59", "title": "detrend removes lines and centres the residual", "statement": "detrend(series, linear) returns a series of the same length with zero sum and zero correlation with time, maps affine sequences to zero and is idempotent; Detrend.linear always raises; Detrend.difference returns one entry too many, the last uninitialised.", "quantifier": "all series of length >= 2 (exact arithmetic)", "why_tests_cant": "Algebraic law over all inputs.", "anchors": ["empyricalRMT/signalproc/detrend.py:detrend", "empyricalRMT/signalproc/detrend.py:Detrend"]}
{"id": "C60", "title": "Saving a plot creates exactly the missing parent directories", "statement": "After make_parent_directories(path), every ancestor of path strictly below the home directory (or every ancestor, for paths outside it) exists, no other path has been created, nothing is removed, and repeating the call changes nothing; the call fails exactly when a regular file stands above one of these ancestors.  (FALSE when the home directory itself is missing: then it and its own missing ancestors are created too.)", "quantifier": "all paths and all initial directory trees", "why_tests_cant": "State quantification over file systems.", "anchors": ["empyricalRMT/utils.py:make_parent_directories", "empyricalRMT/utils.py:make_directory"]}
{"id": "C61", "title": "Plot mode handling", "statement": "_handle_plot_mode saves a file only in Save mode with an output path, raises ValueError in Save mode without one and for anything that is not a PlotMode, and returns the figure in every non-raising case.", "quantifier": "all modes and output paths", "why_tests_cant": "Exhaustive effect trace.", "anchors": ["empyricalRMT/plot.py:_handle_plot_mode"]}
{"id": "C62", "title": "Numerical derivative", "statement": "derivative(x,y) has the length of x, is exact for affine y on every grid of distinct points with at least two points, and exact at interior points for quadratics on uniform grids.", "quantifier": "all grids and coefficients (exact arithmetic)", "why_tests_cant": "Algebraic law over all grids.", "anchors": ["empyricalRMT/exponentials.py:derivative"]}
{"id": "C63", "title": "Gompertz smoother is an increasing bounded curve with an inverse", "statement": "For a,b,c > 0, gompertz is strictly increasing with values in (0,a), limits 0 and a, and inverse_gompertz undoes it.  (The last part is FALSE of the code: for a > 0 and x >= 0 it takes the logarithm of a non-positive number.)", "quantifier": "all positive parameters and all x", "why_tests_cant": "Analytic statement.", "anchors": ["empyricalRMT/exponentials.py:gompertz", "empyricalRMT/exponentials.py:inverse_gompertz"]}
{"id": "C64", "title": "Index searches", "statement": "find_first / find_last return the least / greatest index holding the value, or -1 exactly when it is absent.", "quantifier": "all arrays and values", "why_tests_cant": "Universal over arrays.", "anchors": ["empyricalRMT/utils.py:find_first", "empyricalRMT/utils.py:find_last"]}
{"id": "C65", "title": "Ensemble-kind names", "statement": "Every MatrixKind member's own value string validates to that member, GDE and Poisson are the same member, every other string raises ValueError (including the documented 'gde'), and non-strings pass through unchanged.", "quantifier": "all strings", "why_tests_cant": "Exhaustive over strings.", "anchors": ["empyricalRMT/_types.py:MatrixKind.validate"]}
{"id": "C66", "title": "time_axis is a transposition", "statement": "Eigenvalues.from_time_series(data, time_axis=0) gives the same eigenvalues, recorded sizes and exceptions as passing the transposed array with time_axis=1.", "quantifier": "all 2-D arrays, flags and eigensolvers", "why_tests_cant": "Relates two runs on all arrays.", "anchors": ["empyricalRMT/eigenvalues.py:Eigenvalues.from_time_series"]}
{"id": "C67", "title": "Stored Marchenko-Pastur endpoints are ordered (lower, upper)", "statement": "from_time_series stores the plain and the shifted Marchenko-Pastur endpoints as (lower, upper) pairs.  (FALSE of the code for the shifted pair: it is stored as (upper, lower), so whenever the largest eigenvalue is below N its first component exceeds its second.)", "quantifier": "all arrays, flags and eigensolver results", "why_tests_cant": "Universal over data.", "anchors": ["empyricalRMT/eigenvalues.py:Eigenvalues.from_time_series"]}
{"id": "C68", "title": "Exact covariance and correlation spectra are non-negative, correlation spectra at most N", "statement": "In exact arithmetic every eigenvalue of the covariance matrix is >= 0 (so zeros='negative' only removes zeros and rounding artefacts), every eigenvalue of the correlation matrix lies in [0, N] and they add up to N (so the shifted Marchenko-Pastur cut-points of a correlation spectrum are never negative).", "quantifier": "all data matrices (correlation: with no constant row)", "why_tests_cant": "Spectral statement over all matrices.", "anchors": ["empyricalRMT/correlater.py:correlate_fast", "empyricalRMT/eigenvalues.py:Eigenvalues.from_time_series"]}
{"id": "C69", "title": "Correlation comparison of curves", "statement": "Compare.correlate without base curve returns the symmetric table of Pearson coefficients of the curves, 1 on the diagonal and all in [-1,1]; with a base curve, entry i of the column is the coefficient of base and curve i. A base of another length than the curves is a ValueError, with or without base label.", "quantifier": "all lists of equal-length non-constant curves (exact arithmetic)", "why_tests_cant": "Cauchy-Schwarz for all curve lengths.", "anchors": ["empyricalRMT/compare.py:Compare.correlate"]}
{"id": "C70", "title": "Histogram helper counts values", "statement": "The counts returned by Compare.__histograms add up to the number of values of the curve.  (FALSE of the code: counters start at 0,1,2,..., the first value is compared with its own minimum, and equal values run off the table into RuntimeError.)", "quantifier": "all curves and bin numbers", "why_tests_cant": "Universal over curves.", "anchors": ["empyricalRMT/compare.py:Compare.__histograms"]}
{"id": "C71", "title": "The mle fit maximises the likelihood", "statement": "fit_brody(s, 'mle') orders candidate parameters as their likelihood does.  (FALSE of the code: the minimised objective is minus the sum of the densities, not of their logarithms; there are positive samples for which it prefers beta = 1 although beta = 0 has the larger likelihood.)", "quantifier": "all samples of positive spacings", "why_tests_cant": "Existence of a sample on which two orders of the parameter disagree.", "anchors": ["empyricalRMT/brody.py:fit_brody_mle"]}
{"id": "C72", "title": "Histogram bin validation counts the values in each bin", "statement": "_validate_bin_sizes(vals, bins) finds in bin i exactly the number of values in [end_{i-1}, end_i) (below end_0 for the first), warns exactly for the bins holding more than 40 percent of the values, and never counts the values equal to the maximum.", "quantifier": "all non-empty arrays and bin numbers (exact arithmetic)", "why_tests_cant": "Universal over arrays and bin numbers; telescoping sum.", "anchors": ["empyricalRMT/plot.py:_validate_bin_sizes"]}
{"id": "C73", "title": "ensemble_compare scores every requested observable", "statement": "ensemble_compare fills the cell of every requested observable and metric with the mean absolute difference, mean squared difference or Pearson correlation of the expected and the computed curve, and no other cell, for every ensemble.  (FALSE for GUE and GSE: their expected spacing density always has 10000 points, so any other kde_gridsize, the default included, raises ValueError, and their next-nearest spacing density raises NotImplementedError.)", "quantifier": "all unfolded spectra, observables, metrics, ranges and grids", "why_tests_cant": "Universal over selections of observables and metrics; the failing ensembles are not exercised.", "anchors": ["empyricalRMT/unfold.py:ensemble_compare", "empyricalRMT/unfold.py:__get_kde_values"]}
{"id": "C74", "title": "Summary table of a trim report", "statement": "TrimReport's summary has one row per iteration, numbered from 0, and 3 + 4m columns with pairwise distinct labels; under each label stands the statistic it names (percentages trimmed in total, below and above; mean and variance of the unfolded spacings, msqe and score of each smoother), of that iteration and that smoother.  (FALSE when the same smoother is requested twice: building the table then always raises ValueError.)", "quantifier": "all detectors, fits, spectra, trim limits, iteration limits (exact arithmetic, arbitrary rounding and storage functions)", "why_tests_cant": "Universal over label sets, spectra and iteration counts; the repeated smoother is not tested.", "anchors": ["empyricalRMT/trim.py:TrimReport.__init__", "empyricalRMT/trim.py:TrimReport.summary"]}
{"id": "C75", "title": "Automatic trimming and unfolding", "statement": "Eigenvalues.trim_unfold_auto returns a contiguous run of the sorted input that keeps at least the fraction 1 - max_trim of it, with the values of one of the fits made on exactly that run: one per eigenvalue, ascending; for lists of smoothing factors the fit has the least below-percentile average score among the smoothers and the run is the first with the least absolute score for that smoother; it never fails once the trim iterations exist.  (FALSE for spline_smooths='heuristic' with splines only: the table names splines with three decimals, the fits with two, so the lookup always raises KeyError.)", "quantifier": "all detectors, fitting oracles, spectra, trim limits, iteration limits, smoother selections with distinct names (exact arithmetic)", "why_tests_cant": "End-to-end statement over arbitrary outlier detectors and fits.", "anchors": ["empyricalRMT/eigenvalues.py:Eigenvalues.trim_unfold_auto", "empyricalRMT/trim.py:TrimReport.unfold_trimmed"]}
{"id": "C76", "title": "Regular-expression column lookup finds the intended columns", "statement": "Among the labels of the summary table the pattern 'score' matches exactly the score columns, a score label used as a pattern (its full stops matching any character) matches exactly its own column, and removing '--score' from it gives back the smoother name.", "quantifier": "all selections of smoothers, for any number formatter producing three decimals", "why_tests_cant": "Universal over smoothing factors and degrees: an unescaped full stop or a name that is a suffix of another could match further columns.", "anchors": ["empyricalRMT/trim.py:TrimReport._get_autounfold_vals"]}
{"id": "C77", "title": "The nearest-neighbour spacing figure shows exactly what was asked", "statement": "_spacings draws, each exactly once: the histogram of the kept spacings (all of them when trim <= 0, else those at most trim); one curve per requested ensemble, that ensemble's spacing density on the even grid of 10000 points from the smallest to the largest kept spacing; with kde, the density estimate of the positive spacings (of the kept ones if trim_kde, else of all); with brody, the fitted Brody density - and nothing else.  With no spacing kept it raises ValueError; otherwise it raises exactly when a requested Brody fit does, with the same exception.", "quantifier": "all spectra, trim limits, flags, ensemble selections, density estimators and optimizers", "why_tests_cant": "Universal over selections of artists and spectra; plots are not asserted on by tests.", "anchors": ["empyricalRMT/plot.py:_spacings", "empyricalRMT/plot.py:_kde_plot"]}
{"id": "C78", "title": "brody_fit selects the Brody fitting method in the spacing figure", "statement": "The Brody curve drawn by _spacings is the fit by the method named in brody_fit.  (FALSE of the code: brody_fit is never read, the figure is the same for every value of it and draws the 'spacing' fit; there are spectra and optimizers for which the 'mle' fit differs.)", "quantifier": "all spectra and parameters", "why_tests_cant": "An ignored argument is invisible unless two runs are compared.", "anchors": ["empyricalRMT/plot.py:_spacings"]}
{"id": "C79", "title": "The next-nearest-neighbour spacing figure shows exactly what was asked", "statement": "_next_spacings draws the histogram of the kept next-nearest spacings (halved gaps over two places), the next-nearest density of each requested ensemble (Poisson and GOE only) on the even grid over the kept range, with kde the density estimate, with brody the fitted Brody density; spectra of at most two values raise ValueError.", "quantifier": "all spectra, trim limits, flags and ensemble selections", "why_tests_cant": "Universal over selections and spectra.", "anchors": ["empyricalRMT/plot.py:_next_spacings"]}
{"id": "C80", "title": "The eigenvalue distribution figures describe all eigenvalues", "statement": "_raw_eig_dist and _unfolded_dist draw the histogram of all eigenvalues and, with kde, a density estimate of them on an even grid over their range.  (FALSE of the code for the density estimate: it uses only the eigenvalues above zero; with none there is no curve at all.)", "quantifier": "all spectra, bin numbers, bandwidths", "why_tests_cant": "A filter meant for spacings is applied to eigenvalues; only visible for spectra with non-positive values.", "anchors": ["empyricalRMT/plot.py:_raw_eig_dist", "empyricalRMT/plot.py:_unfolded_dist", "empyricalRMT/plot.py:_kde_plot"]}
{"id": "C81", "title": "The Brody fit figure can be drawn", "statement": "_brody_fit draws the spacings with their fitted Brody density.  (FALSE of the code: it raises on every input, ValueError when no spacing is kept, AttributeError otherwise.)", "quantifier": "all spectra, methods, ensembles, flags", "why_tests_cant": "Universal failure, no test calls it.", "anchors": ["empyricalRMT/plot.py:_brody_fit"]}
{"id": "C82", "title": "The rigidity figure compares data and theory at the same L", "statement": "_spectral_rigidity draws the computed points as (L, delta), marks the converged rows, and draws each requested ensemble's curve.  All of Poisson, GOE, GUE, GSE are evaluated at the same argument.  (FALSE of the code: the Poisson curve is evaluated at L, the others at L divided by the mean spacing, which differ unless the mean spacing is 1; and a frame with just the documented columns L and delta raises AttributeError.)", "quantifier": "all frames, spectra and ensemble selections (exact arithmetic)", "why_tests_cant": "Universal over spectra whose mean spacing is not 1.", "anchors": ["empyricalRMT/plot.py:_spectral_rigidity"]}
{"id": "C83", "title": "The level-variance figure draws the theoretical number variance", "statement": "_level_number_variance draws the rows of the frame and the curve of each requested ensemble; its GOE curve is, row by row, the exact orthogonal number variance (twice the unitary one plus (Si(pi L)/pi)^2 - Si(pi L)/pi) for L below 10 and the asymptotic form from there on.  (FALSE of the code for frames whose row labels are not 0..n-1: labels are looked up as positions, so a missing label raises KeyError, a repeated label 0 raises ValueError, and reordered rows use the formula of another row.)", "quantifier": "all frames, labels and ensemble selections; Si, Ci and the quadrature exact", "why_tests_cant": "Needs special functions identified with their integrals for every L.", "anchors": ["empyricalRMT/plot.py:_level_number_variance"]}
{"id": "C84", "title": "The drawn staircase is the empirical step function", "statement": "_step_function draws the step function of the eigenvalues on an even grid over their range: one value per grid point, non-decreasing, ending at the number of eigenvalues.  (FALSE when all eigenvalues are equal: the curve is identically zero.)", "quantifier": "all spectra and grid sizes", "why_tests_cant": "Consequence of the early exit of the array step function.", "anchors": ["empyricalRMT/plot.py:_step_function"]}
{"id": "C85", "title": "The figure of trim iterations has one panel per iteration", "statement": "_plot_trim_iters draws, for each listed iteration, its kept eigenvalues and its outliers at their positions in one panel, in order; TrimIter.summary reports the statistics of that iteration.  (FALSE for a one-panel figure: indexing the single axes object raises.)", "quantifier": "all trim iterations, widths and logarithm flags", "why_tests_cant": "Universal over iteration lists; the one-panel case is not tested.", "anchors": ["empyricalRMT/plot.py:_plot_trim_iters", "empyricalRMT/trim.py:TrimIter.summary"]}
{"id": "C86", "title": "The fit figure compares the unfolding with the step function", "statement": "_unfolded_fit draws the unfolded values and, labelled \"Step Function\", the step function of the spectrum, with point sizes equal to the distance between the two.  (FALSE of the code: for every spectrum without ties the drawn line is the step function minus one, so an unfolding equal to the step function is shown with difference 1 at every point.)", "quantifier": "all strictly ascending spectra and unfoldings of the same length", "why_tests_cant": "A constant offset of one is invisible in a plot of hundreds of values and no test inspects plot data.", "anchors": ["empyricalRMT/plot.py:_unfolded_fit", "empyricalRMT/unfold.py:Unfolded.plot_fit"]}
{"id": "C87", "title": "plot_observables shows the unfolding's own fit, spacings, rigidity and level variance", "statement": "With positive iteration limits, plot_observables draws four panels: the unfolding, its spacing density (spacings up to 5), and the rigidity and level variance computed at every requested L with the theoretical curves of the listed ensembles.  With the default limit the rigidity is first probed at the largest L: if it does not converge there, ConvergenceError; otherwise the figure is that of twice the iterations used.  Without any spacing of at most 5, ValueError.", "quantifier": "all unfoldings, L grids, ensembles, limits and random streams", "why_tests_cant": "Composition of four computations and four drawings over unbounded inputs and random draws.", "anchors": ["empyricalRMT/unfold.py:Unfolded.plot_observables", "empyricalRMT/plot.py:_observables"]}
{"id": "C88", "title": "Plotting methods return the values they plot", "statement": "plot_level_variance returns exactly the points of its figure (the given sigma, or the values computed for each L), and raises ValueError exactly when given values whose length differs from L; plot_spectral_rigidity without data returns exactly the points of its figure.  (FALSE of plot_spectral_rigidity with data given: it returns its argument L, not the L of the data and of the figure.)", "quantifier": "all unfoldings, L grids, data frames and random streams", "why_tests_cant": "The mismatch needs a data frame whose L differs from the default grid, which no test passes.", "anchors": ["empyricalRMT/unfold.py:Unfolded.plot_level_variance", "empyricalRMT/unfold.py:Unfolded.plot_spectral_rigidity"]}
{"id": "C89", "title": "goe_unfolded is generate followed by the semicircle unfolding", "statement": "goe_unfolded(n) returns the generated eigenvalues ascending, and at each position the semicircle count of the original eigenvalue there, within [0, n]; for n > 500 it consumes the same random numbers and returns the same values as Eigenvalues.generate(n, \"goe\") followed by unfold_goe.  generate itself uses the tridiagonal matrix exactly when n > 500 and use_tridiagonal, the full matrix otherwise.  goe_unfolded(0) raises ValueError.", "quantifier": "all sizes, random streams and eigensolvers returning n values", "why_tests_cant": "Equality of two programs for every random stream; sizes above 500 are rarely tested.", "anchors": ["empyricalRMT/construct.py:goe_unfolded", "empyricalRMT/eigenvalues.py:Eigenvalues.generate", "empyricalRMT/eigenvalues.py:Eigenvalues.unfold_goe"]}
{"id": "C90", "title": "correlated_eigs correlates the requested share of the rows with row 0", "statement": "correlated_eigs(percent >= 0) leaves row 0 unchanged, replaces exactly min(n-1, floor(percent/100*n)) distinct other rows by c*(row 0 + noise) with 1 <= |c| < 2, and leaves all other rows as drawn; without noise any two of row 0 and the replaced rows have Pearson correlation 1 or -1.  (FALSE for negative percentages: percent = -100/n, where nothing should be correlated, replaces n-2 rows.)", "quantifier": "all array sizes, percentages, permutations and draws", "why_tests_cant": "The function is random and marked work in progress; no test covers it.", "anchors": ["empyricalRMT/construct.py:correlated_eigs"]}
{"id": "C91", "title": "The direct tridiagonal generator samples the middle of a GOE spectrum", "statement": "_generate_GOE_tridiagonal_direct(n), n >= 1, returns exactly n ascending values: the spectrum of its matrix of order n+2 without the smallest and largest.  (FALSE: that the matrix is a tridiagonal GOE matrix up to scale -- only the diagonal is divided by sqrt 2, so the second moments of its entries match the GOE's at no scale, the off-diagonal ones being twice those of _generate_GOE_tridiagonal.)", "quantifier": "all sizes and all random draws with the moments of normal and chi-square variables", "why_tests_cant": "A distributional statement: no finite sample distinguishes it with certainty; the generator is never tested.", "anchors": ["empyricalRMT/construct.py:_generate_GOE_tridiagonal_direct"]}
{"id": "C92", "title": "Level variance and rigidity do not depend on scale or origin", "statement": "Replacing every level x by a*x + b with a > 0 and every L by a*L leaves all level variances, rigidities (grid of at least 2 points), convergence flags and iteration counts unchanged, for the same random numbers, automatic iteration limit included.", "quantifier": "all spectra, L lists, a > 0, b, limits, tolerances and random streams (exact arithmetic)", "why_tests_cant": "Relates two runs on different spectra with equal random draws, through an unbounded sampling loop.", "anchors": ["empyricalRMT/observables/levelvariance.py:level_number_variance", "empyricalRMT/observables/rigidity.py:spectral_rigidity"]}
{"id": "C93", "title": "Level variance and rigidity do not depend on the storage order", "statement": "The level variances are the same for any reordering of the stored values.  (FALSE of the rigidity: a window not reaching beyond the value stored first contributes 0, so with the largest value first and the smallest last the rigidity is 0 whenever the random numbers are at least L/(2(max-min)).)", "quantifier": "all spectra, permutations, L, limits and random streams", "why_tests_cant": "The loops run on random draws; order matters only for spectra that were not sorted before.", "anchors": ["empyricalRMT/observables/levelvariance.py:sigma_L", "empyricalRMT/observables/rigidity.py:delta_L"]}
{"id": "C94", "title": "Evenly spaced levels have level variance at most 1/4", "statement": "For levels one apart, as long as no sampled window overruns the ends of the spectrum, every window of length L holds floor(L) or floor(L)+1 levels and the level variance is at most 1/4.  (FALSE in general: window centres are drawn from the whole spectrum; 4m+1 levels, L = 2m, two draws give m^2/4.)", "quantifier": "all numbers of levels, origins, L and random streams", "why_tests_cant": "Bounds over all window positions; the boundary effect grows without bound with L.", "anchors": ["empyricalRMT/observables/levelvariance.py:sigma_L"]}
{"id": "C95", "title": "use_sparse only changes the solver", "statement": "(FALSE of the code) from_time_series(use_sparse=True) solves the same eigenvalue problem as use_sparse=False.  For N <= T the sparse solver is given the lower triangle alone: its eigenvalues are the diagonal entries -- all 1 for correlations, whatever the data -- and it is symmetric only if all off-diagonal entries vanish; the call raises unless return_eigenvectors=False is also passed.  For N > T the option is ignored.", "quantifier": "all data matrices with non-constant series, over every real closed field", "why_tests_cant": "Statement about the exact spectrum of a matrix built from arbitrary data; the option is never tested.", "anchors": ["empyricalRMT/eigenvalues.py:Eigenvalues.from_time_series", "empyricalRMT/eigenvalues.py:_eigs_via_transpose"]}
{"id": "C96", "title": "is_symmetric recognises symmetric arrays", "statement": "For square arrays is_symmetric is true iff all mirrored entries differ by at most atol + rtol * (smaller magnitude); the transpose gets the same answer and exactly symmetric arrays are accepted.  (FALSE of other shapes: every 1-D array and every row or column of equal entries is called symmetric, remaining shapes raise ValueError.)", "quantifier": "all sizes, entries and non-negative tolerances (exact arithmetic)", "why_tests_cant": "Universal over matrices and tolerances.", "anchors": ["empyricalRMT/utils.py:is_symmetric"]}
{"id": "C97", "title": "Array helpers: nd_find, flatten_4D, variance", "statement": "nd_find returns the lexicographically first index tuple holding the value, None iff there is none; flatten_4D of an array of two or more dimensions has one row per leading index tuple in row-major order and the last axis as columns, and raises TypeError for 1-D and IndexError for 0-D arrays; variance of two or more values is n/(n-1) times the population variance, non-negative, zero iff all values agree.", "quantifier": "arrays of any number of dimensions and sizes; lists of any length", "why_tests_cant": "Index arithmetic for arbitrary dimensions.", "anchors": ["empyricalRMT/utils.py:nd_find", "empyricalRMT/utils.py:flatten_4D", "empyricalRMT/utils.py:variance"]}
{"id": "C98", "title": "The smoothers fit the points (i-th smallest eigenvalue, i)", "statement": "Every smoothing method returns the steps 1, ..., n; the i-th is at most the number of eigenvalues up to the i-th one, with equality exactly at the last of a group of equal eigenvalues.  The fitting routine of each method is given these points with the documented start, and the smoothed values are the values of the fitted curve: sum c_k x^k, the spline, a exp(-b x), a exp(-b exp(-c x)).", "quantifier": "all ascending spectra, ties included, all methods, degrees, smoothing values and fitting routines", "why_tests_cant": "Universal over spectra and over whatever the fitting routine answers; tests look at plots.", "anchors": ["empyricalRMT/smoother.py:Smoother.fit"]}
{"id": "C99", "title": "Polynomial unfolding inherits the properties of least squares", "statement": "If polynomial fitting minimises the squared residuals: a spectrum whose counting function is a polynomial of at most the chosen degree unfolds to exactly 1, ..., n with all spacings 1; the unfolded values always have mean (n+1)/2; among the fits of fit_all a larger polynomial degree never has a larger mean squared error.", "quantifier": "all spectra in any order, all degrees, every least squares routine (exact arithmetic)", "why_tests_cant": "Quantifies over all spectra and all minimisers.", "anchors": ["empyricalRMT/smoother.py:Smoother.fit", "empyricalRMT/smoother.py:Smoother.fit_all", "empyricalRMT/eigenvalues.py:Eigenvalues.unfold"]}
{"id": "C100", "title": "Polynomial unfolding does not depend on unit, origin or sign of the eigenvalues", "statement": "If polynomial fitting minimises the squared residuals, k*eigs + b (k > 0) unfolds to the same values as eigs, with or without detrending; -eigs unfolds to n + 1 - u in reverse order, so the spacings are the same in reverse order.", "quantifier": "all spectra, k, b and degrees, every least squares routine (exact arithmetic)", "why_tests_cant": "A relation between runs on infinitely many pairs of inputs.", "anchors": ["empyricalRMT/smoother.py:Smoother.fit", "empyricalRMT/eigenvalues.py:Eigenvalues.unfold"]}
{"id": "C101", "title": "Spline unfolding keeps the spacings' spread", "statement": "(FALSE of the code) Spline unfolding leaves the spread of the level spacings to the spectrum.  SciPy's spline reaches a sum of squared residuals of at most s (1 + tol), so with a smoothing value s every unfolded value is within sqrt(s (1 + tol)) of its rank and the spacings' squared distances from 1 sum to at most 4 s (1 + tol), for every spectrum.  With the default s = 1.4 any spectrum of more than 1000 levels gets a mean squared distance below 0.006 (the package's reference for GOE is 0.286).", "quantifier": "all spectra of any size, all smoothing values, every spline routine with SciPy's documented guarantee", "why_tests_cant": "Bound over all spectra and sizes; a fixed test spectrum cannot show that the result is forced.", "anchors": ["empyricalRMT/smoother.py:Smoother.fit", "empyricalRMT/_constants.py:DEFAULT_SPLINE_SMOOTH", "empyricalRMT/eigenvalues.py:Eigenvalues.unfold"]}
{"id": "C102", "title": "generate refuses unknown kinds without touching the random state", "statement": "Eigenvalues.generate with kind uniform raises NotImplementedError, any name other than goe, gue, poisson, uniform and any other object raises ValueError, and the random state is unchanged even when a seed is given; for goe, gue and poisson an exception can only come from seeding or from the eigenvalue solver.", "quantifier": "all sizes, seeds, random states, names and generators", "why_tests_cant": "Universal over names, seeds and random states.", "anchors": ["empyricalRMT/eigenvalues.py:Eigenvalues.generate"]}
{"id": "C103", "title": "The plot methods forward their arguments", "statement": "(FALSE of the code) plot_sorted, plot_distribution, plot_steps and plot_spacings accept the arguments of the drawing functions they forward to, positionally or by keyword.  Any positional argument raises TypeError because the data is passed by keyword to the first parameter; keyword arguments are accepted exactly when the names are distinct options of the drawing function, and then each reaches the option of that name, the others keep their defaults and the object's own values are drawn.", "quantifier": "all argument lists, keyword lists and values", "why_tests_cant": "Universal over argument lists; no test calls these methods with positional arguments.", "anchors": ["empyricalRMT/_eigvals.py:EigVals.plot_sorted", "empyricalRMT/_eigvals.py:EigVals.plot_distribution", "empyricalRMT/_eigvals.py:EigVals.plot_steps", "empyricalRMT/_eigvals.py:EigVals.plot_spacings"]}
{"id": "C104", "title": "Smoother accepts one-dimensional arrays and ignores their order", "statement": "Smoother(eigenvalues) accepts exactly the arrays with one leading axis and otherwise axes of length one (or an empty leading axis), raising TypeError for 0-D arrays and ValueError for all others; it stores the values sorted with NaNs last, so two inputs that are permutations of each other give objects with the same values.", "quantifier": "all arrays of every shape, NaN and infinities included", "why_tests_cant": "Universal over shapes and orders.", "anchors": ["empyricalRMT/smoother.py:Smoother.__init__"]}
{"id": "C105", "title": "The striped legend entry tiles its box", "statement": "HandlerColormap.create_artists with n >= 1 stripes returns n rectangles of equal width that start at the left edge, touch, end exactly at the right edge and have the box's height; the colours are strictly increasing positions in (0, 1), each the relative position of the stripe's centre.", "quantifier": "all numbers of stripes and all boxes (exact arithmetic)", "why_tests_cant": "Universal over sizes; drawing code has no test.", "anchors": ["empyricalRMT/plot.py:HandlerColormap.create_artists"]}
{"id": "C106", "title": "The figure of the sorted eigenvalues", "statement": "_raw_eig_sorted draws exactly the points (i, eigs[i]), scattered or joined according to kind, on the axes passed, but only if figure and axes are both passed, otherwise on new ones; the figure and axes drawn on are those saved, shown and returned.  Any other kind raises ValueError with nothing drawn, saved or shown.", "quantifier": "all eigenvalue lists, modes, kinds, figures, axes and output paths", "why_tests_cant": "Universal over inputs and modes.", "anchors": ["empyricalRMT/plot.py:_raw_eig_sorted", "empyricalRMT/plot.py:_setup_plotting"]}
{"id": "C107", "title": "time_series_eigs returns the spectrum of the sample correlation matrix", "statement": "For data without constant rows and t >= 2, time_series_eigs(n, t) returns what Eigenvalues.from_time_series would compute for the correlations of the same data (n <= t), although the two use different ddof; if the solver's answer is the spectrum, the n values lie in [0, n], sum to n, and for n > t zero occurs at least n - t + 1 times (801 of 1000 with the defaults).  Any dist other than 'normal' raises UnboundLocalError.", "quantifier": "all n, all t >= 2, all data matrices without constant rows over any real closed field, all eigensolvers", "why_tests_cant": "Universal over sizes and data; the function is random and untested.", "anchors": ["empyricalRMT/construct.py:time_series_eigs", "empyricalRMT/correlater.py:correlate_fast"]}
{"id": "C108", "title": "Spectral rigidity measures the distance to a line", "statement": "(FALSE of the code at the ends of the spectrum) The sampled rigidity of a window is small when the staircase is close to a line there.  If the staircase stays within e of some line on the window's grid of n points, the value lies in [0, 4/3 n/(n-1) e^2]; for evenly spaced levels it is at most n/(3(n-1)) for every window inside the spectrum, and the returned value lies between 0 and the largest sample.  But centres are drawn over the whole spectrum without keeping the window inside it: for 41 evenly spaced levels and L = 20 the window about the lowest level gives a value above 2 while the middle one gives less than 1/8.", "quantifier": "all level sequences, windows, grids and draws (exact arithmetic)", "why_tests_cant": "Universal over levels, windows and grid sizes; the test compares only a random GOE average with a curve.", "anchors": ["empyricalRMT/observables/rigidity.py:delta_L", "empyricalRMT/observables/rigidity.py:_int_simps_nonunif", "empyricalRMT/observables/rigidity.py:_slope", "empyricalRMT/observables/rigidity.py:_intercept"]}
{"id": "C109", "title": "The binary64 evaluation grid is ordered", "statement": "(FALSE of the code for subnormal ranges) The grid np.linspace(lo, hi, n) computed in binary64 is ascending, finite, starts at lo and ends at hi, so the two-index staircase used for the rigidity is the exact count at every grid point, whenever |lo|, |hi| <= 2^1000, hi - lo >= 2^-900 and 2 <= n <= 2^50.  For a range of a few subnormal steps the grid is not ascending and the staircase is wrong; for a range above the largest float the grid contains infinities and NaN.", "quantifier": "all finite binary64 ends in the stated range, all grid sizes up to 2^50", "why_tests_cant": "Rounding of every grid point over all binary64 inputs cannot be enumerated.", "anchors": ["empyricalRMT/observables/rigidity.py:delta_L", "empyricalRMT/observables/step.py:_step_function_fast"]}
{"id": "C110", "title": "Random centres stay inside the spectrum in binary64", "statement": "(FALSE of the code as to the half-open interval) np.random.uniform(lo, hi) computed in binary64 as lo + (hi - lo) * r, for r a multiple of 2^-53 below one, never overflows nor leaves [lo, hi] when hi - lo does not overflow; the upper end, which the documentation excludes, is returned for some r below one.", "quantifier": "all finite binary64 ends, all draws r <= 1 - 2^-53", "why_tests_cant": "Universal over binary64 pairs and draws; the excluded end is hit with probability about 2^-53.", "anchors": ["empyricalRMT/observables/levelvariance.py:sigma_L", "empyricalRMT/observables/rigidity.py:delta_L"]}
{"id": "C111", "title": "Spacings in binary64", "statement": "For finite binary64 eigenvalues, every computed spacing is not NaN, is non-negative, is zero exactly when the two sorted neighbours are equal, and is within a relative error 2^-53 of the exact gap; it is infinite only when the exact gap is at least 2^1023.", "quantifier": "all arrays of finite binary64 values of any length", "why_tests_cant": "Universal over binary64 pairs including subnormals and the largest values.", "anchors": ["empyricalRMT/_eigvals.py:EigVals.spacings"]}
{"id": "C112", "title": "The compensated running means are accurate in binary64", "statement": "Evaluated operation by operation in binary64, the running mean kept by the rigidity loop is finite and within 41 * 2^-53 * B of the exact mean of the samples when every sample is finite of magnitude at most B, for every number of iterations up to 2^50; the level variance of at most 2^26 levels is finite and within 2^-46 N^2 of the exact population variance of the N-level window counts.  Neither bound grows with the number of iterations.", "quantifier": "all samples, spectra without NaN, window lengths, tolerances, draws and iteration limits up to 2^50", "why_tests_cant": "Rounding error bounds over all inputs and iteration counts.", "anchors": ["empyricalRMT/utils.py:kahan_add", "empyricalRMT/observables/levelvariance.py:sigma_L", "empyricalRMT/observables/rigidity.py:delta_L"]}
{"id": "C113", "title": "from_time_series solves the sample covariance or correlation matrix of any 2-D data", "statement": "from_time_series hands exactly one matrix to the dense eigensolver: for N >= 2 series of T >= 2 points, taken along the axes that time_axis names, the N x N matrix of sample covariances (ddof 1) or Pearson correlations when N <= T, the T x T transposed product otherwise; the result is the solver's exception or all its values ascending.  (FALSE for smaller data: one series always raises, because np.cov of one series is a number, several series of one point raise ZeroDivisionError, no series or points raise; and the documentation of time_axis=0, data.shape == (n, T), is right only for square data.)", "quantifier": "all 2-D arrays of every shape, both axes, all eigensolvers (exact arithmetic)", "why_tests_cant": "Universal over shapes, data and solver answers; tests use two fixed shapes.", "anchors": ["empyricalRMT/eigenvalues.py:Eigenvalues.from_time_series", "empyricalRMT/eigenvalues.py:_eigs_via_transpose", "empyricalRMT/correlater.py:correlate_fast"]}
{"id": "C114", "title": "The expected curves are non-negative and ordered by level repulsion", "statement": "On the default range of L the expected rigidity and level variance are positive and decrease from Poisson over GOE and GUE to GSE.  Proved for the level variance from L = 1/2 on, for the rigidity from L = 5 on, and for GOE below Poisson at every L > 0.  (FALSE for the rigidity at small L: up to L = 2 the order of GOE, GUE and GSE is reversed, up to L = 1 the GOE value is negative, including the first value GOE.spectral_rigidity() returns.)", "quantifier": "all real L > 0 in the stated ranges, all values of the Euler constant in [0.577, 0.578]", "why_tests_cant": "Universal over real L; needs bounds on pi, logarithms and exponentials.", "anchors": ["empyricalRMT/ensemble.py:GOE.spectral_rigidity", "empyricalRMT/ensemble.py:GUE.spectral_rigidity", "empyricalRMT/ensemble.py:GSE.spectral_rigidity", "empyricalRMT/ensemble.py:GOE.level_variance", "empyricalRMT/ensemble.py:GUE.level_variance", "empyricalRMT/ensemble.py:GSE.level_variance"]}
{"id": "C115", "title": "Counts and proportions of a trim iteration", "statement": "In every recorded trim iteration inlier_length + outlier_length is the number of its values, at least one inlier remains, 0 < proportion_kept <= 1, the next iteration has exactly inlier_length values, and its proportion_removed is 1 - proportion_kept of this one.  (FALSE: that proportion_kept and proportion_removed of the same iteration add up to 1; the sum falls short by the share of its outliers.)", "quantifier": "all spectra, detectors, fits, limits and iterations (exact arithmetic)", "why_tests_cant": "Universal over detector behaviours.", "anchors": ["empyricalRMT/trim.py:TrimIter.inlier_length", "empyricalRMT/trim.py:TrimIter.outlier_length", "empyricalRMT/trim.py:TrimIter.proportion_kept", "empyricalRMT/trim.py:TrimIter.proportion_removed"]}
{"id": "C116", "title": "mkdirp makes the directory, make_directory only makes sure something is there", "statement": "mkdirp(path) leaves a directory at path, adds only path and its missing ancestors, changes nothing that existed, and does nothing on a second call; it fails exactly when a regular file stands at the path (FileExistsError) or above it (NotADirectoryError).  make_directory has the same effect.  (FALSE of make_directory when a regular file stands at the path: it reports success without making a directory.)", "quantifier": "all well-formed file trees and paths", "why_tests_cant": "Universal over file trees.", "anchors": ["empyricalRMT/utils.py:mkdirp", "empyricalRMT/utils.py:make_directory"]}
{"id": "C117", "title": "The level-variance figure draws the curves the ensembles report", "statement": "Every theoretical curve in the level-variance figure equals its ensemble's level_variance at each L > 0, except that the GOE curve below L = 10, drawn from the integral formula, differs from GOE.level_variance by less than 1/(16 L^2); at the change of formula at L = 10 the drawn curve jumps by less than 1/1600.", "quantifier": "all results with row labels 0..n-1 and positive L, all ensembles drawn; the sine integral is characterised by its derivative and limit, quadrature is exact", "why_tests_cant": "Universal over real L; relates two independent formulas through asymptotics of the sine and cosine integrals.", "anchors": ["empyricalRMT/plot.py:_level_number_variance", "empyricalRMT/ensemble.py:GOE.level_variance", "empyricalRMT/ensemble.py:GUE.level_variance", "empyricalRMT/ensemble.py:GSE.level_variance", "empyricalRMT/ensemble.py:Poisson.level_variance"]}
{"id": "C118", "title": "What method 'spacing' of fit_brody maximises", "statement": "On distinct non-negative spacings the objective orders beta by the product of the increments of the Brody distribution function between neighbouring sorted spacings, and with an exact minimiser the fitted beta maximises that product over [1e-5, 1 - 1e-5].  (FALSE that this is maximum spacing estimation: the increments below the smallest and above the largest value are left out, and for any two values of beta there is a sample on which that reverses the choice; equal spacings are dropped, so on a sample of equal spacings every beta is as good as any other.)", "quantifier": "all samples of distinct non-negative spacings, all beta in [0, 1], all exact minimisers; Gamma characterised by its integral", "why_tests_cant": "Universal over samples and parameters.", "anchors": ["empyricalRMT/brody.py:fit_brody_max_spacing", "empyricalRMT/brody.py:fit_brody"]}
{"id": "C119", "title": "Expected number of levels in a random window", "statement": "The number of levels that sigma_L counts in a window of length L, averaged over all uniformly drawn centres, is the sum over levels of the share of centres within L/2 of the level; it is at most L over the mean spacing, with equality exactly when no level but the two extreme ones lies within L/2 of an end of the spectrum.  (FALSE that an unfolded spectrum gives L on average: on a ladder of unit spacing every L above 2 gives less.)", "quantifier": "all spectra with at least two distinct levels, all window lengths (exact arithmetic, continuous uniform centres)", "why_tests_cant": "An average over a continuum of random centres for all spectra.", "anchors": ["empyricalRMT/observables/levelvariance.py:sigma_L"]}
{"id": "C120", "title": "The plot methods of Unfolded forward their options", "statement": "plot_nnsd, plot_next_nnsd, plot_nnnsd, plot_brody_fit and plot_fit hand the drawing function the object's own unfolded values (plot_fit also the original eigenvalues) and every option, given by position or by keyword, under its own name; options not given keep the method's documented default; a call with too many, repeated or unknown arguments is a TypeError.  (FALSE that the two ways of drawing the spacings agree by default: the inherited plot_spacings drops spacings above 5, plot_nnsd above 10; and plot_next_nnsd does not accept the kde_bw that plot_nnsd takes.)", "quantifier": "all argument lists and keyword lists", "why_tests_cant": "Universal over ways of calling; tests call each method with one or two options.", "anchors": ["empyricalRMT/unfold.py:Unfolded.plot_nnsd", "empyricalRMT/unfold.py:Unfolded.plot_next_nnsd", "empyricalRMT/unfold.py:Unfolded.plot_nnnsd", "empyricalRMT/unfold.py:Unfolded.plot_brody_fit", "empyricalRMT/unfold.py:Unfolded.plot_fit", "empyricalRMT/_eigvals.py:EigVals.plot_spacings"]}
{"id": "C121", "title": "Expected value of the sampled level variance", "statement": "For window centres uniform on the spectrum the mean, mean square and variance of the number of levels in a window are the closed sums over levels and pairs of levels of the share of centres that reach them.  (FALSE that sigma_L is on average that variance: with exactly k windows its average over all independent centres is (1 - 1/k) times it.)", "quantifier": "all spectra with at least two distinct levels, all window lengths L >= 0, all numbers of windows k >= 1 (exact arithmetic, independent continuous uniform centres, no early stop)", "why_tests_cant": "An average over a k-dimensional continuum of random centres for all spectra.", "anchors": ["empyricalRMT/observables/levelvariance.py:sigma_L"]}
{"id": "C122", "title": "Expected value of the sampled rigidity", "statement": "The rigidity sampled at a window centre is an integrable function of the centre, and delta_L with k windows at independent uniform centres returns on average its mean over all centres.  (FALSE for k <= 1000: the average is k/1000 of that mean below 1000 windows and 0.999 of it at 1000; true for every k > 1000.)  The unused _delta_grid gives the mean for every k >= 1 and does not depend on the order of the centres.", "quantifier": "all ascending spectra with lowest level below the highest, all L > 0, gridsizes >= 2, both quadrature rules, all k >= 2 (exact arithmetic, independent continuous uniform centres, no early stop)", "why_tests_cant": "An average over a k-dimensional continuum of random centres for all spectra.", "anchors": ["empyricalRMT/observables/rigidity.py:delta_L", "empyricalRMT/observables/rigidity.py:_delta_grid"]}
{"id": "C123", "title": "The expected rigidity curves follow from the expected number variances", "statement": "For each ensemble the reported rigidity curve is the Pandey transform of the reported number variance: Delta_3(L) = (2/L^4) times the integral over (0, L] of (L^3 - 2 L^2 r + r^3) Sigma^2(r) dr, and no other curve is.", "quantifier": "all four ensembles, all L > 0, any value of Euler's constant (exact reals; improper integral at 0)", "why_tests_cant": "An improper integral identity for every L.", "anchors": ["empyricalRMT/ensemble.py:Poisson.spectral_rigidity", "empyricalRMT/ensemble.py:Poisson.level_variance", "empyricalRMT/ensemble.py:GOE.spectral_rigidity", "empyricalRMT/ensemble.py:GOE.level_variance", "empyricalRMT/ensemble.py:GUE.spectral_rigidity", "empyricalRMT/ensemble.py:GUE.level_variance", "empyricalRMT/ensemble.py:GSE.spectral_rigidity", "empyricalRMT/ensemble.py:GSE.level_variance"]}
{"id": "C124", "title": "The limit max_trim in binary64", "statement": "In binary64 every recorded trim removes at most the share max_trim + 2^-52 of the eigenvalues, and a trim is only refused for its size when it removes more than max_trim - 2^-52.  (FALSE that a trim of exactly the share max_trim is always allowed: of 10 eigenvalues a trim of 3 is refused with max_trim=0.3, while a trim of 6 is kept with max_trim=0.6.)", "quantifier": "all spectra of fewer than 2^53 eigenvalues, all finite max_trim, all detectors and smoothers, any number of iterations", "why_tests_cant": "Universal over lengths and float limits; the boundary depends on rounding.", "anchors": ["empyricalRMT/trim.py:TrimReport.__init__", "empyricalRMT/trim.py:TrimIter.proportion_removed"]}
{"id": "C125", "title": "Windows of the level variance in binary64", "statement": "In binary64 the number of levels counted about a centre c lies between the exact numbers for the window shortened and lengthened by 2^-52 (|c| + |L|) + 2^-1074 at either end, and is the exact number when no level is that near to an end; then the computed level variance is within 2^-46 N^2 of the exact population variance of the exact counts about the drawn centres.  (FALSE without that condition: a level just outside can be counted.)", "quantifier": "all spectra of 1 to 2^26 finite floats of magnitude at most 2^900, all such L, all random numbers in [0, 1 - 2^-53], up to 2^50 iterations", "why_tests_cant": "Universal over float inputs; ties at rounding level are not reached by sampling.", "anchors": ["empyricalRMT/observables/levelvariance.py:sigma_L"]}
{"id": "C126", "title": "The score against the package's own spacing laws", "statement": "The Poisson, GOE, GUE and GSE spacing laws of the package have mean one and variances 1, 4/pi - 1, 3 pi/8 - 1 and 45 pi/128 - 1.  (FALSE that spacings following the package's GOE law get the best score, zero: the score's reference variance 0.286 is not that of the law, and an unfolding with exactly the law's mean and variance scores between -0.05 and -0.04; for Poisson, GUE and GSE spacings the score is about 2.5, -0.38 and -0.63.)", "quantifier": "all unfoldings of at least three values, all four ensembles (exact reals; improper integrals)", "why_tests_cant": "Improper integrals and a statement about every unfolding with given moments.", "anchors": ["empyricalRMT/trim.py:TrimReport.__evaluate_unfolding", "empyricalRMT/ensemble.py:Poisson.nnsd", "empyricalRMT/ensemble.py:GOE.nnsd", "empyricalRMT/ensemble.py:GUE.nnsd", "empyricalRMT/ensemble.py:GSE.nnsd"]}
{"id": "C127", "title": "The sampled rigidity tends to the documented one", "statement": "Every window has exactly one exact rigidity: the least, over all lines, of the mean squared distance between the staircase and the line (README.md).  With n >= 3 grid points the value sampled at a centre is within 160 N^2/(n-1) of it, N being the number of levels in the window, so it tends to it as the grid is refined; and the average of the sampled value over all centres is within 160 N^2/(n-1) of the average of the exact rigidity, N being the number of levels.", "quantifier": "all sorted spectra, all L > 0, both quadrature rules, all grids of n >= 3 points, all centres whose window does not end at the lowest level (exact reals)", "why_tests_cant": "An error bound against an integral, for every spectrum and every grid size.", "anchors": ["empyricalRMT/observables/rigidity.py:delta_L", "empyricalRMT/observables/rigidity.py:_delta_grid", "empyricalRMT/observables/rigidity.py:_sq_lin_deviation", "empyricalRMT/observables/rigidity.py:_int_simps_nonunif", "empyricalRMT/observables/rigidity.py:_integrate_fast"]}
{"id": "C128", "title": "Mean squared error of the Monte-Carlo rigidity", "statement": "With exactly k > 1000 independent uniform centres the rigidity returned (the mean of the last 1000 running means) averages to the mean over all centres, with a mean squared error of at most V/(k - 999), V being the variance of the sampled value over the centres; on a given grid of k centres it is exactly V/k; and against the documented rigidity averaged over all centres the mean squared error is at most N^4/(4(k - 999)) + (160 N^2/(n-1))^2 for n grid points and N levels.", "quantifier": "all sorted spectra with two different levels, all L > 0, both quadrature rules, all grids, all k > 1000 (exact reals, tolerance <= 0 so that every window is used)", "why_tests_cant": "The average is an integral over a k-dimensional cube.", "anchors": ["empyricalRMT/observables/rigidity.py:delta_L", "empyricalRMT/observables/rigidity.py:_delta_grid"]}
{"id": "C129", "title": "Mean squared error of the Monte-Carlo level variance", "statement": "With exactly k independent uniform centres the level variance returned has a mean squared error of at most 4 N^4/k against the number variance (over all centres), N being the number of levels; so the probability that it misses the number variance by e or more exists and is at most 4 N^4/(k e^2), which vanishes as k grows although the expected value is too small by the factor 1 - 1/k.", "quantifier": "all spectra with two different levels, all L >= 0, all k >= 1, all e > 0 (exact reals, tolerance <= 0 so that every window is used)", "why_tests_cant": "The average is an integral over a k-dimensional cube.", "anchors": ["empyricalRMT/observables/levelvariance.py:sigma_L"]}
{"id": "C130", "title": "The exact rigidity of a window in closed form", "statement": "The exact rigidity of a window equals the double sum over the levels of min(a,b) - ab - 3a(1-a)b(1-b), a and b being the shares of the window above the two levels; for evenly spaced levels and a window of whole length m inside them it is 1/12 - 12(1/12 - p(1-p)/2)^2/m^2, p being the offset of the window, so it lies between 1/12 - 1/(12 m^2) and 1/12 for every m, and the value sampled by delta_L is within 160 m^2/(n-1) of it.", "quantifier": "all spectra, all L > 0, all centres, all n >= 3 grid points (exact reals)", "why_tests_cant": "The minimum over all lines of an integral, for every spectrum and window.", "anchors": ["empyricalRMT/observables/rigidity.py:delta_L", "empyricalRMT/observables/rigidity.py:_slope", "empyricalRMT/observables/rigidity.py:_intercept", "empyricalRMT/observables/rigidity.py:_sq_lin_deviation"]}
{"id": "C131", "title": "The Poisson curves for the rigidity and the level variance are those of independent levels", "statement": "For k independent levels uniform on an interval and a window of length L inside it, the exact rigidity averaged over the levels is Poisson.spectral_rigidity at the mean number of levels in the window (L at unit density), for every k; the number of levels in the window has that mean m, and its variance is Poisson.level_variance at m less m^2/k, which vanishes as the spectrum grows.", "quantifier": "all intervals, all windows inside them, all k >= 1 (exact reals)", "why_tests_cant": "The average is an integral over a k-dimensional cube of a minimum over all lines.", "anchors": ["empyricalRMT/ensemble.py:Poisson.spectral_rigidity", "empyricalRMT/ensemble.py:Poisson.level_variance", "empyricalRMT/observables/rigidity.py:delta_L", "empyricalRMT/observables/levelvariance.py:sigma_L"]}
{"id": "C132", "title": "The spacing laws of independent levels", "statement": "Among distinct levels the spacing after a level exceeds h exactly when no other level lies within h above it, and the next-nearest spacing exactly when at most one does; of k independent uniform levels the number in an interval is binomial; so at unit density the probability that the nearest spacing exceeds s tends to 1 - Poisson.nnsd_cdf(s), and that half the next-nearest exceeds s tends to (1+2s)exp(-2s), of density 4s exp(-2s).  (FALSE of the code: Poisson.nnnsd, a Brody curve with beta = 0.6, is not this density, whatever the value of the Gamma function.)", "quantifier": "all distinct levels, all intervals, all k and s >= 0 (exact reals)", "why_tests_cant": "A limit of integrals over k-dimensional cubes.", "anchors": ["empyricalRMT/ensemble.py:Poisson.nnsd_cdf", "empyricalRMT/ensemble.py:Poisson.nnsd", "empyricalRMT/ensemble.py:Poisson.nnnsd", "empyricalRMT/_eigvals.py:EigVals.spacings"]}
{"id": "C133", "title": "Trim reports and automatic unfolding do not depend on unit or origin", "statement": "Replacing every eigenvalue v by k v + b, k > 0, leaves the trim report's clusters, trim indices, unfolded columns, spacings, errors and summary unchanged and rescales only its eigenvalues; trim_unfold_auto then returns the same unfolded values, and the rescaled originals.", "quantifier": "all eigenvalues, all k > 0 and b, all polynomial degrees, with or without detrending (exact reals; polynomial smoothers only, np.polyfit taken to return a least-squares polynomial, the outlier detector to be unaffected by unit and origin)", "why_tests_cant": "Universal over spectra and maps of the axis, through iterated trimming, fitting and selection.", "anchors": ["empyricalRMT/trim.py:TrimReport.__init__", "empyricalRMT/trim.py:TrimReport._get_autounfold_vals", "empyricalRMT/eigenvalues.py:Eigenvalues.trim_unfold_auto", "empyricalRMT/eigenvalues.py:Eigenvalues.trim_report"]}
{"id": "C134", "title": "Which levels unfold_poisson unfolds to unit density", "statement": "The levels unfold_poisson sends to at most N(1+s) are exactly those in an interval [-a, a]; for levels of density exp(-|x|)/2 this has probability s, so they are unfolded to unit density.  (FALSE of the levels the package generates: for standard normal levels the density at N(1+s) is sqrt(2/pi) exp(h - h^2/2), h = -ln(1-s): less than 0.9 at the lower end, more than 1 at s = 1 - 1/e, tending to 0 at the upper end.)", "quantifier": "all non-empty spectra, all 0 <= s < 1 (quadrature taken as the exact integral)", "why_tests_cant": "A statement about integrals of densities over all real s.", "anchors": ["empyricalRMT/eigenvalues.py:Eigenvalues.unfold_poisson", "empyricalRMT/eigenvalues.py:Eigenvalues.generate", "empyricalRMT/construct.py:_generate_poisson"]}
{"id": "C135", "title": "GOE spacing law is exact for generated matrices of order two", "statement": "For the full GOE matrix of order two drawn from four independent standard normal numbers, the spacing of its two eigenvalues is at most sqrt(2 pi) s with probability exactly GOE.nnsd_cdf(s); for the tridiagonal one, drawn from two normal numbers and a chi-square number with one degree of freedom, the same holds with sqrt(pi) s.", "quantifier": "all real s, every eigensolver returning the ascending eigenvalues (exact reals; the probability as an iterated integral over the draws)", "why_tests_cant": "A probability is an integral over all random draws; sampling only estimates it.", "anchors": ["empyricalRMT/construct.py:_generate_GOE_matrix", "empyricalRMT/construct.py:_generate_GOE_tridiagonal", "empyricalRMT/ensemble.py:GOE.nnsd_cdf", "empyricalRMT/ensemble.py:GOE.nnsd"]}
{"id": "C136", "title": "GUE spacing law is exact for generated matrices of order two", "statement": "For the GUE matrix of order two drawn from eight independent standard normal numbers, the spacing of its two eigenvalues is at most (4/sqrt pi) s with exactly the probability the density GUE.nnsd gives to [0, s].", "quantifier": "all s >= 0, every eigensolver returning the ascending eigenvalues (exact reals; the probability as an iterated integral over the draws)", "why_tests_cant": "A probability is an integral over all random draws; sampling only estimates it.", "anchors": ["empyricalRMT/eigenvalues.py:Eigenvalues.generate", "empyricalRMT/ensemble.py:GUE.nnsd"]}
{"id": "C137", "title": "The exponential curve is bounded by its asymptote; which parameter is the intercept", "statement": "For a, c, d > 0 the curve exponential(x, a, b, c, d) starts at b - a, is strictly increasing on x >= 0, stays strictly between b - a and b for x > 0, tends to b, and equals b - a exp(-c t) at x = t^d.  Its docstring says that b is the intercept.  (The docstring is FALSE of the code: for a <> 0 the value at zero is never b.)", "quantifier": "all positive parameters, all x >= 0", "why_tests_cant": "Analytic statement about an unbounded domain; sampled points cannot establish monotonicity or the limit.", "anchors": ["empyricalRMT/exponentials.py:exponential"]}
{"id": "C138", "title": "The generated GOE and GUE matrices have no preferred basis and no preferred sign", "statement": "For every orthogonal Q, replacing the n x n standard normal draws G of the full GOE matrix by Q G Q^T is a linear isometry of the draws, keeps their joint density, and turns the generated matrix M into Q M Q^T; for every unitary U the same holds for the 2 n^2 draws of the GUE matrix and U M U^H.  Every average over the draws is the same for the full GOE matrix and for its negative.", "quantifier": "all sizes, all orthogonal or unitary matrices, all draws, all functions with an average (exact reals)", "why_tests_cant": "Quantifies over a continuous group and over all draws; sampling only estimates laws.", "anchors": ["empyricalRMT/construct.py:_generate_GOE_matrix", "empyricalRMT/eigenvalues.py:Eigenvalues.generate"]}
{"id": "C139", "title": "Mean squares of the generated eigenvalues, and the density unfold_goe assumes", "statement": "For every eigensolver that diagonalises symmetric (Hermitian) matrices, the eigenvalues of the full GOE matrix of size n have average sum 0, variance of the sum 2n and average sum of squares n(n+1); the sum of squares of those of the tridiagonal one is exactly the sum of squares of the n + n(n-1)/2 standard normal numbers behind its draws, on average n(n+1)/2; for the GUE matrix the average is n^2.  The level density integrated by unfold_goe has sum of squares n^2/2, which fits the tridiagonal matrix up to the factor 1 + 1/n.  (It is FALSE that it fits the full matrix: there the average is more than twice as large at every size.)", "quantifier": "all sizes n (n > 0 for the density), every diagonalising eigensolver (exact reals; averages as iterated integrals over the draws)", "why_tests_cant": "Averages over all random draws at every size; sampling only estimates them.", "anchors": ["empyricalRMT/construct.py:_generate_GOE_matrix", "empyricalRMT/construct.py:_generate_GOE_tridiagonal", "empyricalRMT/eigenvalues.py:Eigenvalues.generate", "empyricalRMT/eigenvalues.py:Eigenvalues.unfold_goe"]}
{"id": "C140", "title": "The unit of the data: correlations and covariances in from_time_series and trim_marchenko_pastur", "statement": "Replacing every series x_i by a_i x_i + b_i with a_i > 0 leaves the object built by from_time_series from correlations unchanged, whatever the eigensolver.  Built from covariances, replacing the data by a x_i + b_i multiplies every eigenvalue by a^2 (for an eigensolver whose output scales with the matrix) while the sizes and the stored Marchenko-Pastur end points stay the same.  (It is FALSE that which eigenvalues count as signal does not depend on the unit: for covariances every eigenvalue is signal in a small enough unit and none is in a large enough one, with shifted end points or without.)", "quantifier": "all data with at least two series and two times, all scales and origins; correlations need every series to vary", "why_tests_cant": "Quantifies over all data sets, all changes of unit, and eigensolvers.", "anchors": ["empyricalRMT/eigenvalues.py:Eigenvalues.from_time_series", "empyricalRMT/eigenvalues.py:Eigenvalues.trim_marchenko_pastur", "empyricalRMT/eigenvalues.py:_eigs_via_transpose"]}
{"id": "C141", "title": "The average characteristic polynomial of the generated GOE and GUE matrices", "statement": "Over the random draws, and for every eigensolver that diagonalises symmetric matrices, the product of x - lambda over the eigenvalues of the tridiagonal matrix of size n averages to 2^-n H_n(x), H_n the Hermite polynomial; for the full matrix of the same kind it averages to the same polynomial on a scale larger by sqrt 2, and for the generated GUE matrix, with every eigensolver that diagonalises Hermitian matrices, to exactly what it is for the full GOE matrix.  The zeros of the first lie strictly inside the band [-sqrt(2n), sqrt(2n)] of unfold_goe, where the density it integrates is positive.  (It is FALSE that those of the second do: at size seven one of them is beyond the band, where the unfolding function is flat.)", "quantifier": "all sizes n, all real x, every diagonalising eigensolver (exact reals; averages as iterated integrals over the draws)", "why_tests_cant": "Averages over all random draws at every size and every x; sampling only estimates them.", "anchors": ["empyricalRMT/construct.py:_generate_GOE_matrix", "empyricalRMT/construct.py:_generate_GOE_tridiagonal", "empyricalRMT/eigenvalues.py:Eigenvalues.generate", "empyricalRMT/eigenvalues.py:Eigenvalues.unfold_goe"]}
{"id": "C142", "title": "Eigenvalues of the covariances of pure noise, and the Marchenko-Pastur law on the stored end points", "statement": "For n series of t independent standard normal values (n <= t, or n > t where the transposed product is diagonalised instead), from_time_series with covariance=True and trim_zeros=False always returns an object with min(n, t) eigenvalues, for every solver that diagonalises symmetric matrices of that order.  Over the random values the sum of the eigenvalues averages to n and the sum of their squares to n (1 + (n+1)/(t-1)).  The Marchenko-Pastur law supported between the stored end points, n times sqrt((hi-x)(x-lo)) / (2 pi x n/t), has exactly the first sum; its sum of squares n (1 + n/t) is too small at every size, by n (n+t)/(t(t-1)).", "quantifier": "all n, t >= 2, every diagonalising eigensolver, every value of the ignored zeros argument (exact reals; averages as iterated integrals over the draws)", "why_tests_cant": "Averages over all random data at every pair of sizes; sampling only estimates them.", "anchors": ["empyricalRMT/eigenvalues.py:Eigenvalues.from_time_series", "empyricalRMT/eigenvalues.py:_eigs_via_transpose"]}
{"id": "C143", "title": "What the histogram helper of the curve comparison computes, and when it raises its impossible error", "statement": "For two non-empty curves and m bins, Compare.__histograms either raises RuntimeError or returns the m + 1 equally spaced end points between the smallest and the largest value of both curves, and two lists of m counts.  It raises the error the code calls impossible exactly when, for one of the curves and for every j < m, at least m - j values are at or above end point j; in particular whenever every bin holds a value of one of the curves, and always for m = 0 and m = 1.  When it returns, the count of bin i is i plus the number of values strictly between the two values at which the loop left bins i - 1 and i; so bin 0 is 0 and bin i + 1 holds at least i + 1, and at most i + 1 plus the number of values in bin i (one less when there are any).  The pair it returns is the pair of histograms.  (FALSE of the code: it never is, unless all values of both curves are equal.)  An empty curve raises IndexError, m = -1 IndexError, a smaller m ValueError.", "quantifier": "all pairs of non-empty curves, all numbers of bins (exact reals)", "why_tests_cant": "Universal over curves and bin numbers; the function is private, never called, and so untested.", "anchors": ["empyricalRMT/compare.py:Compare.__histograms"]}
{"id": "C144", "title": "Printing and drawing the steps of a trim report, and what a report contains by default", "statement": "For every report of k iterations, plot_trim_steps with log_info prints k lines, the i-th holding the number, the percentage removed and the trim indices of the i-th iteration and the trimmed means, over its smoothers, of the mean spacing, of the spacing variance and of the mean squared error, and then one legend line; without log_info it prints nothing.  With at least two columns, or at least two iterations, the figure has one panel per iteration, only the first one titled \"No trim\", every panel shows exactly the values the previous one marked as inliers, and the remaining cells are empty.  It can draw a report of any number of iterations in any number of columns (FALSE of the code: a report of one iteration in one column prints its lines and then raises AttributeError).  Called without arguments trim_report fits the smoothers its documentation names as defaults (FALSE of the code: the report has the columns poly_3 to poly_11 and gompertz and no spline), and it makes at most seven rounds of trimming.", "quantifier": "all spectra, detectors, fit results, numbers of iterations, widths (exact reals)", "why_tests_cant": "Universal over reports; tests never look at the printed lines or at the panels, and use neither one column nor the default arguments' column names.", "anchors": ["empyricalRMT/trim.py:TrimReport.plot_trim_steps", "empyricalRMT/plot.py:_plot_trim_iters", "empyricalRMT/eigenvalues.py:Eigenvalues.trim_report"]}
{"id": "C145", "title": "Marchenko-Pastur trimming in double precision", "statement": "In IEEE double precision, for every non-empty list of finite eigenvalues of magnitude at most 2^900 and all 1 <= N, T <= 2^50, trim_marchenko_pastur succeeds; its two thresholds are finite and within 2^-49 * c * (1 + sqrt(N/T))^2 of the exact Marchenko-Pastur ends, where c is 1 for the unshifted ends and 1 + |eig_max / N| for the shifted ones; it returns, in ascending order and with multiplicity, exactly the eigenvalues beyond the computed thresholds (above the upper one, or strictly between both); and if no eigenvalue lies within that distance of an exact end these are exactly the eigenvalues the exact thresholds select.  The last condition is not needed (FALSE of the code: for N = 4, T = 9 the double nearest to 25/9 is below the exact upper end and is returned as signal).", "quantifier": "all finite spectra up to 2^900, all N, T up to 2^50, both selections, both thresholds (IEEE-754 binary64)", "why_tests_cant": "Universal statement about rounding errors; tests compare with the same rounded formula.", "anchors": ["empyricalRMT/eigenvalues.py:Eigenvalues.trim_marchenko_pastur"]}
{"id": "C146", "title": "The rigidity in double precision is a finite number", "statement": "In IEEE double precision, for every non-empty ascending list of at most 2^40 levels, none NaN, every window length L between 2^-20 and 2^40, every centre of magnitude at most 2^26 * L and every grid of 3 to 2^14 points, the value sampled for the rigidity by either integration rule is a finite number and is not negative.  So for finite levels of magnitude at most 2^26 * L, any draws in [0, 1 - 2^-53], any tolerance and at most 2^50 iterations, the returned rigidity is a finite number, neither NaN nor infinite.  No relation between the levels and L is needed (FALSE of the code: for L = 2^-60 and the levels 1, 2 all grid points coincide, the Simpson rule divides 0 by 0 and the rigidity is returned as NaN).", "quantifier": "all spectra, windows, centres, grids and draws in the stated ranges, both rules (IEEE-754 binary64)", "why_tests_cant": "Universal over spectra and draws and about overflow, cancellation and division by zero; tests run a few random spectra.", "anchors": ["empyricalRMT/observables/rigidity.py:delta_L", "empyricalRMT/observables/rigidity.py:_slope", "empyricalRMT/observables/rigidity.py:_int_simps_nonunif", "empyricalRMT/observables/rigidity.py:_integrate_fast"]}
{"id": "C147", "title": "The package can be imported on every platform", "statement": "(FALSE of the code on Windows; the exact platforms and modules are proved instead.) Each of the 22 modules of the package can be imported exactly when all constants it takes from _constants.py exist on the platform and all modules of the package it imports can be imported; the recursive evaluation of the import statements decides this. On every platform other than Windows all modules can be imported. ITER_COUNT is the only constant that exists elsewhere but not on Windows. On Windows, where _constants.py does not define ITER_COUNT, exactly observables.levelvariance, observables.rigidity, unfold, construct, trim and eigenvalues cannot be imported, so no Eigenvalues object can be made there; all other modules can.", "quantifier": "both platform cases, all modules", "why_tests_cant": "Tests run on one platform and cannot see what is undefined on another.", "anchors": ["empyricalRMT/_constants.py", "empyricalRMT/observables/levelvariance.py", "empyricalRMT/observables/rigidity.py", "empyricalRMT/eigenvalues.py"]}
{"id": "C148", "title": "Progress messages are truthful and harmless", "statement": "(FALSE of the code in several respects; what it shows is proved instead.) Asking for progress never changes a result: sigma_L and delta_L return the same values, flags and counts, the parallel loops leave the same arrays for every interleaving of the threads' stores and messages, the trimming keeps the same iterations, and trim_unfold_auto returns the same unfolding. Without show_progress nothing is printed. With it, a run of K iterations shows 0, then 2jI at each multiple jI <= K of the interval I (20 on Windows, 2000 elsewhere, ten times that for L > 100), then K; so whenever K >= I the number shown goes down at the end, although the limit used afterwards is 2K. The parallel loops show a zero and then one percentage per multiple of the printing interval below n (n of them for short lists, otherwise at least the frequency 20 or 50 and less than twice it); each is the whole part of 100c/n, c being the number of counted values stored before it, also when the quotient is computed in double precision (n up to 2^46); they lie between 0 and 100 and never go down. Only positive variances and non-zero rigidities are counted, so zero variances keep the percentage at 0 however many values are finished, and for n = 100 on one thread the last percentage is 99. The messages of the trimming are numbered 0, 1, 2, ... without gaps, each the number of an iteration that is kept, at most the last being unmentioned. The percentage printed by trim_unfold_auto and the percentage removed of the selected iteration add up to 100.", "quantifier": "all spectra, L, limits, tolerances, random draws, both platforms, all numbers of L, all thread interleavings, all detectors and smoothers", "why_tests_cant": "Quantifies over thread interleavings and run lengths; tests do not look at printed output.", "anchors": ["empyricalRMT/observables/levelvariance.py:sigma_L", "empyricalRMT/observables/levelvariance.py:sigma_parallel", "empyricalRMT/observables/rigidity.py:delta_L", "empyricalRMT/observables/rigidity.py:delta_parallel", "empyricalRMT/trim.py:TrimReport.__get_trim_iters", "empyricalRMT/eigenvalues.py:Eigenvalues.trim_unfold_auto"]}
{"id": "C149", "title": "show_iters draws the iteration counts of the values shown", "statement": "(FALSE of the code for plot_level_variance with given values; proved for the rest.) With show_iters the figures of the rigidity and of the level variance have second axes with one grey point (L, iters) per row, converged or not, and the main axes are the same as without it; without it there are no second axes. When the methods compute the values themselves the count over each L is the number of iterations delta_L or sigma_L used for it, and the returned values are those returned without show_iters; a frame given to plot_spectral_rigidity is shown with its own counts. A frame without counts is refused with ValueError, after the checks of the other columns. plot_level_variance with given values and show_iters=True makes a frame without counts and so fails with ValueError for every input.", "quantifier": "all spectra, L, frames, ensembles, random draws", "why_tests_cant": "Universal over frames and inputs, including the calls that always fail; tests do not use show_iters.", "anchors": ["empyricalRMT/plot.py:_spectral_rigidity", "empyricalRMT/plot.py:_level_number_variance", "empyricalRMT/unfold.py:Unfolded.plot_spectral_rigidity", "empyricalRMT/unfold.py:Unfolded.plot_level_variance"]}
{"id": "C150", "title": "Names and members of the enumerations are interchangeable; a spectrum keeps its kind", "statement": "(FALSE of Trimmed.unfold, of the constructor and of the printed degree; proved for the rest.) generate, Eigenvalues.unfold and Eigenvalues.detrend treat the string value of an enumeration member exactly as the member itself, for every input and with the same use of the random state. Trimmed.unfold accepts no string at all, although its documentation lists three. An object returned by generate was asked for as goe, gue or poisson, in one of the two spellings, and unfold without a smoother then equals unfold with smoother goe, poly or poisson respectively and prints so (not 'a polynomial of degree 19' for poisson, as documented). The constructor stores the kind unchecked: with the string in place of the kind, unfold without a smoother always fits the polynomial, which differs from what the kind itself gives. Detrending forgets the kind, so a detrended spectrum is unfolded by the polynomial. A given smoother silences the message; the message about the polynomial names degree 7 whatever degree is fitted.", "quantifier": "all values, sizes, seeds, kinds, methods, degrees, fitting routines, number types", "why_tests_cant": "Compares two spellings of every call and follows an attribute through several methods; tests use one spelling per call and always give a smoother.", "anchors": ["empyricalRMT/eigenvalues.py:Eigenvalues.generate", "empyricalRMT/eigenvalues.py:Eigenvalues.unfold", "empyricalRMT/eigenvalues.py:Eigenvalues.detrend", "empyricalRMT/trim.py:Trimmed.unfold", "empyricalRMT/smoother.py:Smoother.fit"]}
{"id": "C151", "title": "Fourth powers of the generated eigenvalues", "statement": "For every eigensolver that diagonalises symmetric (Hermitian) matrices, the sum of the fourth powers of the eigenvalues averages, over the draws, to 2n^3 + 5n^2 + 5n for the full GOE matrix of size n, to exactly a quarter of that for the tridiagonal one, so that at this order too the two generators differ only by the factor sqrt 2 in scale, and to 2n^3 + n for the GUE matrix. Under the level density that unfold_goe integrates the sum is n^3/2: at every size below the tridiagonal average, by the factor 1 + 5(n+1)/(2n^2).", "quantifier": "all sizes n (n > 0 for the density), every diagonalising eigensolver (exact reals; averages as iterated integrals over the draws)", "why_tests_cant": "Averages over all random draws at every size; sampling only estimates them.", "anchors": ["empyricalRMT/construct.py:_generate_GOE_matrix", "empyricalRMT/construct.py:_generate_GOE_tridiagonal", "empyricalRMT/eigenvalues.py:Eigenvalues.generate", "empyricalRMT/eigenvalues.py:Eigenvalues.unfold_goe"]}
{"id": "C152", "title": "The warning about small spectra", "statement": "Constructing an object of class Eigenvalues or a class derived from it warns exactly when the construction succeeds with fewer than fifty values and no object of its class or of an ancestor class was so constructed before; a failing construction has no effect on later warnings. A program that derives no class gets exactly one warning if it constructs some spectrum of fewer than fifty values, else none. (FALSE of the code otherwise: the comment promises at most one warning per execution, but with n derived classes there can be n + 1.)", "quantifier": "all sequences of constructions, all arguments, all class hierarchies with hereditary method resolution orders that end in Eigenvalues (its own base classes left out)", "why_tests_cant": "Quantifies over all histories of constructions; the flag is process-wide, so one test run sees it change at most once.", "anchors": ["empyricalRMT/eigenvalues.py:Eigenvalues.__init__", "empyricalRMT/_eigvals.py:EigVals.__init__"]}
{"id": "C153", "title": "Every moment of the generated matrices, and the semicircle law in moments", "statement": "For every eigensolver that diagonalises symmetric (Hermitian) matrices and every finite list of exponents, the product of the corresponding power sums of the eigenvalues averages, over the draws of a full GOE or GUE matrix of size n, to the number computed from the Gaussian loop equations: zero when the exponents have an odd sum, n^2 + n, 2n^3 + 5n^2 + 5n, 5n^4 + 22n^3 + 52n^2 + 41n for the second, fourth and sixth powers of the GOE, n^2, 2n^3 + n, 5n^4 + 10n^2 for the GUE. With eigenvalues in units of sqrt n these averages tend, as n grows, to the products of the moments of the semicircle law of radius two (Catalan numbers). The density that unfold_goe integrates has exactly the moments of the semicircle of radius sqrt(2n). (FALSE of the code: that unfold_goe's density describes the full matrices; their 2m-th power sum is, in the limit, 2^m times that of the density.)", "quantifier": "all sizes n, all lists of exponents, every diagonalising eigensolver (exact reals; averages as iterated integrals over the draws)", "why_tests_cant": "Averages over all random draws of polynomials of unbounded degree at every size, and limits; sampling only estimates finitely many of them.", "anchors": ["empyricalRMT/construct.py:_generate_GOE_matrix", "empyricalRMT/eigenvalues.py:Eigenvalues.generate", "empyricalRMT/eigenvalues.py:Eigenvalues.unfold_goe"]}
{"id": "C154", "title": "The semicircle law for the generated eigenvalues, and what unfold_goe makes of them", "statement": "For every eigensolver that diagonalises symmetric (Hermitian) matrices and every real t: over the draws of a full GOE or GUE matrix of order n, the average share of eigenvalues below t sqrt(n), whether or not those at the bound count, tends to the area of the semicircle law of radius two below t as n grows, and the mean square distance of the share from that area tends to zero. Divided by sqrt 2, the GOE eigenvalues are unfolded by unfold_goe to a uniform spectrum: the average share of unfolded values up to y n tends to y, for 0 <= y < 1. (FALSE of the code: that unfold_goe unfolds the generated spectra themselves; the shares of unfolded values exactly 0 and exactly n both tend to 1/4 - 1/(2 pi), so about two levels in eleven are no longer told apart.)", "quantifier": "all real t, all tolerances, all large sizes n, every diagonalising eigensolver (exact reals; averages as iterated integrals over the draws, bounded from both sides where the integrand is a count)", "why_tests_cant": "A limit over all matrix sizes of averages over all random draws of a discontinuous statistic.", "anchors": ["empyricalRMT/construct.py:_generate_GOE_matrix", "empyricalRMT/eigenvalues.py:Eigenvalues.generate", "empyricalRMT/eigenvalues.py:Eigenvalues.unfold_goe"]}
{"id": "C155", "title": "The generated spectrum exists and is a function of the draws alone", "statement": "Every real symmetric and every Hermitian matrix has exactly one ascending list of eigenvalues; the lists of eigenvalues of the matrix are its permutations. Hence, for any two eigensolvers that return some list of eigenvalues of every such matrix, in whatever order, Eigenvalues.generate returns the same result (values, exceptions and random state) for every kind, size, seed and choice of the tridiagonal path, and goe_unfolded returns the same original and unfolded spectra. Eigensolvers doing what is required of np.linalg.eigvalsh exist at every order, so the theorems about all such eigensolvers are not vacuous.", "quantifier": "all sizes, all matrices, all random sources, all pairs of diagonalising eigensolvers (exact reals)", "why_tests_cant": "Existence and uniqueness of eigenvalues of all matrices of all orders, and agreement of all possible eigensolvers.", "anchors": ["empyricalRMT/eigenvalues.py:Eigenvalues.generate", "empyricalRMT/construct.py:goe_unfolded", "empyricalRMT/construct.py:_generate_GOE_matrix", "empyricalRMT/construct.py:_generate_GOE_tridiagonal"]}
{"id": "C156", "title": "fit_all returns one sorted column per requested smoother", "statement": "Without detrending, Smoother.fit_all returns the columns of the polynomial fits in the order of the degrees, then one per pair of smoothing factor and spline degree, then the Gompertz column if asked.  Each column holds the values of the fitted curve at the eigenvalues in ascending order, their consecutive differences, the mean squared distance of the curve from the points (e_i, i) and a function evaluating the curve; heuristic splines use n^s as smoothing parameter.  If the fitting routines return, the call succeeds exactly when polynomial degrees are at least 3, spline degrees at most 5 (unless there is no smoothing factor) and, for the Gompertz curve, there is an eigenvalue.", "quantifier": "all eigenvalue lists, degree and smoothing lists, all fitting routines (exact arithmetic)", "why_tests_cant": "Tests run a few smoothers on generated spectra and look at one column; fitted curves that decrease somewhere, where sorting and pairing with the steps differ, are not built.", "anchors": ["empyricalRMT/smoother.py:Smoother.fit_all"]}
{"id": "C157", "title": "The tridiagonal generator stands in for the full matrix divided by sqrt 2", "statement": "For every eigensolver that diagonalises symmetric matrices, every size n and every finite list of exponents: the product of the corresponding power sums of the eigenvalues of the tridiagonal matrix has, over the normal numbers behind its draws, exactly the average that the eigenvalues of the full GOE matrix divided by sqrt 2 have over theirs. Hence, as n grows, the average share of tridiagonal eigenvalues below the fraction t/2 of sqrt(2n), the edge of the band of unfold_goe, tends to the area of the semicircle law of radius two below t, the mean square distance from that area tends to zero, the even moments of the level density of unfold_goe agree asymptotically with those of the spectra, and the average share of unfolded values up to y n tends to y, for 0 <= y < 1: unfold_goe does unfold the spectra generated this way.", "quantifier": "all sizes n, all lists of exponents, all real t, all tolerances, every diagonalising eigensolver (exact reals; averages as iterated integrals over the draws, bounded from both sides where the integrand is a count)", "why_tests_cant": "An identity between averages over two different random matrices, for polynomials of unbounded degree at every size, and its limits; sampling only estimates finitely many of them.", "anchors": ["empyricalRMT/construct.py:_generate_GOE_tridiagonal", "empyricalRMT/construct.py:_generate_GOE_matrix", "empyricalRMT/eigenvalues.py:Eigenvalues.generate", "empyricalRMT/eigenvalues.py:Eigenvalues.unfold_goe"]}
{"id": "C158", "title": "Generating and unfolding in one call gives uniform levels only for the tridiagonal matrix", "statement": "Eigenvalues.generate(n, \"goe\", use_tridiagonal=t).unfold() (also with smoother \"goe\"; no seed), as a function of the normal numbers drawn from the random state and for every eigensolver that diagonalises symmetric matrices. With t = True and n > 500 it always succeeds, and as n grows the share of unfolded values up to y n tends to y for every 0 <= y < 1, on average and in mean square; the same holds for construct.goe_unfolded(n) at every order. (FALSE of the code that the flag only changes how the spectrum is computed: with t = False, and for n <= 500 whatever t is, the call goes through the full matrix, always succeeds as well, and, for t = False as n grows, shares of 1/4 - 1/(2 pi) of the unfolded values each are exactly 0 and exactly n; the same for generate(n, \"gue\").unfold(smoother=\"goe\").)", "quantifier": "all normal numbers, all 0 <= y < 1, all tolerances, all n beyond a bound depending on the tolerance, every diagonalising eigensolver, every degree/spline/detrend argument (exact reals)", "why_tests_cant": "A limit over all sizes and all random numbers of the composition of the generator, its draw order, the eigensolver and the unfolding; a test sees one seed at one size, and the tests of the repository use only one branch.", "anchors": ["empyricalRMT/eigenvalues.py:Eigenvalues.generate", "empyricalRMT/eigenvalues.py:Eigenvalues.unfold", "empyricalRMT/eigenvalues.py:Eigenvalues.unfold_goe", "empyricalRMT/construct.py:goe_unfolded", "empyricalRMT/construct.py:_generate_GOE_tridiagonal"]}
{"id": "C159", "title": "The eigenvalues of pure noise follow the Marchenko-Pastur law, and the trimming keeps almost none of them as signal", "statement": "from_time_series(data, covariance=True, trim_zeros=False, time_axis=1) of n series of t independent standard normal values, n, t >= 2, for every eigensolver that diagonalises symmetric matrices. (1) For every list of powers (positive ones when n > t) the product of the corresponding power sums of the eigenvalues has an average, given exactly by a finite recursion in n and t - 1. (2) If n <= t grow with n/t tending to c, 0 < c < 1, then for every x in the Marchenko-Pastur support of ratio c the share of eigenvalues up to x, with or without equality, tends to the area of the Marchenko-Pastur density below x, on average and in mean square. (3) trim_marchenko_pastur() with the stored sizes then always succeeds and, with use_shifted either way, the average share of values it returns with largest=True tends to 0, and with largest=False to 1. (4) With the default arguments (trim_zeros=True, zeros=\"negative\") construction fails on an average share of data tending to 0, the share of the n eigenvalues that are kept and at most x has the same limit, and (3) holds whenever the construction succeeded.", "quantifier": "all n, t >= 2, all lists of powers, all sequences of sizes with the stated limits, all x in the support, all tolerances, every diagonalising eigensolver, every zeros argument, both shift settings (exact reals)", "why_tests_cant": "The averages are integrals over n t independent normal numbers for all sizes and powers, the law and the trimming statements are limits over all sizes; a test sees single seeds at fixed sizes.", "anchors": ["empyricalRMT/eigenvalues.py:Eigenvalues.from_time_series", "empyricalRMT/eigenvalues.py:Eigenvalues.trim_marchenko_pastur", "empyricalRMT/correlater.py:correlate_fast"]}
{"id": "C160", "title": "More series than time points: noise eigenvalues follow the Marchenko-Pastur law of ratio above one, and the trimming keeps almost none as signal", "statement": "from_time_series(data, covariance=True, time_axis=1) of n series of t <= n independent standard normal values, where t eigenvalues are computed (for n > t from the transposed product), for every eigensolver that diagonalises symmetric matrices. If t grows and n/t tends to c > 1: (1) with trim_zeros=False, for every x between (1 - sqrt c)^2 and (1 + sqrt c)^2 the share of the t eigenvalues up to x, with or without equality, tends to c times the area of the Marchenko-Pastur density of ratio c below x, on average and in mean square. (2) trim_marchenko_pastur() with the stored sizes always succeeds and, with use_shifted either way, the average share of the t values it returns with largest=True tends to 0, and with largest=False to 1. (3) With the default trim_zeros=True, zeros=\"negative\" the construction fails on an average share of data tending to 0, and (1) and (2) hold for the object returned. (4) For all data whatsoever with n > t >= 2, zero is one of the t eigenvalues, and the default call returns at most t - 1 values, all positive.", "quantifier": "all sequences of sizes with the stated limits, all x in the support, all tolerances, every diagonalising eigensolver, both shift settings; (4) all n > t >= 2 and all data (exact reals)", "why_tests_cant": "Limits over all sizes of integrals over n t independent normal numbers; a test sees single seeds at fixed sizes, and in floating point the zero eigenvalue comes out as a tiny number of either sign.", "anchors": ["empyricalRMT/eigenvalues.py:_eigs_via_transpose", "empyricalRMT/eigenvalues.py:Eigenvalues.from_time_series", "empyricalRMT/eigenvalues.py:Eigenvalues.trim_marchenko_pastur"]}
{"id": "C161", "title": "As many series as time points: the law of ratio one, whose density is unbounded at zero, and its trimming", "statement": "from_time_series(data, covariance=True, time_axis=1) of n series of t independent standard normal values, m = min(n, t) eigenvalues being computed, for every eigensolver that diagonalises symmetric matrices. If n and t grow and n/t tends to 1, from below, from above or neither: (1) with trim_zeros=False, for every 0 < x <= 4 the share of the m eigenvalues up to x, with or without equality, tends to the improper integral from 0 to x of the Marchenko-Pastur density of ratio one, on average and in mean square. (2) trim_marchenko_pastur() with the stored sizes always succeeds and, with use_shifted either way, the average share of the m values it returns with largest=True tends to 0, and with largest=False to 1. (3) With the default trim_zeros=True, zeros=\"negative\" the construction fails on an average share of data tending to 0, and (1) and (2) hold for the object returned. (4) For all data whatsoever with n, t >= 2 no computed eigenvalue is negative, and the default call, when it succeeds, removes exactly the zero eigenvalues.", "quantifier": "all sequences of sizes with the stated limits, all 0 < x <= 4, all tolerances, every diagonalising eigensolver, both shift settings; (4) all n, t >= 2 and all data (exact reals)", "why_tests_cant": "Limits over all sizes of integrals over n t independent normal numbers, at the ratio where small eigenvalues crowd towards zero; a test sees single seeds at fixed sizes.", "anchors": ["empyricalRMT/eigenvalues.py:Eigenvalues.from_time_series", "empyricalRMT/eigenvalues.py:_eigs_via_transpose", "empyricalRMT/eigenvalues.py:Eigenvalues.trim_marchenko_pastur"]}
{"id": "C162", "title": "Correlation matrices of pure noise follow the Marchenko-Pastur law of every ratio, and trim_marchenko_pastur finds no signal in them", "statement": "Data of n series of t independent standard normal values, from_time_series with covariance=False and trim_zeros=False, m = min(n, t) eigenvalues being computed, for every eigensolver that diagonalises symmetric matrices. If n grows and n/t tends to any c > 0 (below, at or above 1): (1) the object is built whenever no series is constant, and for every x in the support of the Marchenko-Pastur law of ratio c the share of the m eigenvalues up to x, with or without equality, tends to the share of that law up to x (the area p of the density; for c > 1, where the n - t zeros are not computed, c times it), on average and in mean absolute distance, whatever value between 0 and 1 the share is given on data with a constant series. (2) On the same data trim_marchenko_pastur() with the stored sizes succeeds, and with use_shifted either way the average share of the m values returned with largest=True tends to 0, and with largest=False to 1. (3) With the default zero trimming (trim_zeros=True, zeros=\"negative\"), again apart from data with a constant series, the construction fails on an average share of data tending to 0, the share of the m eigenvalues that are kept and at most x has the same limit as in (1), trim_marchenko_pastur() succeeds whenever the construction did, and the shares it keeps have the limits of (2).", "quantifier": "all sequences of sizes with the stated limits, all c > 0, all x in the support, all tolerances, every diagonalising eigensolver, every value of zeros, both shift settings (exact reals)", "why_tests_cant": "Limits over all sizes of integrals over n t independent normal numbers of eigenvalues of matrices that are not polynomial in the data; a test sees single seeds at fixed sizes.", "anchors": ["empyricalRMT/eigenvalues.py:Eigenvalues.from_time_series", "empyricalRMT/eigenvalues.py:_eigs_via_transpose", "empyricalRMT/eigenvalues.py:Eigenvalues.trim_marchenko_pastur", "empyricalRMT/correlater.py:correlate_fast"]}
{"id": "C163", "title": "What trim_marchenko_pastur reports as signal in correlations, and how much it can report at most", "statement": "Any data of n >= 2 series of t >= 2 values, none of them constant, covariance=False, any eigensolver that diagonalises symmetric matrices; b = (1 + sqrt(n/t))^2. (1) from_time_series(trim_zeros=False).trim_marchenko_pastur(largest=True) succeeds and returns at least one value exactly if some weighted sum of the standardised series has a variance (the sum of w_i w_j times the Pearson correlation of i and j) above B times the sum of the squared weights, where B = b without the shift and B = n b/(n + b) with it; the largest eigenvalue is then among the values. (2) So a group of g series whose pairwise correlations are all at least r is noticed as soon as 1 + (g - 1) r > B. (3) The number of values returned is less than n/b without the shift (none at all if b >= n) and less than 1 + n/b with it. (4) With the default zero trimming the construction always succeeds, and the values and bounds reported are the same. (5) The min(n, t) eigenvalues handed out without zero trimming lie in [0, n] and sum to n, and zero is among them whenever t <= n; with the default zero trimming at most min(n, t - 1) values are handed out, all positive, and they still sum to n.", "quantifier": "for all data without a constant series, all sizes n, t >= 2, all diagonalising eigensolvers, both shifts", "why_tests_cant": "holds for every data set and every choice of weights; a test tries a few, and the bound on the number of values needs the trace argument", "anchors": ["empyricalRMT/eigenvalues.py:Eigenvalues.trim_marchenko_pastur", "empyricalRMT/eigenvalues.py:Eigenvalues.from_time_series", "empyricalRMT/correlater.py:correlate_fast"]}
{"id": "C164", "title": "What trim_marchenko_pastur reports as signal in covariances, and when the default construction fails", "statement": "(FALSE of the code with the shift: see (3).) Any data of n >= 2 series of t >= 2 values, constant series included, covariance=True, any eigensolver that diagonalises symmetric matrices; b = (1 + sqrt(n/t))^2. (1) from_time_series(trim_zeros=False).trim_marchenko_pastur(largest=True) succeeds and returns at least one value exactly if some weighted sum of the series has a sample variance above B times the sum of the squared weights, where B = b without the shift and B = n b/(n + b) with it; the largest eigenvalue is then among the values. (2) The min(n, t) eigenvalues are not negative and sum to the sum of the sample variances, and zero is among them whenever t <= n. With the default zero trimming the construction raises an exception exactly if all series are constant; otherwise it hands out between 1 and min(n, t - 1) values, all positive, with the same sum. (3) As soon as one series has a sample variance above n, with use_shifted=True largest=True reports every eigenvalue, zeros included, as signal and largest=False none as noise.", "quantifier": "for all data, all sizes n, t >= 2, all diagonalising eigensolvers, both shifts", "why_tests_cant": "holds for every data set and every choice of weights; the failure of the shift needs data in large units, which tests with standard normal data never have", "anchors": ["empyricalRMT/eigenvalues.py:Eigenvalues.trim_marchenko_pastur", "empyricalRMT/eigenvalues.py:Eigenvalues.from_time_series"]}
