{"id": "C01", "title": "weighted_median returns a weighted median", "statement": "For data X and non-negative weights with positive total weight, weighted_median(X, weights) terminates without error and returns an element m of X such that the weight strictly below m is at most half the total and the weight at or below m is more than half the total.", "quantifier": "for every list of numbers X (any length, any ties) and every non-negative weight list of the same length whose sum is positive", "why_tests_cant": "the narrowing loop runs an input-dependent number of rounds; a test fixes a handful of inputs, the claim is about all lengths, ties and weight patterns (including zero weights) and about termination", "anchors": ["robpy/utils/median.py: weighted_median"]}
{"id": "C02", "title": "weighted_median on all-zero weights", "statement": "If all weights are zero, weighted_median returns the maximum of X when that maximum occurs once, and raises IndexError when the maximum occurs more than once or X is empty; it never loops forever.", "quantifier": "for every X and an all-zero weight list of the same length", "why_tests_cant": "degenerate weights are an unbounded family of inputs whose outcome (value or IndexError) depends on the multiplicity of the maximum", "anchors": ["robpy/utils/median.py: weighted_median"]}
{"id": "C03", "title": "l1median iterations never increase the sum of distances", "statement": "As long as no iterate coincides with an observation, one iteration of l1median maps the current centre to a point whose sum of Euclidean distances to the observations is not larger.", "quantifier": "for every data matrix with at least one row and every current centre different from all observations", "why_tests_cant": "a descent inequality over all real data sets in all dimensions; tests can only sample it", "anchors": ["robpy/utils/median.py: l1median"]}
{"id": "C04", "title": "l1median does not return when the mean is an observation", "statement": "If the mean of the data coincides with one of the observations, the first iteration divides by a zero distance, every later iterate is NaN, the stopping test is never true, and l1median never returns.", "quantifier": "for every data matrix with at least one column whose column mean equals one of its rows, and for every number of iterations", "why_tests_cant": "non-termination cannot be observed by a finite test run", "anchors": ["robpy/utils/median.py: l1median", "robpy/pca/spca.py: PCALocantore.fit"]}
{"id": "C05", "title": "l1median stays inside the data's bounding box and is translation equivariant", "statement": "Every iterate of l1median computed from a centre that is not an observation lies, coordinate by coordinate, between the smallest and the largest observed value; shifting all observations and the centre by a vector shifts the iterate by that vector.", "quantifier": "for all data matrices, centres not equal to an observation, and shift vectors", "why_tests_cant": "universally quantified over real data and dimensions", "anchors": ["robpy/utils/median.py: l1median"]}
{"id": "C06", "title": "mahalanobis_distance is affine invariant", "statement": "Transforming the data by x -> A x + b with invertible A, the location likewise and the covariance to A S A^T leaves all Mahalanobis distances unchanged; the squared distance is non-negative for a positive definite covariance and zero exactly at the location; a singular covariance raises LinAlgError.", "quantifier": "for all data, locations, invertible covariances, invertible matrices A and shifts b in every dimension", "why_tests_cant": "an algebraic identity over all matrices of all sizes", "anchors": ["robpy/utils/distance.py: mahalanobis_distance"]}
{"id": "C07", "title": "inverse_submatrix returns the inverse of the submatrix", "statement": "Given A, its inverse and a list of distinct indices, inverse_submatrix returns the inverse of A restricted to those rows and columns whenever that submatrix is invertible, in each of its three branches (direct inversion, Schur-complement trick, full matrix), provided that a list naming all indices is given in increasing order; for a full-length list in another order the result is not the inverse of the permuted matrix.", "quantifier": "for every field-valued square matrix, every size, every list of distinct indices", "why_tests_cant": "the choice of branch depends on the size ratio and the identity is over all matrices", "anchors": ["robpy/utils/general.py: inverse_submatrix"]}
{"id": "C08", "title": "Tukey bisquare: psi is the derivative of rho, which is even, bounded and monotone", "statement": "For every c > 0: psi(x) is the derivative of rho at every x including the cut-off; rho is even, rho(0)=0, rho is non-decreasing in |x| and bounded by c^2/6, attained for |x| >= c; psi is odd, vanishes beyond c, and psi(x)/x lies in [0,1].", "quantifier": "for all real c > 0 and all real x", "why_tests_cant": "calculus facts at a continuum of points including the seam", "anchors": ["robpy/utils/rho.py: TukeyBisquare"]}
{"id": "C09", "title": "Huber: psi is the derivative of rho, which is even, convex-like and monotone", "statement": "For every b > 0: psi(x) is the derivative of rho at every x including the seam; rho is even and non-decreasing in |x|, psi is odd, non-decreasing and bounded by b in absolute value, and psi(x)/x lies in (0,1].", "quantifier": "for all real b > 0 and all real x", "why_tests_cant": "calculus facts at a continuum of points including the seam", "anchors": ["robpy/utils/rho.py: Huber"]}
{"id": "C10", "title": "stahel_donoho with a seed uses one direction only", "statement": "When random_seed is not None, all n_dir directions are the same vector, so the outlyingness does not depend on n_dir (for n_dir >= 1).", "quantifier": "for every data set, every seed, every n_dir >= 1 and every random generator behaviour that is a function of the seed", "why_tests_cant": "a test compares numbers for one seed; the statement is that the direction count is irrelevant for all seeds and data", "anchors": ["robpy/utils/outlyingness.py: stahel_donoho, _get_random_direction"]}
{"id": "C11", "title": "Stahel-Donoho outlyingness is non-negative and invariant", "statement": "For given directions with non-zero spread, every outlyingness is >= 0, at least half of the observations have per-direction outlyingness at most 1, and the outlyingness is unchanged when all data are shifted or multiplied by a non-zero constant.", "quantifier": "for all data sets, direction lists, shifts and non-zero factors", "why_tests_cant": "universally quantified over data and directions", "anchors": ["robpy/utils/outlyingness.py: stahel_donoho"]}
{"id": "C12", "title": "get_logger leaves exactly one handler", "statement": "After any sequence of get_logger calls, every logger that was ever requested has exactly one own handler, and its level and its handler's level are those of the last request for that name; in particular creating a second estimator with another verbosity changes the level of the first one's logger.", "quantifier": "for all finite sequences of calls with arbitrary names and levels, from any initial logging state without handlers", "why_tests_cant": "quantifies over all call histories of shared mutable state", "anchors": ["robpy/utils/logging.py: get_logger"]}
{"id": "C13", "title": "Qn equals the k-th smallest pairwise distance", "statement": "For n >= 2 observations, the uncorrected Qn scale computed by the iterative O(n log n) algorithm is exactly the k-th smallest of the n(n-1)/2 pairwise absolute differences, with h = n//2+1 and k = h(h-1)/2; the search loop terminates.", "quantifier": "for every list of at least two real numbers (any ties, any order)", "why_tests_cant": "the algorithm's loop bounds, Python negative indexing and zero-weight rows interact in ways only an invariant over all inputs can settle", "anchors": ["robpy/univariate/qn.py: Qn._calculate", "robpy/utils/median.py: weighted_median"]}
{"id": "C14", "title": "Qn rejects fewer than two observations", "statement": "For 0 or 1 observations Qn raises (the selection from an empty list) and never returns a scale; for n >= 2 it never raises.", "quantifier": "for all input lengths and values", "why_tests_cant": "needs totality for every length", "anchors": ["robpy/univariate/qn.py: Qn._calculate, _get_small_sample_dn"]}
{"id": "C15", "title": "Qn scale is permutation invariant, shift invariant and scale equivariant", "statement": "Reordering or shifting the data leaves the Qn scale unchanged and multiplying by a multiplies it by |a|, with or without the corrections; the scale is >= 0.", "quantifier": "for all data with n >= 2, all permutations, shifts and factors", "why_tests_cant": "an equality between two runs of an iterative algorithm over all inputs", "anchors": ["robpy/univariate/qn.py: Qn._calculate"]}
{"id": "C16", "title": "Qn resists contamination", "statement": "If at least h = n//2+1 of the n observations lie in an interval of length L, the uncorrected Qn scale is at most L, whatever the other observations are; and the scale is zero exactly when at least k pairs of observations coincide.", "quantifier": "for all data sets, all intervals and all positions and values of the remaining observations", "why_tests_cant": "arbitrary adversarial contamination cannot be enumerated", "anchors": ["robpy/univariate/qn.py: Qn._calculate"]}
{"id": "C17", "title": "UnivariateMCD finds the minimum variance over all h-subsets", "statement": "The raw variance found by scanning contiguous windows of the sorted data is the minimum of the variance over all subsets of h observations, and the raw location is the mean of a subset attaining it.", "quantifier": "for every data list of length n and every h with 1 <= h <= n", "why_tests_cant": "optimality over exponentially many subsets", "anchors": ["robpy/univariate/mcd.py: UnivariateMCD._get_raw_estimates"]}
{"id": "C18", "title": "UnivariateMCD h selection", "statement": "h is n//2+1 for alpha=None; for an integer alpha in [n/2, n] it is max(alpha, n//2+1); for a float in [0.5,1] (or the value 1) it is max(int(alpha*n), n//2+1); every other alpha raises ValueError; in all successful cases n//2+1 <= h <= n for n >= 1.", "quantifier": "for all n >= 1 and all alphas (None, integers, floats)", "why_tests_cant": "case analysis over an unbounded set of (n, alpha)", "anchors": ["robpy/univariate/mcd.py: UnivariateMCD._set_h_size"]}
{"id": "C19", "title": "UnivariateMCD returns NaN when h observations coincide", "statement": "If at least h (< n) observations are equal, the raw variance is 0, no observation passes the reweighting test and the returned location and scale are NaN although the raw location is that common value; if the raw variance is positive the reweighted location is a finite number in the range of the data.", "quantifier": "for all data sets with h < n", "why_tests_cant": "division by zero at an exact-fit configuration; a universally quantified claim over positions of the coinciding values", "anchors": ["robpy/univariate/mcd.py: UnivariateMCD._reweighting, _calculate"]}
{"id": "C20", "title": "UnivariateMCD location and scale equivariance", "statement": "Shifting the data by t shifts raw and reweighted location by t and keeps the variances; multiplying by a > 0 multiplies the locations by a and the variances by a^2 (NaN stays NaN). Under a negative factor the raw variance is still multiplied by a^2, but the location is not equivariant: when several windows attain the minimal variance the reflected data give another one.", "quantifier": "for all data, shifts and positive factors (raw variance: all factors)", "why_tests_cant": "equality of two runs over all inputs", "anchors": ["robpy/univariate/mcd.py: UnivariateMCD"]}
{"id": "C21", "title": "OneStepM location is a proper weighted mean and the scale is bounded by the MAD", "statement": "For the estimators shipped (HuberOneStepM, CellwiseOneStepM) and non-empty NaN-free data, the weights are in [0,1] with positive sum, the location lies between min and max of the data, the scale is 0 exactly when the MAD is below min_abs_scale, and always 0 <= scale <= MAD*b/sqrt(delta).", "quantifier": "for all non-empty data lists", "why_tests_cant": "bounds over all real inputs", "anchors": ["robpy/univariate/onestep_m.py: OneStepM._calculate, HuberOneStepM, CellwiseOneStepM"]}
{"id": "C22", "title": "OneStepM equivariance", "statement": "Shifting the data shifts the location and keeps the scale; multiplying by a non-zero a multiplies the location by a and the scale by |a| when the MAD is at least min_abs_scale before and after; when the MAD is below min_abs_scale the location is not equivariant.", "quantifier": "for all data lists, shifts and positive factors", "why_tests_cant": "equality of two runs over all inputs", "anchors": ["robpy/univariate/onestep_m.py: OneStepM._calculate"]}
{"id": "C23", "title": "OneStepM resists contamination", "statement": "If more than half of the observations lie within an interval [a, b], the location returned by CellwiseOneStepM stays within a distance from [a,b] that depends only on b - a (and the tuning constants), whatever the other observations are, and the scale is bounded by a multiple of b - a.", "quantifier": "for all data sets with a clean majority, all contaminations", "why_tests_cant": "adversarial contamination cannot be enumerated", "anchors": ["robpy/univariate/onestep_m.py: OneStepM._calculate"]}
{"id": "C24", "title": "OneStepWrapping weights and location", "statement": "The weights are non-negative, equal to 1 for |z| < 1.5 and 0 for |z| > 4; when the initial MCD scale is positive and some observation has a positive weight the location lies between min and max of the data and the scale is that of the initial MCD; when more than half of the observations are equal the location is NaN.", "quantifier": "for all data and all initial estimates", "why_tests_cant": "bounds over all real inputs", "anchors": ["robpy/univariate/onestep_m.py: OneStepWrapping"]}
{"id": "C25", "title": "Tau estimator bounds", "statement": "For MAD > 0 the Tau location lies between min and max, weights are in [0,1] with positive sum, and the uncorrected scale lies between 0 and c2*MAD; for MAD = 0 the location is NaN and the scale is 0.", "quantifier": "for all data, all c1 > 1 and c2 > 0", "why_tests_cant": "bounds over all real inputs and the division-by-zero branch", "anchors": ["robpy/univariate/tau.py: Tau"]}
{"id": "C26", "title": "RobustScale.fit NaN policy", "statement": "fit raises ValueError for input that is not one-dimensional, raises ValueError when the data contain NaN, NaN are not ignored and the estimator cannot handle NaN, and with ignore_nan=True gives exactly the result of fitting the data with the NaN removed; scale and location raise NotFittedError before the first successful fit and keep the last fitted value afterwards.", "quantifier": "for all inputs, flag combinations and sequences of fit calls", "why_tests_cant": "quantifies over all call histories and inputs", "anchors": ["robpy/univariate/base.py: RobustScale"]}
{"id": "C27", "title": "adjusted_boxplot statistics are ordered", "statement": "For every column, min <= lower whisker <= q1 <= median <= q3 <= upper whisker <= max, whatever value the medcouple takes, and the reported fliers are exactly the observations outside the whiskers.", "quantifier": "for all non-empty data columns and all medcouple values", "why_tests_cant": "ordering over all real data", "anchors": ["robpy/univariate/adjusted_boxplot.py: adjusted_boxplot"]}
{"id": "C28", "title": "RobustScaler round trip", "statement": "inverse_transform(transform(X)) = X and transform(inverse_transform(X)) = X for every X with the fitted number of columns when all fitted scales are non-zero; with a zero scale transform produces NaN/inf and the round trip fails; with_centering=False keeps location 0 and with_scaling=False keeps scale 1.", "quantifier": "for all data, all underlying estimators, all flags", "why_tests_cant": "round trip over all inputs", "anchors": ["robpy/preprocessing/scaling.py: RobustScaler"]}
{"id": "C29", "title": "Fitting one RobustScaler does not disturb another", "statement": "Although all RobustScaler objects built with default arguments share one estimator object which is mutated by fit, the transform of an already fitted scaler is unaffected by any later fits of other scalers.", "quantifier": "for all interleavings of fit calls on any number of scalers sharing one estimator", "why_tests_cant": "quantifies over all call histories", "anchors": ["robpy/preprocessing/scaling.py: RobustScaler.__init__, fit"]}
{"id": "C30", "title": "wrapping_transformation shape", "statement": "Without rescaling, a value within b scales of the location is unchanged, a value farther than c scales is mapped to the location, every output is within max(b,|q1|) scales of the location, and a zero-scale column is mapped to its location.", "quantifier": "for all data, locations, scales and parameters with 0 < b <= c", "why_tests_cant": "pointwise bounds over all reals", "anchors": ["robpy/preprocessing/utils.py: wrapping_transformation"]}
{"id": "C31", "title": "wrapping_transformation with rescaling reproduces location and scale", "statement": "With rescale=True, the mean of each output column equals the supplied location, and its standard deviation equals the supplied scale unless the wrapped column is constant (in which case every output is the location).", "quantifier": "for all data columns of length >= 1, locations and scales", "why_tests_cant": "an identity over all data", "anchors": ["robpy/preprocessing/utils.py: wrapping_transformation"]}
{"id": "C32", "title": "Box-Cox round trip", "statement": "For a transformer fitted with method boxcox, inverse_transform(transform(x)) = x for all strictly positive x, for every lambda including 0 and with or without standardisation (non-zero fitted scales, positive pre-scale); transform raises ValueError if any value is <= 0.", "quantifier": "for all positive data and all fitted states", "why_tests_cant": "round trip over all reals and lambdas; clamping must never alter values in the range", "anchors": ["robpy/preprocessing/transfo.py: transform, inverse_transform, _transf_boxcox, _inv_transf_boxcox, _handle_bounds"]}
{"id": "C33", "title": "Yeo-Johnson round trip", "statement": "For a transformer fitted with method yeojohnson, inverse_transform(transform(x)) = x for all real x, for every lambda including 0 and 2 and with or without standardisation (non-zero fitted scales).", "quantifier": "for all real data and all fitted states", "why_tests_cant": "round trip over all reals and lambdas; clamping must never alter values in the range", "anchors": ["robpy/preprocessing/transfo.py: transform, inverse_transform, _transf_yeojohnson, _inv_transf_yeojohnson, _handle_bounds"]}
{"id": "C34", "title": "Power transforms are strictly increasing", "statement": "For every lambda, Box-Cox is strictly increasing on the positive reals and Yeo-Johnson is strictly increasing on all reals, so transform (with positive scales) preserves the order of observations.", "quantifier": "for all lambdas and all pairs of inputs", "why_tests_cant": "monotonicity over a continuum with seams at 0 and special lambdas", "anchors": ["robpy/preprocessing/transfo.py: _transf_boxcox, _transf_yeojohnson"]}
{"id": "C35", "title": "inverse_transform out of range", "statement": "Values outside the range of the transformation are replaced by 0.95 times the bound; the result of inverse_transform is therefore a finite number for every value except the bound itself (where Box-Cox gives 0 for lambda > 0 and infinity for lambda < 0), and transforming it gives the clamped value back; but inverse_transform is not monotone when there is a bound: some y1 < y2 are mapped in reverse order.", "quantifier": "for all lambdas with a bounded range and all inputs", "why_tests_cant": "a quantified statement about clamping at the edge of the range", "anchors": ["robpy/preprocessing/transfo.py: _handle_bounds, _calculate_bounds, inverse_transform"]}
{"id": "C36", "title": "Rectified transforms are continuous and increasing", "statement": "For lambda != 1 the rectified Box-Cox transform is continuous and strictly increasing; the rectified Yeo-Johnson transform is so too when the changepoint has the expected sign (<= 0 for lambda > 1, >= 0 for lambda < 1), but for lambda = 2 with a positive changepoint (possible with standardize=False) it is not continuous.", "quantifier": "for all lambdas, changepoints and inputs", "why_tests_cant": "continuity over a continuum", "anchors": ["robpy/preprocessing/transfo.py: _transf_boxcox_rectified, _transf_yeojohnson_rectified"]}
{"id": "C37", "title": "The lambda search range is never extended", "statement": "fit returns only if the estimated lambda is more than 5% of the range away from both ends; otherwise the attempt to enlarge the range subtracts a number from a Python list and fit raises TypeError, so the while loop runs exactly once.", "quantifier": "for all data and all outcomes of the numerical optimiser", "why_tests_cant": "the failing branch depends on the optimiser's output; the claim is for every output", "anchors": ["robpy/preprocessing/transfo.py: _fit_boxcox, _fit_yeojohnson, __init__"]}
{"id": "C38", "title": "method='auto' is forgotten after the first fit", "statement": "fit replaces method='auto' by the chosen method, so a later fit of the same object on data with non-positive values raises ValueError when the first fit chose boxcox, whereas a fresh object would fit; with an explicit method, refitting equals fitting a fresh object.", "quantifier": "for all pairs of data sets and all fit histories", "why_tests_cant": "history dependence over all call sequences", "anchors": ["robpy/preprocessing/transfo.py: fit, _get_method"]}
{"id": "C39", "title": "DataCleaner output is a sub-table of the input", "statement": "The table returned by transform has as columns the input columns that are not reported in dropped_columns, as rows the input rows not reported in dropped_rows, both in input order, and each kept cell is unchanged except that infinities become NaN; fewer than min_n_rows rows raise ValueError.", "quantifier": "for all tables and all cleaner states", "why_tests_cant": "frame property over all tables", "anchors": ["robpy/preprocessing/data_cleaner.py: DataCleaner.transform, dropped_columns, dropped_rows"]}
{"id": "C40", "title": "DataCleaner missing-value guarantees", "statement": "On the first transform with rows-first cleaning every kept column has a missing fraction below max_missing_frac_cols among the kept rows; with columns-first cleaning every kept row has a missing fraction below max_missing_frac_rows among the kept checked columns. The other direction fails: with rows-first cleaning a kept row can be entirely missing in the output.", "quantifier": "for all tables, thresholds", "why_tests_cant": "a guarantee over all tables, and a refutation of the converse", "anchors": ["robpy/preprocessing/data_cleaner.py: _set_missing_cols_and_rows, _set_missing_cols, _set_missing_rows"]}
{"id": "C41", "title": "DataCleaner.transform depends on earlier transforms", "statement": "A second transform of the same table by the same object can give a different result than the first, and transforming another table can raise KeyError, because rows_missings/cols_missings of the previous call are used; a fresh cleaner gives a result depending on its input only. clean_na_first='automatic' is resolved at the first transform and never re-evaluated.", "quantifier": "for all histories of transform calls", "why_tests_cant": "history dependence over all call sequences", "anchors": ["robpy/preprocessing/data_cleaner.py: _set_missing_cols, _set_missing_rows, _set_missing_cols_and_rows"]}
{"id": "C42", "title": "DDC.impute changes only flagged or missing cells", "statement": "impute returns a table of the same shape in which every cell that is neither missing/infinite nor (with impute_outliers=True) flagged by predict keeps its value, and every other cell holds the prediction, back-transformed and rounded to 3 decimals; no missing cell remains when the fitted parameters are finite.", "quantifier": "for all fitted states and all tables", "why_tests_cant": "frame property over all tables", "anchors": ["robpy/outliers/ddc.py: DDC.impute"]}
{"id": "C43", "title": "DDC predictions are row-local and never use the predicted cell", "statement": "The prediction of a cell depends only on the other cells of the same row and on the fitted parameters: changing the cell itself or any other row leaves it unchanged; predict on stacked tables is the stacking of the predictions.", "quantifier": "for all fitted states, tables and cells", "why_tests_cant": "non-interference over all inputs", "anchors": ["robpy/outliers/ddc.py: DDC._get_predicted_values, predict"]}
{"id": "C44", "title": "DDC weights are a convex combination or all zero", "statement": "For every row and column the prediction weights are non-negative, zero for the column itself, for missing cells and for columns with |correlation| < 0.5, and they sum to 1 or are all zero; in the latter case the prediction is the column location.", "quantifier": "for all correlation matrices and tables", "why_tests_cant": "universally quantified over matrices and missingness patterns", "anchors": ["robpy/outliers/ddc.py: DDC._get_predicted_values"]}
{"id": "C45", "title": "DDC.min_correlation below 0.5 has no effect, above 0.5 shrinks predictions", "statement": "Predictions are the same for all min_correlation values <= 0.5, because the weights use the hard-coded 0.5; for larger values the columns with correlation in [0.5, min_correlation) keep their share of the weight but contribute nothing, so the weights actually used sum to less than 1.", "quantifier": "for all data and all pairs of min_correlation values", "why_tests_cant": "a relation between two configurations over all inputs", "anchors": ["robpy/outliers/ddc.py: DDC._get_slopes, _get_predicted_values"]}
{"id": "C46", "title": "DDC flags are exactly the large standardized residuals; predict agrees with fit", "statement": "A cell is flagged iff its standardized residual exceeds the cutoff in absolute value; missing cells are never flagged; predict on the training table returns exactly the flags and residuals stored by fit.", "quantifier": "for all tables on which fit succeeds", "why_tests_cant": "equality of two code paths over all inputs", "anchors": ["robpy/outliers/ddc.py: DDC.fit, predict, _cellwise_outliers"]}
{"id": "C47", "title": "DDC before fit", "statement": "predict, impute and cellmap on an unfitted DDC raise AttributeError, not the documented ValueError; after a successful fit they never raise it.", "quantifier": "for all inputs and call orders", "why_tests_cant": "protocol property over all call sequences", "anchors": ["robpy/outliers/ddc.py: DDC.predict, impute, cellmap"]}
{"id": "C48", "title": "DDC robust correlation matrix", "statement": "robust_correlation_ is symmetric with unit diagonal for every table and every pairwise estimator.", "quantifier": "for all tables", "why_tests_cant": "an invariant of a double loop over all sizes", "anchors": ["robpy/outliers/ddc.py: DDC._robust_correlation"]}
{"id": "C49", "title": "LTS C-step never increases the loss", "statement": "If a model is replaced by the least-squares fit on the h observations with the smallest absolute residuals, the trimmed loss (mean squared residual over its h-subset) does not increase, and the h-subset chosen is optimal for the given model among all subsets of size h.", "quantifier": "for all data, all models, all h between 1 and n, any tie-breaking of argsort, any exact least-squares solver", "why_tests_cant": "descent and optimality over all data and subsets", "anchors": ["robpy/regression/lts.py: _apply_C_step, _get_h_subset, _get_loss_value"]}
{"id": "C50", "title": "LTS C-steps terminate", "statement": "With tolerance >= 0 the C-steps-until-convergence loop terminates after at most one more iteration than there are h-subsets, and the returned loss is no larger than the mean squared residual of the starting model over any h-subset; with a negative tolerance the loop never ends.", "quantifier": "for all data, all starting models, all tolerances", "why_tests_cant": "termination over all inputs", "anchors": ["robpy/regression/lts.py: _apply_C_steps_untill_convergence"]}
{"id": "C51", "title": "LTS keeps the best candidate", "statement": "The raw model finally selected has a loss no larger than the loss of every initial model after the initial C-steps and of every model after convergence, and its stored h-subset, loss and model belong to the same candidate.", "quantifier": "for all lists of candidates and n_best_models >= 1", "why_tests_cant": "selection invariant over all candidate lists", "anchors": ["robpy/regression/lts.py: FastLTSRegression.fit"]}
{"id": "C52", "title": "LTS subset size", "statement": "alpha outside [0.5,1] raises ValueError; otherwise h = max(int(n*alpha), int((n+p+1)/2)), with n/2 <= h, and h <= n iff p <= n. With n <= p observations fit raises ValueError (the starting subset needs p+1 of them).", "quantifier": "for all n, p and alpha", "why_tests_cant": "integer arithmetic over unbounded ranges", "anchors": ["robpy/regression/lts.py: FastLTSRegression.fit"]}
{"id": "C53", "title": "LTS small-sample correction factors", "statement": "For both correction functions: alpha outside [0.5,1] raises ValueError; the reciprocal factor is continuous in alpha at 0.875 and equals 1 at alpha = 1 for every p and n; but the factor is negative for p = 1, n = 2, alpha = 0.5, so the reported scale would be negative. For p >= 2 the reciprocal factors take the published values at n = 3p^2 and n = 5p^2.", "quantifier": "for all alpha, p, n", "why_tests_cant": "exact behaviour at a seam and sign over unbounded n", "anchors": ["robpy/regression/lts.py: get_correction_factor, get_correction_factor_reweighting"]}
{"id": "C54", "title": "LTS reweighting uses the non-robust standard deviation", "statement": "The reweighting mask compares residuals with their ordinary standard deviation over all observations, so for any contamination size M, if 30% to 70% of the residuals equal M and the others are 0, no observation is rejected and the final model is ordinary least squares on all data; and when all residuals are zero the mask is empty and refitting raises ValueError.", "quantifier": "for all M and n with the given contamination fraction", "why_tests_cant": "a statement for unboundedly large contamination", "anchors": ["robpy/regression/lts.py: FastLTSRegression.fit"]}
{"id": "C55", "title": "SRegression's default M-scale equation has no solution", "statement": "With the default rho (bisquare, c=1.547) and b=0.5 the mean of rho(r/s) is below b for every residual vector and every s, so the M-scale equation has no solution; the scale returned is at most 0.9 times the starting scale, and after k iterations at most 0.9^k times the starting scale unless it has already fallen to the order of scale_tolerance.", "quantifier": "for all residual vectors, starting scales and numbers of iterations", "why_tests_cant": "non-existence of a solution and a limit statement", "anchors": ["robpy/regression/s.py: SRegression.__init__, _get_scale", "robpy/utils/rho.py: TukeyBisquare.rho"]}
{"id": "C56", "title": "SRegression failure handling", "statement": "If the very first i-step of the first candidate raises LinAlgError, fit raises UnboundLocalError instead of keeping the candidate; if a later step fails the model and scale before it are kept and n_iter counts the steps done; if a first step of a later candidate fails, n_iter = 0 is written to another candidate's model; the final model is the outcome with the least scale, NaN scales apart.", "quantifier": "for all sequences of step outcomes", "why_tests_cant": "error paths over all failure schedules", "anchors": ["robpy/regression/s.py: SRegression.fit"]}
{"id": "C57", "title": "SRegression scale loop", "statement": "max_scale_iterations = 0 raises UnboundLocalError; otherwise, for every rho, the returned scale is the last iterate and the loop stops early exactly when two iterates differ by less than scale_tolerance; the result is scale equivariant, and for the bisquare finite, non-negative, positive unless all residuals or the start are zero, and a fixed point iff it solves the M-scale equation.", "quantifier": "for all residuals, starting scales, iteration counts", "why_tests_cant": "loop property for every iteration count", "anchors": ["robpy/regression/s.py: SRegression._get_scale"]}
{"id": "C58", "title": "MMRegression step is not weighted least squares", "statement": "The reweighting step multiplies X and y, but not the intercept column, by the square roots of the weights; the fitted model minimises that sum of squares and therefore not the weighted sum of squared residuals in general; with equal weights v the slopes are those of least squares but the intercept is sqrt(v) times it; adding a plane through the origin to y adds it to the slopes, adding a constant to y changes the slopes.", "quantifier": "for all weights (positive part) and existence of a counterexample", "why_tests_cant": "a statement about optimality over all coefficient vectors", "anchors": ["robpy/regression/mm.py: MMRegression.fit"]}
{"id": "C59", "title": "MMRegression fails on an exactly fitted observation", "statement": "If any observation has residual exactly zero at the start of some iteration, its weight is 0/0 = NaN and fit raises ValueError; the object is then left predicting with the initial estimator; the number of iterations never exceeds max_iterations, the loop stops early exactly when no prediction changes by epsilon or more, and the reported scale is the initial estimator's scale.", "quantifier": "for all data and iteration counts", "why_tests_cant": "division by zero on a measure-zero set, and a bound for all runs", "anchors": ["robpy/regression/mm.py: MMRegression.fit"]}
{"id": "C60", "title": "MMRegression objects share the default initial estimator", "statement": "All MMRegression objects built with default arguments share one SRegression object; after a successful fit with max_iterations >= 1 predictions and scale of an object are unaffected by any calls on other objects; with max_iterations = 0, or after a fit that failed in its first iteration, the object predicts with the shared estimator and changes with it.", "quantifier": "for all interleavings of fit and predict calls", "why_tests_cant": "aliasing over all call histories", "anchors": ["robpy/regression/mm.py: MMRegression.__init__, fit, predict"]}
{"id": "C61", "title": "MCD C-step never increases the determinant", "statement": "If the h observations with smallest Mahalanobis distance with respect to the mean and covariance of an h-subset with non-singular covariance are taken as new subset, the determinant of its covariance is at most the old determinant.", "quantifier": "for all data in every dimension, all h, all h-subsets with non-singular covariance, any tie-breaking", "why_tests_cant": "a matrix inequality over all data sets and dimensions", "anchors": ["robpy/covariance/mcd.py: FastMCD._perform_c_step, DetMCD._perform_c_step"]}
{"id": "C62", "title": "FastMCD and DetMCD do not iterate to convergence", "statement": "Because the stopping test compares (new - old) < tolerance, the final C-step loop stops after one trial step and discards its result: for tolerance > 0 the selected subset is the best one found before this loop, and it need not be a fixed point of the C-step.", "quantifier": "for all candidate lists with non-singular h-subset covariances and all tolerances > 0", "why_tests_cant": "a claim about every run of the loop", "anchors": ["robpy/covariance/mcd.py: FastMCD.calculate_covariance, DetMCD.calculate_covariance"]}
{"id": "C63", "title": "FastMCD with integer alpha fails on more than 600 observations", "statement": "With the default n_partitions and an integer alpha with n/2 <= alpha < n, FastMCD raises ValueError for every n > 600, because alpha is compared with the partition size; with float alpha or a single partition it does not raise.", "quantifier": "for all n > 600 and all integer alpha in [n/2, n)", "why_tests_cant": "a statement about all sizes", "anchors": ["robpy/covariance/mcd.py: FastMCD._get_h, _partition_data, calculate_covariance"]}
{"id": "C64", "title": "FastMCD/DetMCD subset size", "statement": "h = int((n+p+1)/2) for alpha=None, max(alpha, that) for an integer in [n/2, n], max(int(alpha*n), that) for a float in [0.5,1]; anything else raises ValueError; FastMCD and DetMCD agree; h <= n iff p <= n.", "quantifier": "for all n, p, alpha", "why_tests_cant": "integer arithmetic over unbounded ranges", "anchors": ["robpy/covariance/mcd.py: FastMCD._get_h, DetMCD._get_h"]}
{"id": "C65", "title": "MCD consistency correction", "statement": "After the raw correction, the median of the squared Mahalanobis distances of all observations with respect to the corrected covariance equals the chi-square median with p degrees of freedom.", "quantifier": "for all data, locations and positive definite raw covariances with positive median distance", "why_tests_cant": "an identity over all inputs", "anchors": ["robpy/covariance/mcd.py: _correct_covariance"]}
{"id": "C66", "title": "Data partitioning covers the data", "statement": "Splitting the data into n_partitions blocks yields exactly n_partitions consecutive blocks whose concatenation is the data and whose sizes differ by at most one.", "quantifier": "for all data and partition counts >= 1", "why_tests_cant": "all sizes", "anchors": ["robpy/covariance/mcd.py: FastMCD._partition_data"]}
{"id": "C67", "title": "OGK covariance is symmetric positive semidefinite", "statement": "For every scale estimator, location estimator, number of iterations and eigenvector matrices, the unreweighted OGK covariance is symmetric and positive semidefinite, and positive definite if all scales are non-zero and the eigenvector matrices are invertible.", "quantifier": "for all data, estimators, iteration counts and dimensions", "why_tests_cant": "definiteness for all vectors and all matrices", "anchors": ["robpy/covariance/ogk.py: OGK.calculate_covariance"]}
{"id": "C68", "title": "KendallTau covariance is symmetric positive semidefinite", "statement": "The matrix built from pairwise Kendall correlations and Qn scales is symmetric, has the squared scales on its diagonal, its correlation has unit diagonal and entries in [-1,1], and it is positive semidefinite when no column is constant.", "quantifier": "for all data matrices without constant columns", "why_tests_cant": "definiteness for all vectors and data", "anchors": ["robpy/covariance/kendall.py: KendallTau.calculate_covariance"]}
{"id": "C69", "title": "truncated_covariance bounds the eigenvalues", "statement": "For a correct symmetric eigen-decomposition the result is symmetric, every quadratic form is at least min_eigenvalue times the squared norm, and if the input is symmetric with all eigenvalues at least min_eigenvalue it is returned unchanged.", "quantifier": "for all square matrices, all bounds and all orthonormal eigen-decompositions returned by eigh", "why_tests_cant": "matrix inequality over all inputs", "anchors": ["robpy/covariance/utils/alter_covariance.py: truncated_covariance"]}
{"id": "C70", "title": "covariance_to_correlation normalises", "statement": "For a matrix with positive diagonal the result has unit diagonal, is symmetric when the input is, is unchanged by positive rescaling of variables, and keeps positive semidefiniteness.", "quantifier": "for all matrices with positive diagonal", "why_tests_cant": "matrix identity over all inputs", "anchors": ["robpy/covariance/utils/alter_covariance.py: covariance_to_correlation"]}
{"id": "C71", "title": "RobustCovariance.fit: non-robust distances use the fitted location", "statement": "The stored classical Mahalanobis distances are computed around the estimator's own location, so they are the classical distances iff that location is the mean; assume_centered=True is overridden by every estimator that sets its own location.", "quantifier": "for all estimators and data", "why_tests_cant": "protocol property over all estimators", "anchors": ["robpy/covariance/base.py: RobustCovariance.fit", "robpy/covariance/ogk.py: OGK.calculate_covariance"]}
{"id": "C72", "title": "CellMCD: delta is the change of the objective", "statement": "For a row and an observed cell, delta equals the increase of the (unpenalised) objective contribution of that row when the cell's indicator is switched from 0 to 1.", "quantifier": "for all rows, patterns, positive definite covariances and dimensions", "why_tests_cant": "a matrix identity (Schur complement, determinant and quadratic form) over all inputs", "anchors": ["robpy/covariance/cellmcd.py: CellMCD._calculate_delta", "robpy/covariance/utils/cellmcd_utils.py: objective_function"]}
{"id": "C73", "title": "CellMCD: updating W is optimal per column and keeps h cells", "statement": "Each column update leaves at least min(h,n) ones in the column, minimises the penalised objective over all column indicators with at least h ones, and therefore never increases the penalised objective.", "quantifier": "for all delta vectors (with +inf for unobserved cells), penalties q and h", "why_tests_cant": "optimality over all subsets", "anchors": ["robpy/covariance/cellmcd.py: CellMCD._update_W"]}
{"id": "C74", "title": "CellMCD returns a W that does not belong to the returned estimates when the objective increases", "statement": "_update_W modifies its argument in place, so when a C-step increases the objective, the location and covariance of the previous step are returned together with the W of the rejected step; when no step is rejected all four results belong to the same step.", "quantifier": "for all runs of the C-step loop", "why_tests_cant": "aliasing over all runs", "anchors": ["robpy/covariance/cellmcd.py: _C_steps_until_convergence, _update_W"]}
{"id": "C75", "title": "CellMCD accepted objective values never increase and the loop terminates", "statement": "The recorded objective values are non-increasing, at most max_c_steps C-steps are accepted, and with max_c_steps = 0 (or crit >= 1) the call raises UnboundLocalError.", "quantifier": "for all data and step outcomes", "why_tests_cant": "loop invariant over all runs", "anchors": ["robpy/covariance/cellmcd.py: _C_steps_until_convergence"]}
{"id": "C76", "title": "CellMCD imputation and predictions are Gaussian conditional expectations", "statement": "The imputed values computed from blocks of the inverse covariance equal mu_m + S_mo S_oo^{-1}(x_o - mu_o), the bias added equals the conditional covariance S_mm - S_mo S_oo^{-1} S_om, and the conditional variance 1/diag(S^{-1}) used for complete rows equals the residual variance given all other cells.", "quantifier": "for all positive definite covariances, partitions and rows", "why_tests_cant": "block-matrix identities over all dimensions", "anchors": ["robpy/covariance/cellmcd.py: _C_step, _predict_missing_values, _predict_no_missing"]}
{"id": "C77", "title": "CellMCD reports precisions instead of variances for fully flagged rows", "statement": "For a row with no observed cell the conditional variances returned are the diagonal of the inverse covariance instead of the diagonal of the covariance; they coincide only if each S_jj equals the corresponding (S^{-1})_jj.", "quantifier": "for all covariance matrices; counterexample exists", "why_tests_cant": "a claim about all rows of a rare pattern", "anchors": ["robpy/covariance/cellmcd.py: _predict_all_missing"]}
{"id": "C78", "title": "CellMCD never marks a missing cell as clean", "statement": "If every column passes the data check with a cutoff of at most 3, then after any number of column updates no unobserved cell has indicator 1; with a cutoff above 3 (quantile above about 0.9973) this can fail.", "quantifier": "for all data passing the check and all numbers of C-steps", "why_tests_cant": "invariant over all iterations and data", "anchors": ["robpy/covariance/cellmcd.py: _check_data, _update_W, calculate_covariance"]}
{"id": "C79", "title": "CellMCD.fit changes alpha", "statement": "fit replaces alpha by max(alpha, (n//2+1)/n), so refitting the same object on a larger data set can use a larger alpha than a fresh object; the effective h is always between n/2 and n.", "quantifier": "for all n and alpha and all fit histories", "why_tests_cant": "history dependence", "anchors": ["robpy/covariance/cellmcd.py: calculate_covariance", "robpy/covariance/initial_ddcw.py: calculate_covariance"]}
{"id": "C80", "title": "CellMCD objective is independent of the grouping", "statement": "Summing the objective over distinct W patterns equals summing the partial Gaussian log-likelihood terms over the rows.", "quantifier": "for all data and W", "why_tests_cant": "a re-association of sums over all groupings", "anchors": ["robpy/covariance/utils/cellmcd_utils.py: objective_function"]}
{"id": "C81", "title": "InitialDDCW flag cap ignores alpha", "statement": "When a column has more than (1-alpha)n flagged cells, exactly int(n*0.25) cells are flagged instead; hence for alpha <= 0.75 every column ends with at most (1-alpha)n flagged cells, while for alpha > 0.75 columns can end with more flagged cells than allowed and more than before.", "quantifier": "for all flag matrices, n and alpha", "why_tests_cant": "quantified over all flag patterns and alphas", "anchors": ["robpy/covariance/initial_ddcw.py: InitialDDCW.calculate_covariance"]}
{"id": "C82", "title": "PCA projection geometry", "statement": "With orthonormal components, squared distance to the centre = squared norm of the scores + squared orthogonal distance for every observation; project is linear after centring; applying project twice is the identity on projected data only if the location is orthogonal to the components (project does not add the location back).", "quantifier": "for all data, locations, orthonormal component matrices", "why_tests_cant": "identities over all dimensions", "anchors": ["robpy/pca/base.py: RobustPCA.transform, project, plot_outlier_map"]}
{"id": "C83", "title": "Number of components", "statement": "With n_components=None the selected k is the smallest number of leading eigenvalues whose cumulative share reaches k_min_var_explained, if any does; if none does, k = 1.", "quantifier": "for all eigenvalue lists and thresholds", "why_tests_cant": "selection over all lists", "anchors": ["robpy/pca/robpca.py: ROBPCA.fit", "robpy/pca/spca.py: PCALocantore.fit"]}
{"id": "C84", "title": "ROBPCA's location is the ordinary mean", "statement": "The location stored by ROBPCA is the column mean of the training data, hence moving a single observation by v moves the location by v/n: it is not robust.", "quantifier": "for all data and all orthonormal full-rank loadings", "why_tests_cant": "identity over all inputs", "anchors": ["robpy/pca/robpca.py: ROBPCA.fit"]}
{"id": "C85", "title": "PCA refit keeps the first number of components", "statement": "fit stores the selected number of components in n_components, so a second fit of an object created with n_components=None does not select the number anew; with an explicit n_components PCALocantore's refit equals a fresh fit.", "quantifier": "for all pairs of data sets", "why_tests_cant": "history dependence", "anchors": ["robpy/pca/robpca.py: ROBPCA.fit", "robpy/pca/spca.py: PCALocantore.fit"]}
{"id": "C86", "title": "ROBPCA components are orthonormal", "statement": "If the loadings, the eigenvector matrices and the final MCD eigenvectors returned by the linear-algebra routines have orthonormal columns, the columns of components_ are orthonormal and there are at most the requested number of them.", "quantifier": "for all data and dimensions", "why_tests_cant": "matrix identity over all dimensions", "anchors": ["robpy/pca/robpca.py: ROBPCA.fit"]}
{"id": "C87", "title": "Drawn ellipse is the tolerance ellipse", "statement": "Every point drawn by draw_ellipse has squared Mahalanobis distance chi2.ppf(quantile,2) from the centre with respect to the covariance, and every point at that distance is the image of a direction; a data point is annotated iff both coordinates are observed and it is strictly outside the ellipse of the annotation quantile, which is the drawn ellipse unless annotation_quantile is given (with it, a point outside the drawn ellipse can stay without text: refuted claim). A singular block raises LinAlgError.", "quantifier": "for all positive definite 2x2 covariances, centres and angles", "why_tests_cant": "an identity at a continuum of points", "anchors": ["robpy/covariance/utils/cellmcd_visualization_utils.py: draw_ellipse, annote_outliers_ellipse"]}
{"id": "C88", "title": "Outlier annotation", "statement": "A point is annotated iff its y-value is outside the horizontal thresholds or, when vertical thresholds are given, its x-value is outside them; thresholds are symmetric around the robust location of the observed values; a point is not annotated through a NaN coordinate (the claim that a point with a NaN coordinate is never annotated is refuted: the other coordinate still counts). Missing horizontal thresholds raise TypeError and a short name list IndexError.", "quantifier": "for all points and thresholds", "why_tests_cant": "universally quantified over points", "anchors": ["robpy/covariance/utils/cellmcd_visualization_utils.py: annote_outliers, get_thresholds"]}
{"id": "C89", "title": "Integer input of the Yeo-Johnson transform", "statement": "Without standardization the Yeo-Johnson result array has the dtype of the input (np.zeros_like), so on an integer array every transformed value is truncated towards zero; distinct integers can collapse and inverse_transform then cannot recover the data.", "quantifier": "for all fitted Yeo-Johnson transformers with standardize=False, all data", "why_tests_cant": "tests use float data; the truncation is silent", "anchors": ["robpy/preprocessing/transfo.py: _transf_yeojohnson, transform"]}
{"id": "C90", "title": "A missing value switches the range checks off", "statement": "transform rejects non-positive data for Box-Cox and inverse_transform clamps values out of range, but both compare with np.min/np.max, which are NaN as soon as one entry is NaN: then neither the rejection nor the clamping takes place, and values out of range become NaN silently.", "quantifier": "for all fitted Box-Cox transformers without standardization, non-integer exponents, all values out of range", "why_tests_cant": "tests combine NaNs with valid data only", "anchors": ["robpy/preprocessing/transfo.py: transform, inverse_transform, _handle_bounds"]}
{"id": "C91", "title": "One joint observation makes a DDC column blind", "statement": "If exactly one training row has usable values in both columns i and j, np.corrcoef of one row is NaN, the NaN weight spreads to the whole column: every prediction for column i is NaN for every row of every table, no cell of the column is ever flagged and its missing cells stay missing after impute.", "quantifier": "for all tables on which fit succeeds, all scale estimators and regressions with finite slopes", "why_tests_cant": "no exception is raised, and tests have many complete rows", "anchors": ["robpy/outliers/ddc.py: DDC._robust_correlation, _get_slopes, _get_predicted_values"]}
{"id": "C92", "title": "DataCleaner.fit reports exactly the unusable columns", "statement": "fit never raises; a column is listed as non-numeric iff it holds a text that is not a number, as discrete iff its non-missing cells take at most min_unique_values different values, and as bad-scale iff it is in neither list, has a finite value and the MAD of its finite values is at most min_abs_scale.", "quantifier": "for all tables with distinct column names, all thresholds", "why_tests_cant": "exact characterisation of three lists over all tables; mutation tests showed that the other cleaner properties leave them open", "anchors": ["robpy/preprocessing/cleaner.py: DataCleaner.fit"]}
{"id": "C93", "title": "SRegression throws an exact fit away", "statement": "If more than half of the residuals are exactly zero, the starting scale (MAD) is 0, the scale iteration stays at 0, every scaled residual is infinite and every weight is 0, so the next step is a least-squares fit with zero weights; on exactly linear data the refinement loop then alternates for ever between the exact model and the zero model.", "quantifier": "for all data, b, c, iteration counts; the loop claim for every fuel", "why_tests_cant": "non-termination; and floating-point rounding hides the exact zeros in tests", "anchors": ["robpy/regression/s.py: SRegression._i_step, _get_weights, fit"]}
{"id": "C94", "title": "SRegression.predict fails on a constant column", "statement": "predict adds its intercept column with statsmodels' add_constant, which skips data that already has a nonzero constant column; a model fitted on data without constant columns therefore raises ValueError on every table with one, in particular on every single row that is not all zero, and otherwise returns intercept plus linear part.", "quantifier": "for all data, fitted models and prediction tables", "why_tests_cant": "tests predict on the training table only", "anchors": ["robpy/regression/s.py: SRegression.fit, predict"]}
{"id": "C95", "title": "DDC rejects exactly non-numeric tables and columns with few values", "statement": "fit raises ValueError and leaves the object unchanged if some column is not numeric or takes at most three different values other than NaN (plus and minus infinity count as values); the check rejects nothing else, and a fit that succeeds saw no such column. The error message says less than 3.", "quantifier": "for all tables and all objects", "why_tests_cant": "an exact characterisation; a mutation of the threshold survived all other DDC properties", "anchors": ["robpy/outliers/ddc.py: DDC._check_data_conditions, fit"]}
{"id": "C96", "title": "MCD estimators cannot be fitted to a single variable", "statement": "For a data set with one column FastMCD and DetMCD never succeed (np.linalg.det rejects the 0-dimensional covariance), except when alpha asks for the classical estimates; FastMCD with default partitions on 2 to 600 observations raises LinAlgError.", "quantifier": "for all univariate data sets and all settings", "why_tests_cant": "the failure concerns a dimension no test uses", "anchors": ["robpy/covariance/mcd.py: FastMCD._get_subset, DetMCD._get_subset"]}
{"id": "C97", "title": "FastMCD is affine equivariant", "statement": "With the same generator, fitting FastMCD to x -> A x + b for an invertible A fails exactly as on the original data, and otherwise returns A m + b and A S A^T for location m and covariance S, the same mask and the same best subset, provided the reweighting mask selects an observation.", "quantifier": "for all data, all invertible A, all b, every tie-breaking and every generator", "why_tests_cant": "equality over all affine maps, through subset search, C-steps, correction and reweighting", "anchors": ["robpy/covariance/mcd.py: FastMCD.calculate_covariance"]}
{"id": "C98", "title": "MCD fails on exact fits", "statement": "If the search of FastMCD or DetMCD produces a candidate with singular covariance (h observations on a hyperplane, the best possible value of the criterion), fitting raises LinAlgError instead of returning it.", "quantifier": "for all data, candidates and settings with tolerance > 0", "why_tests_cant": "needs data with h observations on a hyperplane that the search reaches in its last step", "anchors": ["robpy/covariance/mcd.py: FastMCD.calculate_covariance, DetMCD.calculate_covariance"]}
{"id": "C99", "title": "MCD reweighting", "statement": "The mask selects exactly the observations whose distance with respect to the (corrected) raw estimates is below the square root of the 97.5% chi-square quantile; location and covariance are mean and covariance of these observations, the latter times 0.975 over the gamma probability when the correction is on. Without reweighting the raw estimates are returned.", "quantifier": "for all data, h-subsets with non-singular covariance and quantile functions", "why_tests_cant": "an exact characterisation", "anchors": ["robpy/covariance/mcd.py: FastMCD.calculate_covariance, DetMCD.calculate_covariance"]}
{"id": "C100", "title": "OGK is equivariant under shifts and rescaling of the variables", "statement": "For scale and location estimators that are equivariant, a shift and positive rescaling of every variable changes the OGK location and covariance accordingly (with and without reweighting) and does not change whether and how the method fails.", "quantifier": "for all data, equivariant estimators, orthonormal eigenvector routines, iteration counts, shifts and positive factors", "why_tests_cant": "equality over all data and transformations, through every iteration", "anchors": ["robpy/covariance/ogk.py: OGK.calculate_covariance"]}
{"id": "C101", "title": "OGK reweighting", "statement": "The reweighted estimates are mean and covariance of the rows whose raw distance is below the cutoff; a cutoff factor above one keeps at least half of the rows when the median distance is positive, a factor of at most one keeps at most half, and with median distance zero no row is kept and the fit raises ValueError.", "quantifier": "for all data, raw estimates with non-singular covariance and quantile functions", "why_tests_cant": "counting for all data; the failing case needs half of the rows at the location", "anchors": ["robpy/covariance/ogk.py: OGK.calculate_covariance"]}
{"id": "C102", "title": "OGK of classical estimators is classical", "statement": "With the standard deviation as scale estimator, the mean as location estimator and a correct eigen-decomposition, any positive number of OGK iterations returns the sample mean and the sample covariance.", "quantifier": "for all data with non-singular covariance and all iteration counts", "why_tests_cant": "algebraic identity over all data and iteration counts; shows that the pairwise construction inverts its own transformations correctly", "anchors": ["robpy/covariance/ogk.py: OGK.calculate_covariance"]}
{"id": "C103", "title": "KendallTau and WrappingCovariance report the plain mean as location", "statement": "Neither class assigns location_, so a fit keeps the sample mean set by the base class: for every bound there is a value of a single cell of a single row that pushes the location beyond it.", "quantifier": "for all data, scale estimators and bounds", "why_tests_cant": "breakdown of the reported location for every bound", "anchors": ["robpy/covariance/kendall.py: KendallTau.calculate_covariance", "robpy/covariance/wrapping.py: WrappingCovariance.calculate_covariance", "robpy/covariance/base.py: RobustCovariance.fit"]}
{"id": "C104", "title": "WrappingCovariance variances", "statement": "Every variance of WrappingCovariance is n/(n-1) times the squared scale estimate of the column when the wrapped column is not constant, and 0 otherwise; the matrix is positive semidefinite.", "quantifier": "for all data with at least two rows and all non-negative scale estimates", "why_tests_cant": "identity over all data", "anchors": ["robpy/covariance/wrapping.py: WrappingCovariance.calculate_covariance", "robpy/preprocessing/utils.py: wrapping_transformation"]}
{"id": "C105", "title": "A singular classical covariance makes every fit fail after the robust part succeeded", "statement": "RobustCovariance.fit raises LinAlgError when np.cov of the data is singular although the robust covariance is regular; covariance and robust distances are then set, the distance-distance plot of a new object raises AttributeError, and after an earlier fit on as many rows it silently plots the distances of the earlier data. No estimator can be fitted to a single variable.", "quantifier": "for all estimators, data and object states", "why_tests_cant": "exception-path state over all estimators", "anchors": ["robpy/covariance/base.py: RobustCovariance.fit, distance_distance_plot"]}
{"id": "C106", "title": "CellMCD C-steps never increase the objective", "statement": "From a covariance whose eigenvalues are at least min_eigenvalue, a C-step (update of W, imputation, new estimates, truncation of the eigenvalues) does not increase the penalised objective and gives such a covariance again; hence only the very first C-step can be rejected, and it is not when the eigenvalues of the initial covariance are at least min_eigenvalue.", "quantifier": "for all data, indicator matrices, estimates and dimensions, for every function with ln(ab) = ln a + ln b and ln a <= a - 1", "why_tests_cant": "the EM-type descent argument with truncated eigenvalues is a statement over all data; tests see single runs", "anchors": ["robpy/covariance/cellmcd.py: CellMCD._C_step, _C_steps_until_convergence", "robpy/covariance/utils/alter_covariance.py: truncated_covariance"]}
{"id": "C107", "title": "One missing cell switches InitialDDCW's case deletion off", "statement": "InitialDDCW deletes cases whose clipped squared distance is more than chi2.ppf(0.99,p)/chi2.ppf(0.5,p) times the median; on complete data at least half of the cases are kept. The distances are taken on the data with their missing cells, so one missing cell makes the median NaN and no case is deleted.", "quantifier": "for all data, positive definite covariances and quantiles", "why_tests_cant": "a statement over all data; the NaN comparison is silent", "anchors": ["robpy/covariance/initial_ddcw.py: InitialDDCW.calculate_covariance"]}
{"id": "C108", "title": "InitialDDCW's covariance is positive definite", "statement": "The covariance of InitialDDCW is symmetric and positive definite whenever DDC's scales are positive, with x S x' >= min_eigenvalue * sum (scale_k x_k)^2; with scales of at least 1 its eigenvalues are at least min_eigenvalue and then CellMCD's first C-step is not rejected.", "quantifier": "for all correlation matrices, positive scales and positive min_eigenvalue", "why_tests_cant": "matrix inequality over all dimensions", "anchors": ["robpy/covariance/initial_ddcw.py: InitialDDCW.calculate_covariance", "robpy/covariance/utils/alter_covariance.py: truncated_covariance"]}
{"id": "C109", "title": "Outlier map of a fitted ROBPCA", "statement": "After a successful fit there are never more components than explained variances. If there are equally many, plot_outlier_map divides each squared score by its variance; if there are fewer components and more than one, numpy's broadcasting raises ValueError; with exactly one component and several variances the one squared score is silently divided by every variance and summed.", "quantifier": "for all data, parameters and library routines meeting their contracts", "why_tests_cant": "the mismatch arises when the rank of the covariance of the selected observations is smaller than n_components; tests use full-rank data", "anchors": ["robpy/pca/robpca.py: ROBPCA.fit", "robpy/pca/base.py: RobustPCA.plot_outlier_map"]}
{"id": "C110", "title": "ROBPCA ignores the outlyingness in small samples", "statement": "The h-subset consists of all observations iff alpha = 1 or n <= n_components + 1 (n <= 11 when n_components is None); then the result does not depend on the Stahel-Donoho outlyingness.", "quantifier": "for all alpha, n, n_components and all outlyingness functions", "why_tests_cant": "statement over all sample sizes and outlyingness functions", "anchors": ["robpy/pca/robpca.py: ROBPCA.fit"]}
{"id": "C111", "title": "ROBPCA never fits one-dimensional scores", "statement": "With one variable or one observation (min(n, p) = 1) np.cov returns a 0-dimensional array (or NaN) and fit never succeeds.", "quantifier": "for all data and parameters", "why_tests_cant": "universally quantified failure", "anchors": ["robpy/pca/robpca.py: ROBPCA.fit"]}
{"id": "C112", "title": "ROBPCA checks alpha after overwriting the location", "statement": "An invalid alpha raises ValueError, but only after location_ of the object has been replaced by a zero vector of length min(n, p); the other attributes keep the values of the previous fit.", "quantifier": "for all objects, data and invalid alpha", "why_tests_cant": "state after an exception", "anchors": ["robpy/pca/robpca.py: ROBPCA.fit"]}
{"id": "C113", "title": "ROBPCA fails with the full number of components", "statement": "In exact arithmetic, with n_components >= min(n, p) all orthogonal distances are 0, none is strictly below the cutoff, no observation is selected and fit never succeeds.", "quantifier": "for all data, parameters and orthonormal eigenvectors", "why_tests_cant": "floating-point noise hides it in tests; a statement over all data", "anchors": ["robpy/pca/robpca.py: ROBPCA.fit", "robpy/pca/base.py: get_od_cutoff"]}
{"id": "C114", "title": "ROBPCA fails in the exact fit situation", "statement": "In exact arithmetic, if the h least outlying observations lie in an affine subspace of dimension at most n_components, their orthogonal distances all agree, the univariate MCD scale of the distances is 0, the cutoff is NaN, no observation is selected and fit never succeeds.", "quantifier": "for all data with n > 2, all subspaces, dimensions and alpha", "why_tests_cant": "exact-fit data are the degenerate case robust methods are meant for; needs the spectral structure of the covariance of the h-subset", "anchors": ["robpy/pca/robpca.py: ROBPCA.fit", "robpy/pca/base.py: get_od_cutoff", "robpy/univariate/mcd.py: UnivariateMCD"]}
{"id": "C115", "title": "ROBPCA is orthogonally equivariant", "statement": "If the loadings of the first PCA rotate with the data, then for X Q + v with orthogonal Q the fit succeeds iff it does for X, the components are Q' times the components, the location moves along and the explained variances and n_components are the same.", "quantifier": "for all data, orthogonal matrices and shifts", "why_tests_cant": "matrix statement over all dimensions", "anchors": ["robpy/pca/robpca.py: ROBPCA.fit"]}
{"id": "C116", "title": "Spatial sign covariance of PCALocantore", "statement": "The spatial sign covariance is positive semidefinite with trace 1, depends only on the directions of the observations from the centre, rotates with the data, and replacing one of n observations changes its quadratic form by at most |u|^2/n, however far the observation is moved.", "quantifier": "for all data, centres, rotations and replaced observations", "why_tests_cant": "bounded influence over all outliers and dimensions", "anchors": ["robpy/pca/spca.py: PCALocantore.fit"]}
{"id": "C117", "title": "What PCALocantore fits", "statement": "If the spatial median is not an observation, fit succeeds: the components are the leading min(k, p) eigenvectors (in the order of np.linalg.eigh reversed) of the spatial sign covariance, the variances are the squared normalised MADs of the scores, and n_components is k even when k > p.", "quantifier": "for all data, k and eigendecompositions", "why_tests_cant": "functional specification over all inputs", "anchors": ["robpy/pca/spca.py: PCALocantore.fit"]}
{"id": "C118", "title": "PCALocantore fails when the spatial median is an observation", "statement": "If an observation equals the spatial median, its weight 1/0 makes the spatial sign covariance NaN and eigh raises LinAlgError, after location_ has been overwritten.", "quantifier": "for all objects and data", "why_tests_cant": "degenerate data and the state after an exception", "anchors": ["robpy/pca/spca.py: PCALocantore.fit"]}
{"id": "C119", "title": "Variances of PCALocantore need not descend", "statement": "The claim that the explained variances descend is false: for the rows (+-1, 0), (+-4, +-5) the first component has the smaller variance, because components are ordered by the eigenvalues of the sign covariance and the variances are MADs.", "quantifier": "a witness, for every correct eigendecomposition in ascending order", "why_tests_cant": "tests check the shape of the result only", "anchors": ["robpy/pca/spca.py: PCALocantore.fit"]}
{"id": "C120", "title": "Failures of cell_MCD_plot", "statement": "An unfitted object raises NotFittedError, a bivariate plot without second variable ValueError, an unknown plot type UnboundLocalError (it is not validated), and an index outside -p..p-1 IndexError; negative indices count from the end.", "quantifier": "for all objects, plot types and indices", "why_tests_cant": "error behaviour over all arguments", "anchors": ["robpy/covariance/cellmcd.py: CellMCD.cell_MCD_plot"]}
{"id": "C121", "title": "Contents of the cellwise MCD figures", "statement": "The index plot shows the residuals, lines at -/+ sqrt(chi2.ppf(quantile,1)) and the texts of exactly the cases beyond the annotation cutoff; the bivariate plot shows the ellipse of self.quantile, the points, the texts of exactly the observed points outside the annotation ellipse and the four threshold lines; annotation_quantile changes nothing but the texts; without row names there are none.", "quantifier": "for all fitted objects, variables, quantiles and names", "why_tests_cant": "functional specification of the figure over all inputs; image tests cannot cover it", "anchors": ["robpy/covariance/cellmcd.py: CellMCD.cell_MCD_plot"]}
{"id": "C122", "title": "Annotation is monotone in the quantile", "statement": "For every plot type, raising annotation_quantile (so that the chi-square quantiles do not decrease) only removes texts: every text of the figure with the larger quantile is in the figure with the smaller one.", "quantifier": "for all fitted objects, plot types and pairs of quantiles, for scale estimates that are nonnegative or NaN", "why_tests_cant": "relates two runs over all inputs", "anchors": ["robpy/covariance/cellmcd.py: CellMCD.cell_MCD_plot", "robpy/covariance/utils/cellmcd_visualization_utils.py"]}
{"id": "C123", "title": "Preliminary correlation estimates of DetMCD", "statement": "Whenever the data can be standardised, the first three preliminary estimates (tanh, ranks, normal scores) are finite and are correlation matrices: symmetric positive semidefinite, unit diagonal, entries in [-1, 1]. The ranks are the average places in the sorted column and the arguments of the normal quantile function lie strictly between 0 and 1.", "quantifier": "for all data, every injective tanh and every increasing quantile function", "why_tests_cant": "universal; depends on ties and on NaN never arising", "anchors": ["robpy/covariance/mcd.py: DetMCD._get_initial_estimates"]}
{"id": "C124", "title": "Preliminary scatter estimates of DetMCD", "statement": "The spatial sign estimate is NaN exactly when an observation equals the coordinatewise median, and otherwise is positive semidefinite with trace 1; the fifth estimate is the sample covariance of the ceil(n/2) rows of smallest norm; the OGK estimate is positive semidefinite.", "quantifier": "for all data that can be standardised, every correct argsort", "why_tests_cant": "functional specification over all data", "anchors": ["robpy/covariance/mcd.py: DetMCD._get_initial_estimates"]}
{"id": "C125", "title": "Rank-based estimates of DetMCD depend on the ordering only", "statement": "Two data sets of which every column is ordered alike (for instance after strictly increasing transformations of the variables) have the same rank correlation estimate and the same normal scores estimate.", "quantifier": "for all pairs of data sets ordered alike that can be standardised", "why_tests_cant": "relational, over all monotone transformations", "anchors": ["robpy/covariance/mcd.py: DetMCD._get_initial_estimates"]}
{"id": "C126", "title": "Initial location and scatter of DetMCD", "statement": "From a symmetric estimate S the initial scatter is positive definite, has the eigenvectors of S and, as eigenvalues, the squared Qn scales of the projections of the data on them; if one of these scales is 0 LinAlgError is raised. The initial location is the point whose coordinates in the data sphered by the symmetric square root of that scatter are the medians.", "quantifier": "for all data and symmetric S, every correct eigendecomposition and matrix square root, more than one variable", "why_tests_cant": "functional specification over all data", "anchors": ["robpy/covariance/mcd.py: DetMCD._get_initial_estimates"]}
{"id": "C127", "title": "DetMCD follows rescaling of the variables", "statement": "Multiplying each variable by a positive number and adding a constant transforms the complete result of DetMCD accordingly, with the same subset and the same weights; if the fit fails it fails with the same exception.", "quantifier": "for all data, positive factors, shifts, alpha, tolerance and options, for results whose weights are not all zero", "why_tests_cant": "relates two complete runs over all data", "anchors": ["robpy/covariance/mcd.py: DetMCD.calculate_covariance"]}
{"id": "C128", "title": "Data on which DetMCD fails", "statement": "If an observation equals the coordinatewise median (a zero norm gives NaN in the spatial sign estimate), or more than half of the values of a variable are equal (its scale is 0), DetMCD raises an exception, for every alpha other than 1 and n.", "quantifier": "for all data with such an observation or variable, all options", "why_tests_cant": "degenerate data; typical tests use continuous data with an even number of observations", "anchors": ["robpy/covariance/mcd.py: DetMCD.calculate_covariance", "robpy/covariance/mcd.py: DetMCD._get_initial_estimates"]}
{"id": "C129", "title": "DetMCD needs more than 2p observations", "statement": "With p >= 2 variables and n <= 2p observations DetMCD always raises an exception, whatever the data: the covariance of the ceil(n/2) central rows is singular, so a Qn scale or a matrix square root is zero.", "quantifier": "for all data with n <= 2p, all options other than alpha 1 or n", "why_tests_cant": "holds for every data set of that size", "anchors": ["robpy/covariance/mcd.py: DetMCD._get_initial_estimates"]}
{"id": "C130", "title": "DetMCD succeeds in general position", "statement": "If no hyperplane contains more than a quarter of the observations and no observation equals the coordinatewise median, DetMCD returns a result, and the covariance of its best subset is positive definite.", "quantifier": "for all such data with at least two variables, every valid alpha other than 1 and n, every positive tolerance, correct numerical routines", "why_tests_cant": "termination without exception over all data in general position", "anchors": ["robpy/covariance/mcd.py: DetMCD.calculate_covariance"]}
{"id": "C131", "title": "Standardised residuals of the outlier map have unit scale", "statement": "With robust scaling and a nonzero MAD the standardised residuals are the residuals divided by one positive number and their normalised MAD is 1; without it, if the residuals are not all equal, their standard deviation (divisor n) is 1.", "quantifier": "for all residual vectors", "why_tests_cant": "universal statement about a normalisation", "anchors": ["robpy/regression/base.py: RobustRegression.outlier_map"]}
{"id": "C132", "title": "The outlier map of an exact fit", "statement": "If more than half of the residuals are equal (robust scaling) or all are equal (otherwise), every standardised residual is infinite with the sign of the residual, or NaN for a zero residual: the perfectly fitted points disappear from the map.", "quantifier": "for all such residual vectors", "why_tests_cant": "degenerate data", "anchors": ["robpy/regression/base.py: RobustRegression.outlier_map"]}
{"id": "C133", "title": "The non-robust outlier map masks outliers in small samples", "statement": "Without robust scaling no residual vector with sum zero and n - 1 <= threshold^2 (n <= 7 for the default 2.5) shows a vertical outlier, however large a residual is; without robust distances no squared distance exceeds (n-1)^2/n, so no leverage point is shown if that is at most the chi-square quantile.", "quantifier": "for all residuals with sum zero, all data, all thresholds", "why_tests_cant": "an impossibility over all data sets; a test only shows that some outlier is missed", "anchors": ["robpy/regression/base.py: RobustRegression.outlier_map"]}
{"id": "C134", "title": "The robust outlier map shows large residuals", "statement": "If more than half of the residuals lie in an interval of length L, every residual with q75*|r| > threshold*L is beyond the threshold in the map with robust scaling, whatever the other residuals are.", "quantifier": "for all residual vectors, intervals and thresholds", "why_tests_cant": "quantifies over arbitrary contamination", "anchors": ["robpy/regression/base.py: RobustRegression.outlier_map"]}
{"id": "C135", "title": "No outlier map with a single regressor", "statement": "With one regressor outlier_map always raises an exception, with robust distances (FastMCD cannot be fitted to one variable) and without (the covariance is zero-dimensional and cannot be inverted).", "quantifier": "for all data, options and fitted models with one regressor", "why_tests_cant": "holds for every data set; simple regression is the textbook case", "anchors": ["robpy/regression/base.py: RobustRegression.outlier_map", "robpy/covariance/mcd.py: FastMCD._get_subset"]}
{"id": "C136", "title": "The outlier map is equivariant", "statement": "A nonsingular affine transformation of the regressors together with a positive rescaling of y, for a regression method whose predictions follow, leaves the standardised residuals, the robust or classical distances and the drawn figure unchanged and rescales the returned residuals.", "quantifier": "for all data, transformations, options and random numbers", "why_tests_cant": "relates two complete runs, including FastMCD", "anchors": ["robpy/regression/base.py: RobustRegression.outlier_map"]}
{"id": "C137", "title": "Contents and failures of the outlier map", "statement": "The figure shows the points (distance, standardised residual), lines at +/- the vertical threshold and at the root of the chi-square quantile; return_data only adds the returned tuple of exactly these values. A pandas Series as y raises AttributeError although fit accepts it, and an exception of predict is passed on.", "quantifier": "for all inputs and options", "why_tests_cant": "functional specification of the figure over all inputs", "anchors": ["robpy/regression/base.py: RobustRegression.outlier_map"]}
{"id": "C138", "title": "The final MCD step of ROBPCA", "statement": "With one component requested, the result of ROBPCA.fit does not depend on final_MCD_step nor on the MCD estimator. After any fit the number of components is at most the number requested, and with the final step, when it exceeds one, at most the rank of the MCD covariance of the scores of all observations.", "quantifier": "for all data, parameters, numerical routines and MCD estimators", "why_tests_cant": "the outcome is a relation between runs with different estimators and a bound for every covariance", "anchors": ["robpy/pca/robpca.py: ROBPCA.fit"]}
{"id": "C139", "title": "Initial candidates of SRegression", "statement": "The list of candidates consists of the starts in the order of the seeds, without exactly those starts in which an i-step raised LinAlgError: these are dropped silently. With at most p observations fit raises ValueError; when all starts are dropped, none is requested, or no best model is kept, fit raises ValueError from argmin of an empty list.", "quantifier": "for all data, rho functions, solvers and random subsets", "why_tests_cant": "characterises the candidate list in both directions; failing solvers are hard to provoke", "anchors": ["robpy/regression/s.py: SRegression._get_initial_models", "robpy/regression/s.py: SRegression.fit"]}
{"id": "C140", "title": "SRegression refines the candidates with the smallest scales", "statement": "With a correct argsort and finite scales the refined candidates are min(n_best_models, number of candidates) different ones, and every candidate left out has an initial scale at least as large as each refined one.", "quantifier": "for all scales and n_best_models", "why_tests_cant": "all orderings and ties", "anchors": ["robpy/regression/s.py: SRegression.fit"]}
{"id": "C141", "title": "MCD with alpha equal to 1 or n", "statement": "With alpha equal to 1 or to the number of observations, given as an int or as a float, FastMCD and DetMCD return the plain mean and covariance, whatever the other arguments, without an h-subset and without a mask.", "quantifier": "for all data, options, random numbers and preliminary estimates", "why_tests_cant": "independence of every other argument", "anchors": ["robpy/covariance/mcd.py: FastMCD.calculate_covariance", "robpy/covariance/mcd.py: DetMCD.calculate_covariance"]}
{"id": "C142", "title": "FastMCD partition arguments that cannot work", "statement": "With fewer initial subsets than partitions FastMCD raises IndexError; with n_best_subsets = 0 it never succeeds; with n_partitions = 0 it raises ValueError; with fewer than k(p+1) observations for k partitions it never succeeds.", "quantifier": "for all data, options and random numbers", "why_tests_cant": "every combination of arguments and random numbers", "anchors": ["robpy/covariance/mcd.py: FastMCD.calculate_covariance", "robpy/covariance/mcd.py: FastMCD._partition_data"]}
{"id": "C143", "title": "FastMCD without initial C-steps fails", "statement": "For data in general position and h different from p + 1, FastMCD with n_initial_c_steps = 0 and one partition raises ValueError: the convergence test compares p + 1 indices with h indices.", "quantifier": "for all data in general position, all random numbers and options", "why_tests_cant": "all data sets and random subsets", "anchors": ["robpy/covariance/mcd.py: FastMCD.calculate_covariance"]}
{"id": "C144", "title": "The cellwise MCD in other units", "statement": "For a location and scale equivariant univariate estimator, when each variable is multiplied by a positive number and shifted and the MAD check passes in both units, CellMCD gives the same outcome: the same alpha, the same exception or the same W and residuals, and converted location, covariance, predictions, standard deviations and imputed data.", "quantifier": "for all data with missing cells, all units, all initial estimators and parameters", "why_tests_cant": "a relation between two runs for every data set and every change of units", "anchors": ["robpy/covariance/cellmcd.py: CellMCD.calculate_covariance"]}
{"id": "C145", "title": "The MAD threshold of the cellwise MCD is absolute", "statement": "CellMCD refuses variables whose MAD is below 1e-8 in the units given: for every data set there is a factor c > 0 such that fit raises ValueError on the data multiplied by any positive d <= c, even when the fit on the original data succeeds; so fit is not scale equivariant.", "quantifier": "for all data, estimators and parameters; a witness for the failure of equivariance", "why_tests_cant": "an infinite family of rescalings of every data set", "anchors": ["robpy/covariance/cellmcd.py: CellMCD.calculate_covariance"]}
{"id": "C146", "title": "A cellwise MCD fit succeeds when its checks pass", "statement": "When alpha, min_eigenvalue, the MADs and the number of outlying and missing cells pass the checks, crit < 1, at least one C-step is allowed and the initial estimator gives a positive definite covariance, fit succeeds: the covariance in the original units is positive definite, every variable keeps at least h clean cells, clean cells are observed, within three scales of the location and kept in X_imputed, all other cells are replaced by their prediction, nothing is missing in X_imputed and all standard deviations are positive.", "quantifier": "for all data with missing cells, all initial estimators with positive definite covariance, all orders of eigenvalues", "why_tests_cant": "totality of a whole fit on every data set that passes the checks", "anchors": ["robpy/covariance/cellmcd.py: CellMCD.calculate_covariance"]}
{"id": "C147", "title": "Predictions of the cellwise MCD in the original units", "statement": "After a fit, for a row with a clean cell, the prediction of every cell is the conditional expectation given the other clean cells of the row under the fitted location_ and covariance_, and conditional_stds squared is the conditional variance, all in the original units.", "quantifier": "for all data, rows, cells and clean patterns", "why_tests_cant": "conditional distributions for every pattern of clean cells", "anchors": ["robpy/covariance/cellmcd.py: CellMCD.calculate_covariance"]}
