# Formal model of robpy: design

## What this is

`rocq/theories` contains a shallow Gallina model of the numerical core of
`/repo/robpy` (commit pinned by the task), together with independent
specifications and machine-checked proofs (Rocq/Coq 8.16.1).  Every definition
of the model carries a comment citing the Python file and lines it models and
every simplification made.  The properties are listed in `properties.jsonl`;
`MANIFEST.json` maps each of them to the theorems that establish it.

File naming per topic `X`:

* `X_Model.v`  – the code, function by function (definitions only);
* `X_Spec.v`   – independent specification (definitions only), when more than a
  line or two is needed;
* `X_Proofs.v` – lemmas;
* `X_Props.v`  – the property theorems (closed by `exact lemma`), with concrete
  `Example`s showing that hypotheses are satisfiable, and `Print Assumptions`.

## Number model

Two number worlds are used.

* **World 1 (axiom free).**  Algorithms that only compare, add, multiply and
  divide are modelled over an arbitrary mathcomp `realFieldType`, or `rcfType`
  where a square root occurs.  Matrices are mathcomp matrices.  The theorems are
  thus valid for the rationals, the real algebraic numbers and the reals.
* **World 2.**  Code using `exp`, `log`, powers, derivatives is modelled over
  the standard library's `R`; its axioms (`ClassicalDedekindReals.sig_forall_dec`,
  `ClassicalDedekindReals.sig_not_dec`, `functional_extensionality_dep`, and where
  stated `Classical_Prop.classic`) are the only ones that appear in
  `Print Assumptions`.

Python floats are modelled by exact numbers: **rounding, overflow and
underflow are not modelled**.  Where the code's control flow depends on NaN or
infinities (division by zero, missing cells) an extended number type with
IEEE-like special values (`xnum`: finite, +inf, -inf, NaN) is used, or missing cells are
`option` values.  Exceptions are values (`res A := Ok a | Err e`).  `while`
loops are functions with fuel that return a distinguished out-of-fuel
value; termination theorems show that some fuel suffices (and non-termination
theorems that none does).

External routines are parameters of the model constrained only by what their
documentation promises and what the proof needs; each such promise is a visible
hypothesis of the theorem: `np.linalg.eigh`/`svd` (orthonormal
decomposition), `np.linalg.inv` (modelled by the exact inverse, `LinAlgError` on a
singular matrix), scikit-learn's `LinearRegression` (exact least squares),
`scipy.optimize.minimize_scalar` (arbitrary result), `chi2.ppf`/`norm.ppf` (arbitrary
positive numbers), NumPy's random generators (arbitrary functions of the
seed/state), `np.argsort`/`argpartition`/`partition` (any permutation meeting their
documentation, or a concrete stable sort where the order is documented).

## Trusted base

* Coq's kernel (`coqc` 8.16.1, `coqchk`), including its `vm_compute` machine which is used in
  some examples.
* What `Print Assumptions` prints below each theorem in the `*_Props.v` files: nothing for
  World 1, the three standard-library real-number axioms and `Classical_Prop.classic` (used by the
  standard library's lemmas on `Rpower`, `ln` and `sqrt`) for World 2 (`Transfo_Props.v`, `LTSCorr_Props.v`).
* The theorems on the cellwise MCD are axiom free; they hold for every function `ln` with
  `ln (ab) = ln a + ln b` and `ln a <= a - 1` (`is_log`).  `RInst.v` shows that the standard library's
  `R` with its `ln` is such a case; this instance alone also uses
  `ClassicalEpsilon.constructive_indefinite_description`.
* The faithfulness of the hand-written model to the Python text (cited line by line), and the
  behaviour of the external routines as listed above.

Not modelled: the rendering of plots (figures are lists of drawn items), data-set loading,
scikit-learn/pandas input validation internals, floating-point rounding, `scipy`'s statistical
distribution functions, `statsmodels.medcouple`, warnings and log messages' texts.

## Plan per property

* **C01 weighted_median returns a weighted median.** executable model on lists over a realFieldType with fuel; invariant `2*wrest <= wtotal < 2*(wrest + sum of candidate weights)`; induction on candidate count.
* **C02 weighted_median on all-zero weights.** same model, induction on the number of candidates for zero weights.
* **C03 l1median iterations never increase the sum of distances.** one Weiszfeld step over an rcfType; majorisation `d(new) <= d(old)` via `2ab <= a^2+b^2`.
* **C04 l1median does not return when the mean is an observation.** model with xnum arithmetic; induction on fuel: after the first step the iterate is NaN in each coordinate and stays so.
* **C05 l1median stays inside the data's bounding box and is translation equivariant.** convex combination argument on the step function.
* **C06 mahalanobis_distance is affine invariant.** mathcomp matrices over a field; `invmx` algebra; definiteness by hypothesis.
* **C07 inverse_submatrix returns the inverse of the submatrix.** mathcomp block matrices; three branches; Schur-complement identity; permutation witness for the refutation.
* **C08 Tukey bisquare: psi is the derivative of rho, which is even, bounded and monotone.** epsilon-delta derivative over any ordered field, proved with quadratic remainder bounds; axiom-free.
* **C09 Huber: psi is the derivative of rho, which is even, convex-like and monotone.** epsilon-delta derivative over any ordered field, proved with quadratic remainder bounds; axiom-free.
* **C10 stahel_donoho with a seed uses one direction only.** generator as a function of the seed; list of directions is constant; max over identical columns.
* **C11 Stahel-Donoho outlyingness is non-negative and invariant.** median/MAD on lists; invariance lemmas of the median.
* **C12 get_logger leaves exactly one handler.** state machine for the logging registry; invariant by induction over the history.
* **C13 Qn equals the k-th smallest pairwise distance.** executable model of the loop (1-based row borders, Python negative index modelled explicitly); invariants relating left/right borders to counts; strict decrease of nR-nL; k-th order statistic specification by counting.
* **C14 Qn rejects fewer than two observations.** same model.
* **C15 Qn scale is permutation invariant, shift invariant and scale equivariant.** from C13 by uniqueness of the k-th order statistic.
* **C16 Qn resists contamination.** from C13 by counting pairs.
* **C17 UnivariateMCD finds the minimum variance over all h-subsets.** variance identity; exchange argument: for any h-subset some contiguous window of the sorted list has no larger variance.
* **C18 UnivariateMCD h selection.** function on (n, alpha) with alpha as a tagged union; arithmetic.
* **C19 UnivariateMCD returns NaN when h observations coincide.** xnum division; majority argument.
* **C20 UnivariateMCD location and scale equivariance.** algebra on the window scan.
* **C21 OneStepM location is a proper weighted mean and the scale is bounded by the MAD.** list model over rcfType; half of the residuals are at most one MAD.
* **C22 OneStepM equivariance.** equivariance of median and MAD.
* **C23 OneStepM resists contamination.** bounds of median/MAD under a clean majority.
* **C24 OneStepWrapping weights and location.** stdlib R for tanh; convex combination.
* **C25 Tau estimator bounds.** list model with xnum for the division by zero.
* **C26 RobustScale.fit NaN policy.** object state machine.
* **C27 adjusted_boxplot statistics are ordered.** lists over R (exp of the medcouple is positive).
* **C28 RobustScaler round trip.** elementwise algebra, xnum for zero scales.
* **C29 Fitting one RobustScaler does not disturb another.** heap model with one shared estimator cell.
* **C30 wrapping_transformation shape.** pointwise model over R (tanh).
* **C31 wrapping_transformation with rescaling reproduces location and scale.** list model: algebra of mean and standard deviation.
* **C32 Box-Cox round trip.** R: Rpower/ln algebra; bounds computed as in the code.
* **C33 Yeo-Johnson round trip.** R: Rpower/ln algebra, both signs, special lambdas.
* **C34 Power transforms are strictly increasing.** R: monotonicity of Rpower.
* **C35 inverse_transform out of range.** R: explicit witness for the refutation, definedness of the inverse.
* **C36 Rectified transforms are continuous and increasing.** R: Coquelicot continuity/derivative at the changepoint; witness for lambda=2.
* **C37 The lambda search range is never extended.** optimizer as an arbitrary function; tagged Python values (list minus int is TypeError).
* **C38 method='auto' is forgotten after the first fit.** object state machine.
* **C39 DataCleaner output is a sub-table of the input.** tables as lists of named columns of optional cells.
* **C40 DataCleaner missing-value guarantees.** same model; counting.
* **C41 DataCleaner.transform depends on earlier transforms.** same model; witnesses by computation.
* **C42 DDC.impute changes only flagged or missing cells.** table model with rounding function abstract.
* **C43 DDC predictions are row-local and never use the predicted cell.** row function; non-interference lemma.
* **C44 DDC weights are a convex combination or all zero.** sums over columns with options.
* **C45 DDC.min_correlation below 0.5 has no effect, above 0.5 shrinks predictions.** same model, two configurations.
* **C46 DDC flags are exactly the large standardized residuals; predict agrees with fit.** same model; fit and predict call the same row functions.
* **C47 DDC before fit.** object state machine.
* **C48 DDC robust correlation matrix.** matrix built by loops as a function on indices.
* **C49 LTS C-step never increases the loss.** argsort oracle (any sorting permutation); least-squares oracle; exchange argument.
* **C50 LTS C-steps terminate.** finite number of subsets, strictly decreasing losses.
* **C51 LTS keeps the best candidate.** fold over candidates.
* **C52 LTS subset size.** Z arithmetic with floor.
* **C53 LTS small-sample correction factors.** R: exp/ln; Interval or hand bounds for the witness.
* **C54 LTS reweighting uses the non-robust standard deviation.** rcfType; algebra of mean/variance for two-valued residuals.
* **C55 SRegression's default M-scale equation has no solution.** R; bound of rho; geometric decay.
* **C56 SRegression failure handling.** loop with step outcomes as oracle.
* **C57 SRegression scale loop.** loop over an rcfType.
* **C58 MMRegression step is not weighted least squares.** 2-column least squares over a field; normal equations; rational witness.
* **C59 MMRegression fails on an exactly fitted observation.** xnum for 0/0, loop counter.
* **C60 MMRegression objects share the default initial estimator.** heap model.
* **C61 MCD C-step never increases the determinant.** mathcomp matrices over an rcfType; AM-GM / log-free determinant inequality via Cholesky-like induction.
* **C62 FastMCD and DetMCD do not iterate to convergence.** loop model with C61; witness data set over the rationals.
* **C63 FastMCD with integer alpha fails on more than 600 observations.** Z arithmetic on partition sizes.
* **C64 FastMCD/DetMCD subset size.** Z arithmetic with floor.
* **C65 MCD consistency correction.** median is homogeneous; distances scale inversely.
* **C66 Data partitioning covers the data.** array_split on lists.
* **C67 OGK covariance is symmetric positive semidefinite.** mathcomp matrices; quadratic form identities.
* **C68 KendallTau covariance is symmetric positive semidefinite.** Kendall matrix as Gram matrix of sign vectors.
* **C69 truncated_covariance bounds the eigenvalues.** spectral form with orthonormal eigenvectors.
* **C70 covariance_to_correlation normalises.** diagonal congruence.
* **C71 RobustCovariance.fit: non-robust distances use the fitted location.** object state machine over abstract estimators.
* **C72 CellMCD: delta is the change of the objective.** block matrices, Schur complement determinant and quadratic form.
* **C73 CellMCD: updating W is optimal per column and keeps h cells.** lists; smallest deltas are chosen; exchange argument.
* **C74 CellMCD returns a W that does not belong to the returned estimates when the objective increases.** heap model of the array W.
* **C75 CellMCD accepted objective values never increase and the loop terminates.** loop with C-step as an oracle.
* **C76 CellMCD imputation and predictions are Gaussian conditional expectations.** block-inverse identities.
* **C77 CellMCD reports precisions instead of variances for fully flagged rows.** 1x1 witness and general characterisation.
* **C78 CellMCD never marks a missing cell as clean.** invariant over column updates with counting.
* **C79 CellMCD.fit changes alpha.** state machine with rational alpha.
* **C80 CellMCD objective is independent of the grouping.** sum over rows = sum over classes (bigop partition).
* **C81 InitialDDCW flag cap ignores alpha.** lists; counting.
* **C82 PCA projection geometry.** matrix algebra.
* **C83 Number of components.** argmax over cumulative sums on lists.
* **C84 ROBPCA's location is the ordinary mean.** matrix algebra.
* **C85 PCA refit keeps the first number of components.** state machine.
* **C86 ROBPCA components are orthonormal.** matrix algebra.
* **C87 Drawn ellipse is the tolerance ellipse.** rcfType/R; rotation and eigen-decomposition of a 2x2 matrix.
* **C88 Outlier annotation.** boolean filter on points.
* **C89 Integer input of the Yeo-Johnson transform.** R; truncation as a parameter of the stored array.
* **C90 A missing value switches the range checks off.** extended reals.
* **C91 One joint observation makes a DDC column blind.** NaN propagation through the weights.
* **C92 DataCleaner.fit reports exactly the unusable columns.** counting of distinct cells against covering lists; membership in filtered column lists.
* **C93 SRegression throws an exact fit away.** median of absolute values is 0; invariant of the refinement loop; weighted least squares as an oracle.
* **C94 SRegression.predict fails on a constant column.** model of add_constant (has_constant='skip'), shape check of the matrix product.
* **C95 DDC rejects exactly non-numeric tables and columns with few values.** extended numbers coded into a type with decidable equality; pigeonhole on lists without duplicates.
* **C96 MCD estimators cannot be fitted to a single variable.** every path builds an h-subset first; case analysis on the run.
* **C97 FastMCD is affine equivariant.** simulation between the two runs, step by step: distances are invariant (LinAlg), determinants scale by det(A)^2, so every comparison and sort agrees.
* **C98 MCD fails on exact fits.** the trial C-step of the final loop inverts the covariance of every candidate.
* **C99 MCD reweighting.** unfolding, with mean and covariance characterised independently.
* **C100 OGK is equivariant under shifts and rescaling.** induction on the iterations; the correlation-like matrix is unchanged, so the eigenvectors are the same.
* **C101 OGK reweighting.** median counting lemmas.
* **C102 OGK of classical estimators is classical.** induction on the iterations with `cov (X A) = A^T cov(X) A`.
* **C103 KendallTau and WrappingCovariance report the plain mean.** unfolding of the base class with an unassigned location; explicit witness row.
* **C104 WrappingCovariance variances.** from the rescaling property C31.
* **C105 A singular classical covariance makes every fit fail.** object state machine with exceptions as values.
* **C106 CellMCD C-steps never increase the objective.** EM argument: the conditional term splits off a Gaussian log-likelihood term (`Gauss_Proofs.v`), `ln det` against trace, optimality of the truncated covariance.
* **C107 One missing cell switches InitialDDCW's case deletion off.** `np.median` with a NaN; comparisons with NaN are false; half of the values are at most the median.
* **C108 InitialDDCW's covariance is positive definite.** truncated eigenvalues, then scaling on both sides.
* **C109 Outlier map of a fitted ROBPCA.** numpy broadcasting rule; the numbers of components and of variances from the run.
* **C110 ROBPCA ignores the outlyingness in small samples.** floor arithmetic on rationals; the covariance is invariant under permutation.
* **C111 ROBPCA never fits one-dimensional scores.** case analysis on the run.
* **C112 ROBPCA checks alpha after overwriting the location.** object state; centred scores have mean 0.
* **C113 ROBPCA fails with the full number of components.** square orthonormal matrices; univariate MCD of zeros.
* **C114 ROBPCA fails in the exact fit situation.** rank argument: eigenvectors beyond the dimension of the subspace have eigenvalue 0, hence are orthogonal to all differences; tied distances give a NaN cutoff (the exact fit of the univariate MCD).
* **C115 ROBPCA is orthogonally equivariant.** the scores are unchanged.
* **C116 Spatial sign covariance of PCALocantore.** trace, Cauchy-Schwarz, norm invariance.
* **C117 What PCALocantore fits.** unfolding; reordering of the columns of an eigendecomposition.
* **C118 PCALocantore fails when the spatial median is an observation.** case analysis on the run.
* **C119 Variances of PCALocantore need not descend.** explicit witness; eigenvectors of a diagonal 2x2 matrix are determined up to sign.
* **C120 Failures of cell_MCD_plot.** index arithmetic on int; the branches of the function.
* **C121 Contents of the cellwise MCD figures.** a figure is a list of drawn items; composition of C87/C88 with the dispatch.
* **C122 Annotation is monotone in the quantile.** threshold intervals and ellipses grow; the loops keep the inclusion.
* **C123 Preliminary correlation estimates of DetMCD.** Cauchy-Schwarz for covariances; standardised columns are not constant; counting ranks.
* **C124 Preliminary scatter estimates of DetMCD.** Gram matrices, traces; contract of argsort.
* **C125 Rank-based estimates of DetMCD depend on the ordering only.** ranks only count comparisons.
* **C126 Initial location and scatter of DetMCD.** orthonormal axes; the square root of a positive definite matrix is invertible.
* **C127 DetMCD follows rescaling of the variables.** the standardised data are unchanged; the C-steps are affine equivariant (C63).
* **C128 Data on which DetMCD fails.** Qn and tau vanish under a majority of ties; a zero row is NaN.
* **C129 DetMCD needs more than 2p observations.** the covariance of at most p rows is singular; its kernel direction has Qn scale 0 or makes the scatter singular.
* **C130 DetMCD succeeds in general position.** the condition on hyperplanes is kept by every linear map; it makes every Qn scale, median distance and determinant of the run positive.
* **C131 Standardised residuals of the outlier map have unit scale.** equivariance of MAD and variance.
* **C132 The outlier map of an exact fit.** MAD under a majority of ties; division by zero.
* **C133 The non-robust outlier map masks outliers in small samples.** Cauchy-Schwarz on a list with sum zero, also for the inner products of one observation with all others.
* **C134 The robust outlier map shows large residuals.** MAD under a majority in an interval.
* **C135 No outlier map with a single regressor.** C96 and the zero-dimensional covariance.
* **C136 The outlier map is equivariant.** C97, C06 through the fit of FastMCD.
* **C137 Contents and failures of the outlier map.** unfolding the run.
* **C138 The final MCD step of ROBPCA.** case analysis of the steps of the fit.
* **C139 Initial candidates of SRegression.** induction on the seeds; an independent relation for the i-steps of one start.
* **C140 SRegression refines the candidates with the smallest scales.** positions in a sorted permutation.
* **C141 MCD with alpha equal to 1 or n.** case analysis on alpha.
* **C142 FastMCD partition arguments that cannot work.** C66 and induction on the partitions.
* **C143 FastMCD without initial C-steps fails.** invariant of the initial subsets through both sorts.
* **C144 The cellwise MCD in other units.** the standardised data are the same; back transformation by field arithmetic.
* **C145 The MAD threshold of the cellwise MCD is absolute.** MAD equivariance; a concrete fit of ten rows.
* **C146 A cellwise MCD fit succeeds when its checks pass.** C74-C78 composed with the standardisation.
* **C147 Predictions of the cellwise MCD in the original units.** C76 and the change of regression coefficients under diagonal scaling.

`Spectral_Proofs.v` proves the spectral theorem for symmetric matrices over a real closed field (induction with
Householder reflections; a real eigenvalue from the complex characteristic polynomial).  It shows that the contract
`correct_eigh` assumed of `np.linalg.eigh` can be met for every size.
