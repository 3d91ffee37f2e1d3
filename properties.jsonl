{"id": "C01", "title": "Running mean equals the arithmetic mean", "statement": "After any sequence of successful update() calls with non-empty batches on Mean or Covariance, the number of observations equals the total number of rows supplied and mean() equals, coordinate by coordinate, the sum of all rows supplied so far divided by their number (exact arithmetic). Before the first row mean() is NaN.", "quantifier": "every dimension, every finite sequence of batches, every batch size >= 1, every row value", "why_tests_cant": "The incremental formula is only correct if it is correct for every split of every data set; tests sample a few splits of one random stream.", "anchors": ["src/primate/stats.py: Mean.update, Mean.mean, Mean.__call__, Covariance.update"]}
{"id": "C02", "title": "Running covariance equals the two-pass covariance", "statement": "After any sequence of successful update() calls on Covariance, covariance(ddof) equals sum_k (x_k - xbar)(x_k - xbar)^T / (n - ddof) over all rows ever supplied, for every integer ddof < n (exact arithmetic).", "quantifier": "every dimension, every finite batch history, every integer ddof below the sample count", "why_tests_cant": "Welford-style merging must be right for each of the infinitely many ways of batching the same data.", "anchors": ["src/primate/stats.py: Covariance.update, Covariance.__call__"]}
{"id": "C03", "title": "Batching and order do not matter", "statement": "Two update histories whose concatenated rows are permutations of one another leave Mean and Covariance with the same observable count, mean and covariance.", "quantifier": "every pair of histories with permuted rows, every dimension", "why_tests_cant": "The set of splits and permutations is unbounded; a test compares a handful.", "anchors": ["src/primate/stats.py: Mean.update, Covariance.update"]}
{"id": "C04", "title": "Covariance is symmetric positive semidefinite", "statement": "After any update history the reported covariance matrix (ddof < n) is symmetric and v^T C v >= 0 for every v; in particular each reported variance is >= 0, so its square root is defined.", "quantifier": "every history, every dimension, every vector v", "why_tests_cant": "PSD-ness quantifies over all directions and histories.", "anchors": ["src/primate/stats.py: Covariance.update, Covariance.__call__", "src/primate/estimators.py: ConfidenceCriterion._error"]}
{"id": "C05", "title": "Too few samples are reported as infinity", "statement": "For positive dimension covariance(ddof) returns +infinity exactly when the number of observations is at most ddof, and a finite value otherwise; mean() is NaN exactly when no row was supplied (non-empty batches).", "quantifier": "every history, every integer ddof", "why_tests_cant": "Boundary behaviour must hold at every count and ddof.", "anchors": ["src/primate/stats.py: Covariance.__call__, Mean.mean"]}
{"id": "C06", "title": "Rejected and empty batches", "statement": "An update() whose column count differs from the dimension raises AssertionError and leaves the object unchanged. An update() with zero rows should be a no-op; instead it raises ZeroDivisionError on a fresh object and turns the mean and covariance into NaN for ever on a non-fresh one.", "quantifier": "every state, every mis-shaped or empty batch, every later history", "why_tests_cant": "'For ever' quantifies over all later histories.", "anchors": ["src/primate/stats.py: Mean.update, Covariance.update"]}
{"id": "C07", "title": "confidence_interval is a correct symmetric interval", "statement": "confidence_interval(a, confidence, sdist) returns (mean - q*s/sqrt(n), mean + q*s/sqrt(n)) with s the ddof=1 standard deviation and q the requested quantile; it is centred on the sample mean, ordered when q >= 0, commutes with shifting and (positive) scaling of the data, and rejects an unknown sdist (ValueError) and a confidence outside [0,1] (AssertionError).", "quantifier": "every sample of size >= 2, every confidence level, every quantile function", "why_tests_cant": "Equivariance and ordering are universally quantified over data.", "anchors": ["src/primate/stats.py: confidence_interval"]}
{"id": "C08", "title": "MeanEstimator bookkeeping", "statement": "After any history of successful updates on MeanEstimator (with or without covariance): len() is the total number of rows, estimate is their arithmetic mean, delta is the new mean minus the mean before the last update (with 0 before the first), and values is exactly the list of all rows in arrival order if record=True and None otherwise.", "quantifier": "every dimension, covariance flag, record flag and batch history", "why_tests_cant": "Holds over unbounded histories.", "anchors": ["src/primate/estimators.py: MeanEstimator"]}
{"id": "C09", "title": "A returned estimate does not change later", "statement": "A value obtained from estimate/mean is a snapshot: later update() calls do not change it. Holds when dim = 1 (a float is returned); violated when dim > 1, where the returned array aliases the accumulator and every earlier result becomes the current mean.", "quantifier": "every dimension, every interleaving of reads and updates", "why_tests_cant": "Needs all read/update interleavings and object identity, which value-based asserts do not look at.", "anchors": ["src/primate/stats.py: Mean.__call__, Mean.mean, Mean.update", "src/primate/estimators.py: MeanEstimator.mean"]}
{"id": "C10", "title": "Control-variate estimate", "statement": "For a ControlVariableEstimator with given coefficients alpha, after any update history the estimate equals the arithmetic mean of y - alpha.(c - ecv) over all rows (y,c); it is NaN before the first row; with alpha = 0 it is the plain mean.", "quantifier": "every number of controls, every alpha, every history", "why_tests_cant": "Linear identity over unbounded histories.", "anchors": ["src/primate/estimators.py: ControlVariableEstimator.update, ControlVariableEstimator.estimate"]}
{"id": "C11", "title": "Estimated control coefficients are optimal", "statement": "With alpha not given and one control of non-zero sample variance, the coefficient used after each update makes the corrected samples y - alpha*c have minimal sample variance among all coefficients, and the estimate is the least-squares line evaluated at the known control mean.", "quantifier": "every history with at least two rows and non-constant control, every competing coefficient", "why_tests_cant": "Optimality quantifies over all competing coefficients and histories.", "anchors": ["src/primate/estimators.py: ControlVariableEstimator.update"]}
{"id": "C12", "title": "ControlVariableEstimator and stopping criteria", "statement": "A ControlVariableEstimator can be driven by the stopping criteria. Violated: its delta is +infinity after every history, so ToleranceCriterion never reports convergence (it raises for the default ord); it never records values, so KneeCriterion never fires; ConfidenceCriterion raises AttributeError from the third row on; a first update with a single row raises TypeError when alpha is estimated, yet the row has been counted.", "quantifier": "every update history, every tolerance", "why_tests_cant": "Non-convergence is a statement about all histories.", "anchors": ["src/primate/estimators.py: ControlVariableEstimator, ToleranceCriterion, ConfidenceCriterion, KneeCriterion"]}
{"id": "C13", "title": "Criteria compose as Boolean algebra", "statement": "For any criteria a, b and any estimator: (a|b)(e), (a&b)(e), (~a)(e) are the or/and/not of the operands' answers; both operands are always evaluated, so the composite raises exactly when an operand raises (first operand's exception first); De Morgan, commutativity (absent exceptions), associativity and double negation hold.", "quantifier": "every pair of criteria (including arbitrary user callables), every estimator state", "why_tests_cant": "Universally quantified over user callables.", "anchors": ["src/primate/estimators.py: ConvergenceCriterion.__or__, __and__, __invert__, __call__"]}
{"id": "C14", "title": "CountCriterion is an exact, monotone threshold", "statement": "CountCriterion(c) is true exactly when at least c rows have been supplied; once true it stays true under every further update.", "quantifier": "every count (any integer), every history", "why_tests_cant": "Monotonicity over all continuations.", "anchors": ["src/primate/estimators.py: CountCriterion.__call__"]}
{"id": "C15", "title": "ToleranceCriterion meaning and the empty estimator", "statement": "ToleranceCriterion(rtol, atol) answers exactly norm(last change of the mean) < atol or < rtol*norm(mean); it is false on an estimator that has received no rows whatever the tolerances (except with ord=0, which counts entries), false for ever when atol = rtol = 0, and false after the first batch if rtol <= 1 and the batch mean's norm is >= atol.", "quantifier": "every estimator history, every pair of tolerances", "why_tests_cant": "Universal over histories/tolerances, includes NaN/inf corner cases.", "anchors": ["src/primate/estimators.py: ToleranceCriterion.__call__"]}
{"id": "C16", "title": "ConfidenceCriterion margin of error", "statement": "ConfidenceCriterion never fires before three samples (finite tolerances); from then on it fires exactly when score*s/sqrt(n) <= atol or s/(sqrt(n)|mean|) <= rtol. For n < 30 the score should be the Student quantile with n-1 degrees of freedom, as in confidence_interval; the code uses n+1 degrees of freedom, so for a strictly decreasing quantile function its margin is strictly smaller than confidence_interval's half-width whenever s > 0.", "quantifier": "every sample history, every tolerance, every quantile table", "why_tests_cant": "Index-off-by-two is invisible to coverage tests with slack and must be shown at every n.", "anchors": ["src/primate/estimators.py: ConfidenceCriterion.__init__, _error, __call__", "src/primate/stats.py: confidence_interval"]}
{"id": "C17", "title": "KneeCriterion", "statement": "KneeCriterion is false when nothing is recorded or fewer than 3 values exist; otherwise it fires exactly when S > 0, the curve is not flat, and the peak of the normalised curve above the diagonal exceeds S/(number of differences - 1); it is invariant under scaling all samples. The curve is meant to be built from running means; the code divides each sample by its index without accumulating, so it is not.", "quantifier": "every recorded history, every sensitivity S", "why_tests_cant": "Characterisation for all sequences.", "anchors": ["src/primate/estimators.py: KneeCriterion.__call__"]}
{"id": "C18", "title": "convergence_criterion resolution", "statement": "A ConvergenceCriterion object is returned unchanged; a string is resolved case-insensitively among count/tolerance/confidence/knee with keyword arguments not in that criterion's signature silently ignored; any other string is rejected with AssertionError; a missing count is TypeError; a confidence outside (0,1) is AssertionError.", "quantifier": "every string, every keyword dictionary", "why_tests_cant": "Quantifies over all strings and dictionaries.", "anchors": ["src/primate/estimators.py: convergence_criterion, CRITERIA", "src/primate/typing.py: restrict_kwargs"]}
{"id": "C19", "title": "Keyword splitting is a partition", "statement": "restrict_kwargs keeps exactly the entries whose key is a parameter of fun, setdiff_kwargs exactly the others; together they contain every entry once, with values unchanged.", "quantifier": "every parameter list and keyword dictionary", "why_tests_cant": "All dictionaries.", "anchors": ["src/primate/typing.py: restrict_kwargs, setdiff_kwargs"]}
{"id": "C20", "title": "Chunking", "statement": "_chunk(iterable, n) yields consecutive chunks of length n (last one possibly shorter, never empty) whose concatenation is the input, and rejects n < 1. For ndarrays the length argument is ignored: exactly three pieces are produced, so the chunk-size promise is violated.", "quantifier": "every sequence, every n", "why_tests_cant": "All lengths and sizes.", "anchors": ["src/primate/trace.py: _chunk"]}
{"id": "C21", "title": "hutch returns the mean of the probe quadratic forms", "statement": "Whatever the stopping criterion, batch size, probe distribution and seed: if hutch returns, the returned estimate is the arithmetic mean of v^T A v over exactly the probe vectors it drew, and the criterion is true of the final estimator and was false after every earlier batch.", "quantifier": "every matrix, criterion, random tape, batch size", "why_tests_cant": "All random tapes and user criteria.", "anchors": ["src/primate/trace.py: hutch"]}
{"id": "C22", "title": "Sample count under CountCriterion", "statement": "hutch(converge='count', count=c) draws exactly max(c,0) probes when neither full nor callback is given (batch is ignored), and exactly the least multiple of batch that is >= c otherwise.", "quantifier": "every c, batch >= 1, matrix and tape", "why_tests_cant": "All c and batch.", "anchors": ["src/primate/trace.py: hutch", "src/primate/estimators.py: CountCriterion"]}
{"id": "C23", "title": "hutch terminates under any criterion or-ed with a count", "statement": "If the criterion is CountCriterion(c) | X with X never raising, hutch terminates within max(c,0) batches for every matrix and every random tape; the default criterion therefore stops after at most 200 samples (224 with batch=32 in full mode).", "quantifier": "every matrix, tape, X", "why_tests_cant": "Termination for all tapes.", "anchors": ["src/primate/trace.py: hutch"]}
{"id": "C24", "title": "Criteria that can never be met", "statement": "hutch and diag terminate for each built-in criterion. Violated: converge='knee' without record=True, and converge='tolerance' with atol=rtol=0, never terminate for any non-empty matrix and any random tape.", "quantifier": "every matrix, every tape, every number of iterations", "why_tests_cant": "Non-termination cannot be observed by a test.", "anchors": ["src/primate/trace.py: hutch", "src/primate/diagonal.py: diag", "src/primate/estimators.py: KneeCriterion, ToleranceCriterion"]}
{"id": "C25", "title": "hutch is unbiased for Rademacher probes", "statement": "For every square A and every count c >= 1, the average of hutch(A, pdf='rademacher', converge='count', count=c) over all equally likely sign tapes is exactly trace(A).", "quantifier": "every matrix, dimension and count; average over all sign tapes", "why_tests_cant": "An expectation over the whole sample space, for every matrix.", "anchors": ["src/primate/trace.py: hutch", "src/primate/random.py: _rademacher_inplace"]}
{"id": "C26", "title": "hutch on diagonal and empty operators", "statement": "If A is diagonal and probes are Rademacher, every sample equals trace(A), so hutch returns trace(A) exactly for every seed and criterion; for an empty (0 x 0) operator it returns 0.0 without drawing probes.", "quantifier": "every diagonal matrix, seed, criterion", "why_tests_cant": "All seeds.", "anchors": ["src/primate/trace.py: hutch"]}
{"id": "C27", "title": "Variance of a Rademacher sample", "statement": "For symmetric A the variance of v^T A v over all sign vectors is 2*(||A||_F^2 - sum_i a_ii^2).", "quantifier": "every symmetric matrix of every size", "why_tests_cant": "Exact second moment over the sample space.", "anchors": ["src/primate/trace.py: hutch", "src/primate/random.py: _rademacher_inplace"]}
{"id": "C28", "title": "Probes do not depend on the batch size", "statement": "isotropic((n,a+b)) with a generator equals isotropic((n,a)) followed by isotropic((n,b)) with the same generator, column for column and leaving the generator in the same state; hence the probes hutch uses depend only on seed, distribution and their number.", "quantifier": "every distribution, n, a, b, generator state", "why_tests_cant": "All splits of the stream.", "anchors": ["src/primate/random.py: isotropic, _rademacher_inplace, _normal_inplace, _sphere_inplace", "src/primate/trace.py: hutch"]}
{"id": "C29", "title": "What hutch returns", "statement": "A pair is returned exactly when full=True or a callback is given (so a callback alone changes the return type), except that on an empty operator only full=True counts; callback is called exactly once per batch; the result object's estimate field should be the estimate but stays 0.0, and nit stays 0.", "quantifier": "every argument combination and run", "why_tests_cant": "All runs; tests only check types.", "anchors": ["src/primate/trace.py: hutch", "src/primate/estimators.py: EstimatorResult"]}
{"id": "C30", "title": "hutch is linear in A for fixed probes", "statement": "With the same seed and a count criterion hutch(A+B) = hutch(A)+hutch(B), hutch(cA) = c*hutch(A), hutch(A^T) = hutch(A).", "quantifier": "every pair of matrices, scalar and tape", "why_tests_cant": "Metamorphic over all inputs.", "anchors": ["src/primate/trace.py: hutch"]}
{"id": "C31", "title": "hutchpp sketch size", "statement": "The sketch size nb is divisible by 3. Violated: nb + nb%3 is divisible by 3 exactly when nb already was (m=1 gives 2, m=2 gives 4). Without m, hutchpp on a non-empty operator of size < 3 raises ZeroDivisionError, and so does m = 0; in all other cases with m >= 1 it does not.", "quantifier": "every m, every N", "why_tests_cant": "All m, N.", "anchors": ["src/primate/trace.py: hutchpp"]}
{"id": "C32", "title": "hutchpp is exact when the sketch captures the range", "statement": "If the sketch basis Q spans the range of A (Q Q^T A = A), hutchpp returns trace(A) exactly for every residual probe matrix; in particular whenever nb >= N and A*sketch has full rank.", "quantifier": "every A, Q, residual probes", "why_tests_cant": "All matrices and tapes.", "anchors": ["src/primate/trace.py: hutchpp"]}
{"id": "C33", "title": "hutchpp is unbiased given the sketch", "statement": "For every A and every Q with orthonormal columns, the average of hutchpp's value over all Rademacher residual probe matrices is trace(A).", "quantifier": "every A, Q, nb >= 1; average over all sign matrices", "why_tests_cant": "Expectation over the sample space.", "anchors": ["src/primate/trace.py: hutchpp"]}
{"id": "C34", "title": "hutchpp modes agree", "statement": "mode='full' and mode='reduced' give the same estimate for operators without quad. The reported per-probe samples are the quadratic forms of the probes; violated: the residual samples (and the sketch samples in full mode) are per-row sums, N of them, not per-probe quadratic forms.", "quantifier": "every A, Q, G", "why_tests_cant": "All inputs.", "anchors": ["src/primate/trace.py: hutchpp"]}
{"id": "C35", "title": "update_trinv maintains the inverse", "statement": "If B_inv is the inverse of an upper-triangular B and the new column's last entry is non-zero, update_trinv returns the inverse of [[B, b],[0, b_last]]; hence inserting columns one at a time from the empty matrix always yields the inverse of the current triangular factor, and it is upper triangular. Wrong shapes are rejected.", "quantifier": "every size, every sequence of columns with non-zero last entries", "why_tests_cant": "Induction over any number of insertions.", "anchors": ["src/primate/linalg.py: update_trinv", "src/primate/trace.py: xtrace"]}
{"id": "C36", "title": "xtrace computes the leave-one-out (exchangeable) estimate", "statement": "With probes W and QR = A W of full column rank, the i-th value computed by xtrace (probe distributions without rescaling) equals tr(P_i A) + w_i^T (I-P_i) A (I-P_i) w_i where P_i is the orthogonal projector onto span{A w_j : j != i}; its mean is the estimate.", "quantifier": "every A (symmetric or not), every full-rank probe set, every i", "why_tests_cant": "Algebraic identity over all matrices.", "anchors": ["src/primate/trace.py: _xtrace, xtrace"]}
{"id": "C37", "title": "xtrace's stopping rule", "statement": "xtrace stops when the user's criterion is met or n probes are used. Violated: the user's criterion is discarded; for every converge argument that is accepted xtrace uses exactly n probes in ceil(n/batch) iterations. Termination holds for every batch >= 1.", "quantifier": "every n, batch, criterion, tape", "why_tests_cant": "All criteria and tapes.", "anchors": ["src/primate/trace.py: xtrace"]}
{"id": "C38", "title": "xtrace with spherical probes", "statement": "With pdf='sphere' the leave-one-out residual is rescaled so that with n probes the result is exact. Violated: the helper compares a sampler function with the string 'sphere', so no rescaling ever happens; with rescaling (helper called with the string) the n-probe value is exactly trace(A), without it it is not.", "quantifier": "every invertible A and every spherical probe set", "why_tests_cant": "Exactness quantifies over all matrices and probes.", "anchors": ["src/primate/trace.py: _xtrace, xtrace"]}
{"id": "C39", "title": "xtrace progress reporting", "statement": "The result passed to xtrace's callback carries the current estimate. Violated: in every call of the callback, in every run, estimate is 0.0 and estimator None; they are set only after the loop. xtrace on an empty operator returns NaN (hutch returns 0.0).", "quantifier": "every run and every callback invocation", "why_tests_cant": "All runs.", "anchors": ["src/primate/trace.py: xtrace"]}
{"id": "C40", "title": "diag: value, unbiasedness, exactness on diagonal matrices", "statement": "diag returns the mean over k of the running ratios (sum_{j<=k} u_j v_j)/(sum_{j<=k} v_j^2). It should be the plain mean of the samples for Rademacher probes; it is not (earlier probes get larger weight, the weights sum to 1), but it is exactly unbiased for diag(A) over all sign tapes, and exact for every diagonal A and every tape without zero entries.", "quantifier": "every A, every tape, every number of iterations", "why_tests_cant": "All tapes; expectation over the sample space.", "anchors": ["src/primate/diagonal.py: diag"]}
{"id": "C41", "title": "diag: reporting options do not change the estimate", "statement": "For the same seed and criterion the estimate returned by diag is the same with and without full/callback/record; a pair is returned exactly when full or (for a non-empty operator) a callback is given; callback runs once per probe, each time seeing estimate 0.0; the final result carries the estimate.", "quantifier": "every argument combination, tape, criterion not looking at recorded values", "why_tests_cant": "All runs.", "anchors": ["src/primate/diagonal.py: diag"]}
{"id": "C42", "title": "xdiag computes the leave-one-out average", "statement": "With Y = A N = QR of full column rank, xdiag returns the average over j of diag(P_j A) + n_j o (I-P_j) A n_j, P_j the orthogonal projector onto span{A n_k : k != j}.", "quantifier": "every A and full-rank probe set", "why_tests_cant": "Algebraic identity over all matrices.", "anchors": ["src/primate/diagonal.py: xdiag"]}
{"id": "C43", "title": "xdiag probe budget", "statement": "xdiag(A, m) uses min(ceil(m/2), n) probes (n when m is None), never more than n; the result has length n; m = 0 gives no usable estimate.", "quantifier": "every m >= 0, n", "why_tests_cant": "All m, n.", "anchors": ["src/primate/diagonal.py: xdiag"]}
{"id": "C44", "title": "Lanczos parameter normalisation", "statement": "lanczos(): the effective degree is min(deg, n), non-positive degrees are rejected, orth is in [0,deg], at least min(2,deg) and at most deg vectors are kept. The helpers param_deg/param_ncv/param_orth and _validate_lanczos meet their documented ranges, the latter rejecting exactly when fewer than two steps are possible. mod(a,b) is the Python (non-negative) modulus.", "quantifier": "all integers", "why_tests_cant": "All integer parameters.", "anchors": ["src/primate/lanczos.py: _validate_lanczos, lanczos", "src/primate/include/lanczos.h: param_deg, param_ncv, param_orth, mod"]}
{"id": "C45", "title": "The native Lanczos kernel stays in bounds", "statement": "Called from lanczos() or MatrixFunction on a square operator, the kernel never reads or writes outside alpha, beta (length deg+1), Q (n x ncv) or v. For non-square operators lanczos() performs no check and the kernel accesses memory out of bounds.", "quantifier": "every n, deg, orth, return_basis, tolerance and matrix", "why_tests_cant": "Memory safety for all parameters.", "anchors": ["src/primate/include/lanczos.h: lanczos_recurrence, orth_vector", "src/primate/lanczos.py: lanczos", "src/primate/operators.py: MatrixFunction"]}
{"id": "C46", "title": "Keeping only ncv vectors does not change T", "statement": "For every ncv >= 2 the kernel without re-orthogonalisation writes the same alpha, beta as the textbook three-term recurrence that keeps all vectors, and column j mod ncv holds the j-th Lanczos vector while it is live.", "quantifier": "every matrix, start vector, deg, ncv >= 2, tolerance", "why_tests_cant": "Refinement for all sizes.", "anchors": ["src/primate/include/lanczos.h: lanczos_recurrence"]}
{"id": "C47", "title": "Lanczos produces an orthonormal basis and T = Q^T A Q", "statement": "For symmetric A, non-zero start vector and no early stop before step k, in exact arithmetic: Q^T Q = I, A Q = Q T + beta_k q_k e_k^T, T = Q^T A Q, with q_0 = v/||v|| and beta > 0.", "quantifier": "every symmetric matrix of every size, every start vector, every degree", "why_tests_cant": "Induction over degree, all matrices.", "anchors": ["src/primate/lanczos.py: lanczos", "src/primate/include/lanczos.h: lanczos_recurrence"]}
{"id": "C48", "title": "Re-orthogonalisation does not change exact results", "statement": "For symmetric A and a zero-initialised Q, every value of orth gives the same alpha, beta and Q in exact arithmetic.", "quantifier": "every symmetric matrix, orth, ncv", "why_tests_cant": "All parameters.", "anchors": ["src/primate/include/lanczos.h: orth_vector, lanczos_recurrence"]}
{"id": "C49", "title": "Shape of the Lanczos output", "statement": "lanczos returns deg diagonal and deg-1 off-diagonal entries (and an n x deg basis with return_basis); with sparse_mat=True the returned matrix is exactly the symmetric tridiagonal matrix of those entries.", "quantifier": "every deg, n", "why_tests_cant": "All sizes.", "anchors": ["src/primate/lanczos.py: lanczos"]}
{"id": "C50", "title": "Early stop on an invariant subspace", "statement": "If the kernel stops early at step k because the residual is exactly zero, span(q_0..q_{k-1}) is A-invariant and the leading k x k block of T represents A on it; entries beyond are left as they were (zeros for fresh buffers). rayleigh_ritz should return only approximations of eigenvalues; violated: the padding contributes spurious zero Ritz values (e.g. A = I).", "quantifier": "every symmetric A and start vector with early stop", "why_tests_cant": "All matrices.", "anchors": ["src/primate/include/lanczos.h: lanczos_recurrence", "src/primate/lanczos.py: lanczos, rayleigh_ritz"]}
{"id": "C51", "title": "Lanczos equivariance", "statement": "lanczos(A + s I, v) has alpha shifted by s and the same beta; lanczos(A, c v), c > 0, equals lanczos(A, v); lanczos(A, -v) has the same alpha, beta. lanczos(c A, v) should give c*alpha, |c|*beta; violated because the 'relative' tolerance is compared with the residual absolutely, so a small c stops the iteration; it does hold whenever neither run stops early.", "quantifier": "every matrix, start vector, shift and scale", "why_tests_cant": "Metamorphic over all inputs.", "anchors": ["src/primate/include/lanczos.h: lanczos_recurrence"]}
{"id": "C52", "title": "Inputs are not modified", "statement": "lanczos, quadrature, MatrixFunction.quad, MatrixFunction matvec, eigh_tridiag and eigvalsh_tridiag never modify the caller's start vector / input arrays, although the kernels underneath overwrite theirs: after any call, and after any sequence of calls on one MatrixFunction, every array that is not a work array passed to lanczos or owned by the object holds what it held before, and the returned values are those computed from the arrays as they were when the call began, whatever overlaps between the arguments (for matvec: unless the argument is a view of the object's own Q). The arrays returned by eigh_tridiag are new.", "quantifier": "every memory, every call and every aliasing of the arguments", "why_tests_cant": "Aliasing over all calls.", "anchors": ["src/primate/lanczos.py: lanczos", "src/primate/integrate.py: quadrature", "src/primate/operators.py: MatrixFunction._matvec, quad", "src/primate/tridiag.py: eigh_tridiag, eigvalsh_tridiag", "src/primate/_lanczos.cpp: _lanczos_wrapper"]}
{"id": "C53", "title": "Ritz values lie in the spectral range", "statement": "For symmetric A with a I <= A <= b I (as quadratic forms) every eigenvalue of the T produced by deg Lanczos steps without early stop lies in [a,b].", "quantifier": "every symmetric matrix, start vector, degree", "why_tests_cant": "All matrices.", "anchors": ["src/primate/lanczos.py: lanczos, rayleigh_ritz"]}
{"id": "C54", "title": "Golub-Welsch weights", "statement": "Given an orthonormal eigendecomposition of T, the weights returned by quadrature(quad='gw') are non-negative, sum to 1, and integrate every monomial (every polynomial) as (p(T))_{00}.", "quantifier": "every tridiagonal matrix, every degree", "why_tests_cant": "All degrees and matrices.", "anchors": ["src/primate/integrate.py: quadrature"]}
{"id": "C55", "title": "Gauss quadrature exactness of MatrixFunction.quad", "statement": "For symmetric A, deg Lanczos steps without early stop and every polynomial f of degree <= 2*deg-1, quad(x) = x^T f(A) x exactly; after n steps or an exact early stop (invariant subspace) quad(x) = x^T f(A) x for every function f with finite values.", "quantifier": "every symmetric A, x, deg, polynomial or function, call history with orth <= 2", "why_tests_cant": "All polynomials and matrices.", "anchors": ["src/primate/operators.py: MatrixFunction.quad", "src/primate/integrate.py: quadrature"]}
{"id": "C56", "title": "Polynomial exactness of the matrix-function matvec", "statement": "For symmetric A, deg Lanczos steps and every polynomial f of degree < deg, MatrixFunction(A,f) @ x = f(A) x exactly; after n steps or an exact early stop it holds for every function f with finite values.", "quantifier": "every symmetric A, x, deg, polynomial or function, call history", "why_tests_cant": "All polynomials and matrices.", "anchors": ["src/primate/operators.py: MatrixFunction._matvec"]}
{"id": "C57", "title": "FTTR weights equal Golub-Welsch weights", "statement": "For an unreduced tridiagonal T and an eigenvalue theta, the FTTR weight equals the squared first component of the normalised eigenvector, whatever the normalisation constant mu_0 != 0.", "quantifier": "every unreduced tridiagonal T, eigenvalue", "why_tests_cant": "All matrices.", "anchors": ["src/primate/fttr.py: ortho_poly, fttr", "src/primate/integrate.py: quadrature"]}
{"id": "C58", "title": "quadrature argument handling", "statement": "quadrature returns deg nodes and deg weights. Holds for 'gw'; violated for 'fttr' with deg < n, which returns n nodes and n weights of which n-deg are 0; FTTR on a 1x1 matrix indexes out of bounds. A negative deg is min(deg, n) and acts like numpy slicing with a negative bound. Unknown quad is ValueError; a first off-diagonal entry not close to zero is rejected.", "quantifier": "every d, e, deg, quad", "why_tests_cant": "All argument combinations.", "anchors": ["src/primate/integrate.py: quadrature", "src/primate/fttr.py: fttr, ortho_poly"]}
{"id": "C59", "title": "MatrixFunction calls are history independent", "statement": "The result of M @ x and M.quad(x) depends only on M's constructor arguments and x, not on earlier calls. When no Lanczos residual stops the run early it holds for matvec and for quad with orth <= 2; violated for quad with orth >= 3 (the default is 3): stale Lanczos vectors of earlier calls are used for re-orthogonalisation (also those of earlier columns of the same call). An exact early stop is harmless for functions with finite values; an early stop by the residual tolerance leaves stale entries in T and changes both quad and matvec, whatever orth.", "quantifier": "every sequence of earlier calls", "why_tests_cant": "Quantifies over call histories; the suite only uses f = identity, which hides it.", "anchors": ["src/primate/operators.py: MatrixFunction._matvec, quad", "src/primate/include/lanczos.h: lanczos_recurrence"]}
{"id": "C60", "title": "quad is homogeneous and column-wise", "statement": "quad(X) returns one value per column (one for a vector); quad(c x) = c^2 quad(x) for c != 0 on a fresh operator.", "quantifier": "every X, c", "why_tests_cant": "All inputs.", "anchors": ["src/primate/operators.py: MatrixFunction.quad"]}
{"id": "C61", "title": "Matrix functions undefined at zero", "statement": "If f is defined on the spectrum of A then quad(x) is finite. Violated: after an exact early stop T is padded with zeros, f is evaluated at 0, and f(0) = inf with weight 0 gives NaN (e.g. f = inverse, A = I, n >= 2); even without an early stop a Ritz value of an invertible indefinite matrix can be 0, which gives inf. Holds when no early stop occurs and f is finite on [lambda_min, lambda_max].", "quantifier": "every x", "why_tests_cant": "Needs exceptional values for all x.", "anchors": ["src/primate/operators.py: MatrixFunction.quad", "src/primate/special.py: param_callable"]}
{"id": "C62", "title": "MatrixFunction construction", "statement": "The constructor accepts exactly square >= 2-d operators with a matvec/matmul/dot and deg >= 2 together with None, a built-in name, or a callable mapping the ones vector to an array of the same length; sets degree = min(deg, n) and orth in [0, degree]; and rejects everything else with an AssertionError (operators without a 2-d shape and callables returning 0-d arrays raise otherwise). Operators whose dtype has no native kernel are accepted as well, but every result is lost: quad(x) = f(0) |x|^2 and products are 0.", "quantifier": "every operator description, deg, orth", "why_tests_cant": "All arguments.", "anchors": ["src/primate/operators.py: MatrixFunction.__init__, fun"]}
{"id": "C63", "title": "tqli performs orthogonal similarity transformations", "statement": "Every completed QL sweep of tqli maps (d,e,Z) to (d',e',Z') with Z T Z^T unchanged, Z^T Z unchanged and hence trace preserved, whatever shift is used; so if it finishes with e = 0, d are the eigenvalues with multiplicity and the columns of Z eigenvectors.", "quantifier": "every tridiagonal matrix, shift, number of sweeps", "why_tests_cant": "Loop invariant over unbounded sweeps.", "anchors": ["src/primate/tqli.py: tqli"]}
{"id": "C64", "title": "tqli returns eigenvalues", "statement": "eigvalsh_tridiag(d, e, method='tqli') returns the eigenvalues of every symmetric tridiagonal matrix. Violated: d=[1/2,0], e=[1/8] (sweep ends with r = 0 and is wrongly abandoned, so d is returned unchanged whatever maxiter) and d=[1,0], e=[1] (division by zero in the shift).", "quantifier": "every maxiter", "why_tests_cant": "Witness must fail for every iteration limit.", "anchors": ["src/primate/tqli.py: tqli, sign"]}
{"id": "C65", "title": "Tridiagonal solver front end", "statement": "eigh_tridiag/eigvalsh_tridiag reject unknown methods and mismatched lengths, accept e of length n-1 or n with the same meaning (leading 0 prepended), 'auto' returns the LAPACK result when it succeeds and otherwise the tqli result; the user's maxiter should reach tqli but is dropped by 'auto'.", "quantifier": "every argument combination, every LAPACK behaviour", "why_tests_cant": "All arguments/oracle outcomes.", "anchors": ["src/primate/tridiag.py: _eigh_tridiag, eigh_tridiag, eigvalsh_tridiag"]}
{"id": "C66", "title": "Toeplitz matvec", "statement": "Toeplitz(c) @ x equals the symmetric Toeplitz matrix with first column c times x, for every x and after every earlier call. Toeplitz(c, r) @ x should equal the Toeplitz matrix with column c and row r times x; violated: the imaginary part of the transform is dropped and the result is the symmetric part (T + T^T)/2 times x, so it is right for all x exactly when r agrees with c beyond its first entry. A wrong length of x raises ValueError (AssertionError when _matvec is called directly), an empty c and an r of another length raise ValueError at the first product, not at construction.", "quantifier": "every size, c, r, x, call history", "why_tests_cant": "All sizes and vectors.", "anchors": ["src/primate/operators.py: Toeplitz"]}
{"id": "C67", "title": "normalize_unit", "statement": "If alpha is an eigenvalue of maximal modulus and alpha != 0, every eigenvalue of normalize_unit(A) is (lambda+alpha)/(2 alpha), which lies in [0,1], hence in [-1,1], with alpha itself mapped to 1; the interval argument has no effect, so the spectrum is not inside the requested interval whenever that interval does not contain 1. Non-square operators raise ValueError, sizes 0 and 1 TypeError (from ARPACK's k < n), alpha = 0 ZeroDivisionError.", "quantifier": "every operator and eigenvalue", "why_tests_cant": "All spectra.", "anchors": ["src/primate/operators.py: normalize_unit"]}
{"id": "C68", "title": "Rademacher entries", "statement": "Every entry produced by isotropic(pdf='rademacher'/'signs') is exactly -1 or +1, for every uniform draw in [0,1), +1 exactly when the draw is >= 1/2; bit-exactly for every 53-bit draw.", "quantifier": "every draw and shape", "why_tests_cant": "All 2^53 draws per entry.", "anchors": ["src/primate/random.py: _rademacher_inplace, isotropic"]}
{"id": "C69", "title": "Sphere columns have norm sqrt(n)", "statement": "Every column of isotropic((n,k), pdf='sphere') has Euclidean norm exactly sqrt(n) (exact arithmetic) unless the underlying normal column is zero.", "quantifier": "every draw, n, k", "why_tests_cant": "All draws.", "anchors": ["src/primate/random.py: _sphere_inplace"]}
{"id": "C70", "title": "Rademacher vectors are isotropic", "statement": "The average of v v^T over all sign vectors is the identity matrix.", "quantifier": "every dimension; average over all sign vectors", "why_tests_cant": "Expectation over the sample space.", "anchors": ["src/primate/random.py: _rademacher_inplace"]}
{"id": "C71", "title": "Isotropic.fill is schedule independent", "statement": "For every interleaving of the worker threads' element operations, Isotropic.fill leaves the same array: columns are partitioned into disjoint blocks covering all columns, block i is what a sequential isotropic() call with generator i produces. With threads=1 this is isotropic() itself.", "quantifier": "every thread count, shape, schedule, generator state", "why_tests_cant": "All interleavings.", "anchors": ["src/primate/random.py: Isotropic.fill, Isotropic.__init__"]}
{"id": "C72", "title": "symmetric()", "statement": "symmetric(n, ...) returns a symmetric matrix for every draw, built from the QR factor of a symmetric matrix whose strict upper triangle holds the n(n-1)/2 draws of dist row by row and whose diagonal holds the next n uniform draws; if the QR factor is orthogonal and ew has length n its characteristic polynomial is prod (X - ew_i). pd=True should give a positive semidefinite matrix; holds for drawn eigenvalues, violated when ew is given (no clipping).", "quantifier": "every draw, ew, Q", "why_tests_cant": "All draws.", "anchors": ["src/primate/random.py: symmetric"]}
{"id": "C73", "title": "haar()", "statement": "haar(n, ew) has characteristic polynomial prod (X - ew_i) for every orthogonal draw, is symmetric, and rejects len(ew) != n.", "quantifier": "every orthogonal draw and ew", "why_tests_cant": "All draws.", "anchors": ["src/primate/random.py: haar"]}
{"id": "C74", "title": "softsign", "statement": "For q >= 0 softsign(x, q) is the documented sum with central binomial coefficients, is odd, has values in [-1,1], maps -1,0,1 to -1,0,1, is non-decreasing in x, is non-decreasing in q for x >= 0, clamps arguments outside [-1,1], and satisfies 1-(1-x^2)^(q+1) <= softsign(x,q)^2 <= 1 (so it converges to the sign function away from 0); for q < 0 it is 0.", "quantifier": "every x, q", "why_tests_cant": "All reals and degrees.", "anchors": ["src/primate/special.py: softsign"]}
{"id": "C75", "title": "smoothstep", "statement": "smoothstep(x,a,b) for a < b is 0 for x <= a, 1 for x >= b, within [0,1], non-decreasing, and s(a+b-x) = 1 - s(x); even deg is rejected; deg otherwise has no effect; for a = b the transition has width 1.", "quantifier": "every x, a, b, deg", "why_tests_cant": "All reals.", "anchors": ["src/primate/special.py: smoothstep"]}
{"id": "C76", "title": "step / numrank", "statement": "step is {0,1}-valued, step(x,c)=0 iff x < c; numrank counts exactly the values with |x| >= threshold when summed over a spectrum.", "quantifier": "every x, c, spectrum", "why_tests_cant": "All reals.", "anchors": ["src/primate/special.py: step, param_callable"]}
{"id": "C77", "title": "param_callable dispatch", "statement": "Every builtin name yields the documented function; 'softsign' should be available but is rejected by the membership assertion for every keyword set; unknown names are rejected; the log function is defined (finite) on every real input.", "quantifier": "every string, every keyword set, every argument", "why_tests_cant": "All strings.", "anchors": ["src/primate/special.py: param_callable, _BUILTIN_MATRIX_FUNCTIONS"]}
{"id": "C78", "title": "Kernel results reach the caller's arrays", "statement": "After lanczos() returns normally the returned coefficients are those computed by the kernel. Depends on two-pass overload resolution: holds for float32 operators always, and for float64 operators exactly when the start vector has dtype float64 and rtol is a Python float; violated otherwise (e.g. rtol=0, or dtype=float32 on a float64 matrix): the single-precision overload is chosen with converting copies and zeros are returned.", "quantifier": "every operator kind/precision and argument kind", "why_tests_cant": "All argument kinds.", "anchors": ["src/primate/_lanczos.cpp: PYBIND11_MODULE, _lanczos_wrapper", "src/primate/lanczos.py: lanczos"]}
{"id": "C79", "title": "Operator validation", "statement": "is_valid_operator accepts exactly objects with some matvec-like attribute, a shape of length >= 2 with equal first two entries and a 32/64-bit float dtype, and raises AssertionError otherwise; violated for objects without dtype that lack __matmul__ (TypeError) and objects whose dtype is None (AttributeError). is_linear_op should answer False for other objects; violated: it raises when shape is missing or one-dimensional.", "quantifier": "every object description", "why_tests_cant": "All descriptions.", "anchors": ["src/primate/operators.py: is_valid_operator, is_linear_op"]}
{"id": "C80", "title": "Documented probe callables", "statement": "hutch, hutchpp and diag accept a callable pdf as their signatures say. Holds for hutch; violated for hutchpp and diag, which raise AssertionError for every callable; unknown distribution names are rejected everywhere.", "quantifier": "every pdf argument", "why_tests_cant": "All arguments.", "anchors": ["src/primate/trace.py: hutch, hutchpp", "src/primate/diagonal.py: diag", "src/primate/random.py: isotropic"]}
{"id": "C81", "title": "diag and the confidence criterion", "statement": "diag can be driven by any built-in criterion (its documentation recommends 'confidence'). Holds for 'count', where exactly max(c,0) probes are drawn; violated for 'confidence' with finite tolerances: diag builds its estimator without covariance, so every run on a non-empty operator raises AttributeError after the third probe.", "quantifier": "every matrix, tape, confidence level, pair of tolerances other than inf", "why_tests_cant": "Every matrix and tape; a test would fix one.", "anchors": ["src/primate/diagonal.py: diag", "src/primate/estimators.py: ConfidenceCriterion._error"]}
{"id": "C82", "title": "isotropic(out=W)", "statement": "isotropic(out=W) writes into W exactly the array that isotropic(size=W.shape) returns for the same generator state. Holds for Fortran-ordered W; violated for C-ordered arrays (numpy's default) with at least two rows and columns, which receive the draws row by row. Strided arrays are rejected with ValueError, unsupported dtypes with TypeError, non-arrays, callables and unknown names with AssertionError.", "quantifier": "every shape, memory layout, dtype, distribution and draw", "why_tests_cant": "All layouts and draws.", "anchors": ["src/primate/random.py: isotropic, _rademacher_inplace, _sphere_inplace"]}
{"id": "C83", "title": "Python operators as Lanczos operands", "statement": "For an operand that is neither an array nor a sparse matrix the kernel calls its matvec and copies the returned data by raw pointer. When every call returns A x in a contiguous array (or one of another dtype) the run equals that on the matrix A, whatever the object's internal state; exceptions raised by matvec propagate. Violated for matvecs returning views: a reversed view makes the kernel read outside the array, a column of a C-ordered array makes it run on a different matrix without any error, a short result is read beyond its end unless scipy's LinearOperator checks it. Toeplitz objects are safe because they return a copy.", "quantifier": "every operator state machine, matrix, start vector, parameter set and buffer", "why_tests_cant": "All stateful operators and memory layouts; the failure is silent.", "anchors": ["src/primate/include/pylinop.h: PyLinearOperator", "src/primate/include/lanczos.h: lanczos_recurrence", "src/primate/operators.py: Toeplitz"]}
{"id": "C84", "title": "Python reference of the Lanczos kernel", "statement": "_lanczos_recurrence, the Python transcription of the native kernel, returns the same alpha, beta and basis as the kernel for every matrix, nonzero start vector, positive tolerance, reorthogonalisation parameter and number of columns for which the kernel is defined, hence alpha and beta[1:] are what lanczos() returns. The two differ on a zero start vector (0/0 against zeros), on one column with several steps (IndexError against an out-of-bounds write) and on a start vector of length one, which the reference broadcasts to a non-unit vector.", "quantifier": "every matrix, start vector, degree, tolerance, orth, ncv", "why_tests_cant": "Equality of two programs on all inputs.", "anchors": ["src/primate/lanczos.py: _lanczos_recurrence, _orth_vector", "src/primate/include/lanczos.h: lanczos_recurrence"]}
{"id": "C85", "title": "Baseline Lanczos", "statement": "_lanczos_py returns the coefficients of the three-term recurrence for the steps it takes, zeros behind them, and stops at k or at the first beta that np.isclose finds near tol. It should stop when the Krylov space is exhausted; violated: started at an eigenvector with any tol above about 1e-8 it divides by the zero residual. It produces non-finite numbers exactly in that situation.", "quantifier": "every matrix, nonzero start vector, k <= n, tolerance", "why_tests_cant": "All matrices and tolerances.", "anchors": ["src/primate/lanczos.py: _lanczos_py"]}
{"id": "C86", "title": "Variance in rounded arithmetic", "statement": "In any arithmetic whose rounding keeps signs, and for any order of summation (with or without fused multiply-add), the accumulated variance is never negative, so the margin of error is never NaN once there are two samples. Constant samples fed one at a time give exactly their value and variance 0; fed in batches they need not (a batch of three 14s can average to 13 with four significant bits). With exact arithmetic the rounded accumulator is the exact one and ends with the mean, the sample variance and the margin of all samples.", "quantifier": "every rounding, every summation order, every history of batches", "why_tests_cant": "All roundings, summation orders and histories.", "anchors": ["src/primate/stats.py: Covariance.update, Covariance.__call__", "src/primate/estimators.py: ConfidenceCriterion._error"]}
{"id": "C87", "title": "Forward error of mean and probes", "statement": "If each operation has relative error at most u, then after m updates with batches of at most b samples bounded by B the running mean differs from the true mean of all samples by at most ((1+u)^b - 1 + 4((1+u)^3 - 1) + 3um) B, provided that factor is at most 1. One computed probe with a sign vector differs from the exact quadratic form by at most ((1+u)^(2n) - 1) times the sum of the absolute entries.", "quantifier": "every rounding with relative error u, every summation order, history and matrix", "why_tests_cant": "All roundings, summation orders, histories and matrices.", "anchors": ["src/primate/stats.py: Mean.update, Covariance.update", "src/primate/trace.py: hutch quad_form"]}
{"id": "C88", "title": "Integer data is exact", "statement": "If integers up to M are representable and the absolute entries of an integer matrix add up to at most M, every probe with a sign vector is exact in any order of summation. On an integer diagonal matrix the estimate is exactly the trace, with variance and margin exactly 0, for any batches of size b with b times the trace at most M.", "quantifier": "every rounding exact on integers up to M, every summation order, integer matrix, history of sign probes", "why_tests_cant": "All roundings, summation orders, matrices and probe histories.", "anchors": ["src/primate/stats.py: Covariance.update", "src/primate/trace.py: hutch quad_form", "src/primate/estimators.py: ConfidenceCriterion._error"]}
{"id": "C89", "title": "Convergence messages", "statement": "On the estimator hutch uses, message() never raises once the criterion can be evaluated, and the numbers it shows are the sample mean, the number of samples and, for the confidence criterion, the margin computed from exactly these samples (inf below three). Violated for the default and every composite criterion: the message carries no number. Without covariance, or for vectors, the confidence message raises from three samples on.", "quantifier": "every criterion and every history of non-empty batches", "why_tests_cant": "All histories and criteria.", "anchors": ["src/primate/estimators.py: arr_summary, *.message", "src/primate/trace.py: hutch"]}
{"id": "C90", "title": "Plotted data", "statement": "figure_sequence draws the running averages of the non-NaN samples; its sample points have matching coordinates exactly if no sample is NaN. figure_error without mu draws the margin (or relative error) of each prefix; with mu it always raises; an estimator that did not record raises TypeError instead of the intended assertion. figure_csm draws the empirical distribution function between eigenvalues for sorted spectra below 1, and runs backwards beyond 1. figure_jacobi needs 3 to 10 degrees.", "quantifier": "every sample sequence, threshold, spectrum and degree", "why_tests_cant": "All sample sequences and spectra.", "anchors": ["src/primate/plotting.py: figure_sequence, figure_error, figure_csm, figure_jacobi"]}
{"id": "C91", "title": "Accuracy of MatrixFunction for any function", "statement": "For symmetric A, a run of deg Lanczos steps without early stop, and any function f that is within e of a polynomial p on the numerical range of A: quad(x) is within 2e|x|^2 of x^T f(A) x if deg p < 2 deg, and f(A) @ x is within 2e|x| of the exact vector if deg p < deg. A polynomial below f gives a lower bound for both quad(x) and x^T f(A) x.", "quantifier": "every symmetric matrix, vector, function, polynomial and number of steps; every state of the object without stale Lanczos vectors", "why_tests_cant": "All matrices, functions and approximating polynomials.", "anchors": ["src/primate/operators.py: MatrixFunction.quad, MatrixFunction._matvec", "src/primate/include/lanczos.h: lanczos_recurrence"]}
{"id": "C92", "title": "Sign of the error for the inverse", "statement": "For fun='inv' and symmetric positive definite A, without early stop: 0 < quad(x) <= x^T A^-1 x, and a larger deg never gives a smaller value. The vector returned by A^-1 @ x is, in the norm sqrt(z^T A z), at least as close to A^-1 x as every p(A) x with deg p < deg.", "quantifier": "every positive definite matrix, non-zero vector, pair of degrees and competing polynomial", "why_tests_cant": "All matrices, vectors and polynomials.", "anchors": ["src/primate/operators.py: MatrixFunction.quad, MatrixFunction._matvec", "src/primate/special.py: param_callable"]}
{"id": "C93", "title": "Stochastic Lanczos quadrature", "statement": "hutch given a MatrixFunction of a symmetric A with orth <= 2: if every probe admits exact quadrature, the run is step by step that of hutch on the explicit matrix f(A) (same probes, stopping time, observations, result), so over all Rademacher tapes the value averages to tr f(A) with hutch's variance. If f is within e of a polynomial of degree below 2 deg, each run is within 2eN of the run on f(A) and the bias is at most 2eN. For fun='inv' and positive definite A the average lies in [0, tr A^-1]. Violated for the default orth = 3: Lanczos vectors left by one probe change the next sample.", "quantifier": "every symmetric matrix, function, degree, batch size, reporting mode, count and tape", "why_tests_cant": "Averages over all tapes; all matrices, functions and probe sequences.", "anchors": ["src/primate/trace.py: hutch", "src/primate/operators.py: MatrixFunction.quad", "src/primate/random.py: isotropic"]}
{"id": "C94", "title": "Tail bound and sample size", "statement": "Among all equally likely tapes, the fraction on which hutch (Rademacher probes, CountCriterion(n)) returns a value e or more away from the trace of a symmetric matrix is at most 2 * (sum of squared off-diagonal entries) / (m e^2), m the number of probes drawn; hence at most d once n >= 2 * (...) / (d e^2). For hutch on a MatrixFunction (C93) the same with e plus the deterministic error 2 d N.", "quantifier": "every symmetric matrix, e, d, count, batch size, reporting mode and record flag", "why_tests_cant": "Quantifies over all random tapes.", "anchors": ["src/primate/trace.py: hutch", "src/primate/estimators.py: CountCriterion, MeanEstimator", "src/primate/random.py: isotropic"]}
{"id": "C95", "title": "Native operators compute the products they stand for, within bounds", "statement": "matvec, rmatvec and matmat of the dense and the sparse Eigen operator write exactly the entries of A x, A^T x, A X at the output pointer and nothing else, even when output and input overlap, and are undefined exactly when one of the two ranges leaves the memory; rmatvec is the adjoint of matvec; matmat is k matvecs on disjoint arrays. The affine operator computes (A + tB)x for the parameter set last, 0 initially, and counts its products. Refuted for the Gram variant (not instantiated by _lanczos.cpp): shape() announces the shape of A, so a wide matrix overruns the output, and matmat multiplies with A instead of A^T A.", "quantifier": "every matrix, memory, pair of pointers, number of columns and sequence of calls", "why_tests_cant": "All memory layouts and overlaps, undefined behaviour included; a test that overruns a buffer usually passes.", "anchors": ["src/primate/include/eigen_operators.h: DenseEigenLinearOperator", "src/primate/include/eigen_operators.h: SparseEigenLinearOperator", "src/primate/include/eigen_operators.h: SparseEigenAffineOperator"]}
{"id": "C96", "title": "Estimators on a Toeplitz operator", "statement": "hutch, diag, hutchpp and xtrace given a Toeplitz(c, r) object run step by step (probes, stopping time, records, result, exceptions) as on an explicit matrix, whatever calls came before: the Toeplitz matrix itself for hutch, its symmetric part (A + A^T)/2 for the others, which is the same matrix when r repeats c. Violated for xdiag, which raises NotImplementedError because the class has no adjoint; for fewer than 3 rows hutchpp's default fails with ValueError on an object and ZeroDivisionError on an array.", "quantifier": "every first column and row, history of calls on the object, sampler, criterion, batch size and mode", "why_tests_cant": "All inputs and all histories of the object's work array; a non-symmetric c, r gives a silently different matrix.", "anchors": ["src/primate/operators.py: Toeplitz", "src/primate/trace.py: hutch, hutchpp, xtrace", "src/primate/diagonal.py: diag, xdiag"]}
{"id": "C97", "title": "diag, hutchpp, xtrace and xdiag on a MatrixFunction", "statement": "Given a MatrixFunction of a symmetric A, diag, hutchpp (orth <= 2), xtrace and xdiag run step by step as on the explicit matrix f(A) whenever the vectors they apply it to admit exact quadrature, whatever calls came before. For any f within e of a polynomial of degree below deg on the spectral range, diag with sign probes on which Lanczos performs all deg steps returns entries within 2 e sqrt(N) of those the same probes give with f(A), and stops only by its criterion. Violated for hutchpp(full=True) in the default mode: it raises ValueError on a MatrixFunction although the same call on f(A) succeeds.", "quantifier": "every symmetric matrix, function, degree, history of calls, sampler, criterion, count and mode", "why_tests_cant": "All matrices, functions and histories; error bounds over all probes.", "anchors": ["src/primate/operators.py: MatrixFunction", "src/primate/trace.py: hutchpp, xtrace", "src/primate/diagonal.py: diag, xdiag"]}
{"id": "C98", "title": "Mean square error of diag", "statement": "Over all Rademacher tapes each entry of diag's result after n probes has mean square error (2n - H_n)/n^2 times the sum of squares of the off-diagonal entries of its row (H_n the n-th harmonic number). Violated: the error of a mean of n samples; for n >= 2 it is strictly larger, less than twice as large, and at least (2 - 2/q) times as large once n >= q^2. The fraction of tapes on which some entry is e or more away is at most 2 * (sum of squared off-diagonal entries) / (n e^2); for a MatrixFunction the same with e plus the deterministic error 2 d sqrt(N).", "quantifier": "every matrix, number of probes, reporting option, e and q", "why_tests_cant": "Averages over all random tapes; an efficiency loss by a factor of two is invisible in single runs.", "anchors": ["src/primate/diagonal.py: diag", "src/primate/estimators.py: MeanEstimator", "src/primate/random.py: isotropic"]}
{"id": "C99", "title": "Mean square error and tail of hutchpp", "statement": "For symmetric A and Rademacher probes, given the sketch vectors, hutchpp's value has mean square error 2/k times the sum of squared off-diagonal entries of (I - QQ^T) A (I - QQ^T), k the sketch size. For any B whose columns lie in the span of Q the fraction of residual draws giving a value e or more away from the trace is at most 2 |A - B|_F^2 / (k e^2); over sketch and residual draws together at most 2 |A|_F^2 / (k e^2).", "quantifier": "every symmetric matrix, sketch, B, e, m and mode", "why_tests_cant": "Averages over all random tapes.", "anchors": ["src/primate/trace.py: hutchpp", "src/primate/random.py: isotropic"]}
{"id": "C100", "title": "Statistical criteria stop every run", "statement": "With +-1 probes and M the sum of the absolute off-diagonal entries of A: hutch with a ToleranceCriterion (orders None, 1, 2, inf) stops after at most K batches as soon as K >= 2 and 2M < atol K, or 2M < rtol (tr A - M) K. With a ConfidenceCriterion it draws fewer than n + batch probes as soon as n >= 30 and (z M)^2 <= atol^2 (n-1), or n >= 3, M < tr A and M^2 <= rtol^2 (tr A - M)^2 (n-1). diag with a ToleranceCriterion stops within K >= 2 probes if twice the norm of the off-diagonal row sums is below atol K, or, rows dominated by the factor th, if 2 th < rtol (1 - th) K. Without an absolute tolerance (the class default of ConfidenceCriterion) a run may never stop: A = [[0,1],[1,0]] and the tape with alternating samples, for every rtol < 2, level and batch size.", "quantifier": "every matrix, seed, batch size, mode, criterion parameters", "why_tests_cant": "Termination on every random stream; tests see a few seeds.", "anchors": ["src/primate/trace.py: hutch", "src/primate/diagonal.py: diag", "src/primate/estimators.py: ToleranceCriterion, ConfidenceCriterion, MeanEstimator"]}
{"id": "C101", "title": "Confidence level and tolerances do not bound the error", "statement": "Refuted: that a hutch run stopped by its criterion is within the tolerance of the trace with the stated confidence. For every confidence level, atol >= 0, rtol and every E there is a symmetric 2 x 2 matrix such that at least a quarter of all equally likely tapes stop after three equal samples with a value E or more away from the trace; also for hutch's default criterion (95%, atol 1, at most 200 probes). For ToleranceCriterion (atol > 0, rtol <= 1) it is at least one half, and likewise for diag, whose default class this is.", "quantifier": "every level, tolerance, error size, tape length, batch argument", "why_tests_cant": "Statement about the distribution over all tapes and an adversarial matrix.", "anchors": ["src/primate/trace.py: hutch", "src/primate/diagonal.py: diag", "src/primate/estimators.py: ConfidenceCriterion, ToleranceCriterion"]}
{"id": "C102", "title": "Products asked of the operator", "statement": "For every operator object, whatever its methods return: hutch calls quad (matvec if there is none) exactly once on each probe in the order of the draws, diag calls matvec once per probe; hutchpp multiplies k sketch vectors, then the min(N,k) columns of Q, then the k deflated vectors, k = m + m mod 3; xdiag k probes with A and then the k columns of Q with its transpose; xtrace per batch the probes and as many new columns of Q, 2N products in every run that returns. Observing the calls does not change result, state or exception of a run. Violated: hutchpp's documented 'm: number of matvecs to use' - more than 2m are used for every m, 3m if 3 divides m <= N; xdiag's documented 'm / 2 matrix-vector multiplications' - never fewer than m in total.", "quantifier": "every operator object and state, sampler, criterion, batch size, m, mode, reporting option", "why_tests_cant": "Counts over all runs, with arbitrary stateful operators.", "anchors": ["src/primate/trace.py: hutch, hutchpp, xtrace", "src/primate/diagonal.py: diag, xdiag"]}
{"id": "C103", "title": "Infinite and NaN samples", "statement": "With infinite or NaN samples allowed: on finite samples nothing changes. A coordinate of the running mean is finite iff all samples of it so far were, and is then their mean; it is +inf (-inf) iff infinite samples of one sign occurred in the last batch only and everything else was finite, NaN otherwise - so the batching changes the value (refuted that it does not). Covariance entries are finite or NaN. Criteria built without an unguarded count are never met once a coordinate has had a non-finite sample, whatever follows: hutch under them returns only means of finite samples and never returns if its first batch has a non-finite one; hutch's default criterion ends within 200 + batch samples and a non-finite result then has at least 200 probes. diag's i-th entry is finite iff the i-th entry of the first probe is not zero and all products were finite there (a later zero does no harm, a zero in the first one is never repaired).", "quantifier": "every dim, history of batches, criterion, probe stream, operator with values in the extended numbers, batch size, fuel", "why_tests_cant": "NaN and inf persist or change with batching over unbounded histories; tests use finite samples.", "anchors": ["src/primate/stats.py: Covariance.update", "src/primate/estimators.py: MeanEstimator, ToleranceCriterion, ConfidenceCriterion, KneeCriterion", "src/primate/trace.py: hutch", "src/primate/diagonal.py: diag"]}
{"id": "C104", "title": "Functions with several values and reassigned functions", "statement": "A callable may return a p x k array (one row per function). The constructor and the setter of `fun` accept exactly callables mapping the ones vector to a numpy array whose last axis has length n, whatever p; a rejected assignment raises and leaves the object unchanged, an accepted one changes the function only. _matvec, and so matrix_function(A, f, v), returns one column per row, each the product of that row's function - exact when the iteration ends in an invariant subspace, after any calls and assignments. Violated: an accepted function can be applied - for p != 1 matvec and quad never return (ValueError once the Lanczos run is through), nor does hutch; for p = 1 they are those of the single function. After any history of calls and assignments, products without early stop (quad: orth <= 2) are those of a new object constructed with the last accepted function.", "quantifier": "every operator, callable, history of calls and assignments, vector", "why_tests_cant": "Needs functions with several rows and arbitrary interleavings of calls, failures and assignments.", "anchors": ["src/primate/operators.py: MatrixFunction.__init__, fun, _matvec, quad, matrix_function"]}
{"id": "C105", "title": "hutch on a matrix function with infinite or NaN quadrature values", "statement": "For trace of a MatrixFunction by hutch with f allowed to be non-finite at some nodes: runs whose samples are all finite are those of the finite model; the samples are those of one call of quad on all probes taken, and the result is finite exactly when every sample is, being then their mean. A criterion that stops only on finite estimates can return only finite results; the default criterion stops before 200 + b probes and, once a sample is non-finite, only after at least 200 (and always ends for orth <= 2, symmetric A). Violated: a matrix function that is defined (A invertible, f = inv) has a finite estimate - for A = l I with N >= 2, and for symmetric A annihilated by a polynomial of degree below deg with orth <= 2, the zero padding of the tridiagonal matrix evaluates f at 0, so the estimate is never finite: NaN by default, no return with a criterion waiting for a finite value.", "quantifier": "every symmetric operator, function, criterion, probe source, batch size", "why_tests_cant": "Needs all probe sequences and the padding behaviour of the iteration for whole classes of matrices.", "anchors": ["src/primate/trace.py: hutch", "src/primate/operators.py: MatrixFunction.quad"]}
{"id": "C106", "title": "xtrace returns a number exactly when the products of its probes are independent", "statement": "xtrace divides by the pivots of R in A W = Q R. With np.reciprocal(0.) = inf and a qr_insert that may raise on dependent columns: every run that returns has drawn n probes W and its result is finite if and only if A W is invertible, being then the average of the leave-one-out estimates; otherwise the result is NaN. If the first n vectors of the sampler have independent products the run returns, whatever qr_insert does on dependent columns, and the probes do not depend on the batch size. Violated: xtrace estimates the trace of any (symmetric positive semidefinite) operator - on a singular matrix it never returns a number, for no probes and no batch size, and on any matrix it returns NaN when one probe is a multiple of another (for sign vectors in two dimensions: exactly when the second is plus or minus the first). xdiag with m None or m >= 2n-1 raises LinAlgError on every singular matrix.", "quantifier": "every matrix, sampler, batch size, qr_insert meeting its specification", "why_tests_cant": "Needs all singular matrices, all probe sequences and the propagation of inf through the leave-one-out formula.", "anchors": ["src/primate/trace.py: xtrace, _xtrace", "src/primate/linalg.py: update_trinv", "src/primate/diagonal.py: xdiag"]}
{"id": "C107", "title": "hutch in rounded arithmetic: from the probes to the value returned", "statement": "With every operation of trace.py 97-116 and stats.py 66-86 rounded (relative error at most u) and additions in any order, whatever criterion stops the run, hutch on sign probes returns a value within hutch_const(u, n, b, m) * sum |a_ij| of the exact mean of v^T A v over the probes it drew, where hutch_const <= (4n + 4b + 48 + 6m) u for m batches of b. So: with a count it is that close to the exact-arithmetic value for the same seed; on a diagonal matrix it is that close to the trace; two runs on the same probes differ by at most the sum of the two bounds; for all but 2*offdiag/(m b e^2) of the seeds every order of additions ends within e plus the bound of the trace; the default call stops after at most 200 probes and is within (4n + 1252) u sum |a_ij|. A criterion bounded by n samples always stops, having drawn fewer than n + b probes, with a number unless it is met before the first sample. Without rounding the loop is the exact one. Violated: the batch size does not change the value - with a monotone rounding of relative error 1/16 that is exact on integers up to 40, three probes one at a time give 14 and in one batch 13.", "quantifier": "every matrix, sign sampler, rounding with relative error at most u, order of additions, batch size, criterion built from counts and confidence", "why_tests_cant": "Tests compare with tolerances for particular matrices and one summation order; the bound is for all of them.", "anchors": ["src/primate/trace.py: hutch", "src/primate/stats.py: Covariance.update", "src/primate/estimators.py: ConfidenceCriterion, CountCriterion"]}
{"id": "C108", "title": "diag in rounded arithmetic: from the probes to the vector returned", "statement": "With every operation of diagonal.py 71-92 rounded with relative error at most u (the operator's dtype) and the running mean of stats.py 23-38 with relative error at most w (float64), additions in any order, and any rule for stopping: on k sign probes, k at most the largest integer M up to which integers are representable, diag returns a vector whose entry i is within diag_const(u, w, n, k) * sum_j |a_ij| of the exact mean of the running means of (A v)_i v_i over the probes drawn, and diag_const <= 2(n + k + 2) u + (52 + 6k) w. So with a count it is that close to the exact-arithmetic vector for the same seed (and equal to it without rounding); for all but 2*offdiag/(k e^2) of the seeds every order of additions ends with every entry within e plus the bound of the diagonal. With a count of k every run returns after exactly the first k probes. On a diagonal matrix of integers z_i with k |z_i| <= M the result is exactly the diagonal. The bound k <= M cannot be dropped: where M + 1 rounds to M (2^24 for float32) the denominators stop at M, and on a 1 x 1 matrix the value returned for k probes can be at least k/2 although the exact one is constant.", "quantifier": "every matrix, sign sampler, pair of roundings, order of additions, stopping rule and number of probes", "why_tests_cant": "Tests compare with tolerances for particular matrices, seeds and one summation order, with few probes.", "anchors": ["src/primate/diagonal.py: diag", "src/primate/stats.py: Mean.update", "src/primate/estimators.py: CountCriterion"]}
{"id": "C109", "title": "Variance and margin of error in rounded arithmetic", "statement": "With every operation of Covariance.update and ConfidenceCriterion rounded with relative error at most u, additions in any order, m batches of at most b samples bounded by B, n samples in all: the accumulated sum of squared deviations is within (var_const - 1) * 8 n B^2 of the exact one, the sample variance within (var_const (1+u) - 1) * 8 n B^2/(n - ddof), and var_const (1+u) - 1 <= (30 b + 128 + 17 m) u; the margin of error is finite and within (margin_const - 1) * score * B * sqrt(8/(n-1)) of score times the exact standard error. So a confidence criterion with only an absolute tolerance stops when the exact margin is below the tolerance by that slack and does not stop when it is above by that slack. No bound relative to the variance itself holds: three equal samples can get variance 3/2 under a monotone rounding exact on small integers.", "quantifier": "every rounding with bounded relative error, order of additions, sequence of batches and bound B", "why_tests_cant": "Tests compare variances with tolerances on particular samples, in one summation order.", "anchors": ["src/primate/stats.py: Covariance.update", "src/primate/stats.py: Covariance.__call__", "src/primate/estimators.py: ConfidenceCriterion"]}
