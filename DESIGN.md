# Formal model of primate in Rocq

Source: /repo (peekxc/primate at the pinned commit, read as text only).
Prover: Coq 8.16.1, mathcomp 1.x (ssreflect, algebra, real-closed), algebra-tactics (`ring`/`field`).

## 1. Method

* The code is transcribed function by function into total Gallina functions (`theories/Model*.v`).
  Every definition cites the file and lines it mirrors and says where it simplifies.
* Python exceptions are values (`Err AssertionError`, ...). Loops that may not end take fuel;
  "terminates" means "some fuel gives a result", "diverges" means "no fuel gives a result".
* Numbers. Data are elements of an arbitrary real closed field `F` (`rcfType`; plain fields or ordered
  fields where enough), i.e. exact arithmetic with square roots. The exceptional
  values inf/NaN are modelled explicitly (`xnum`) wherever the code can reach them from
  finite inputs and branches on them (empty estimators, stopping criteria, division by 0, f(0)=inf),
  and as samples of the estimators (ModelNonFinite).
  Rounding is modelled only in ModelRound (C86-C88), ModelRoundHutch (C107, C109) and ModelRoundDiag (C108); elsewhere it is *not* modelled, except where the operation is exact in binary floating point.
* Library calls (QR, eigensolvers, random generators, quantiles, FFT) are Section parameters; what is
  assumed of them appears as an explicit hypothesis of the theorem that needs it
  (e.g. `Q^T *m Q = 1%:M`), never as an axiom.
* Specifications are stated with mathcomp notions (`\tr`, `\sum`, `char_poly`, `horner_mx`, projectors)
  in `Spec.v` or in the statement itself, not with the model's helpers.
* Where the code violates a property the theorem is called `..._refuted`; a companion theorem states
  what does hold.
* `Model*.v` hold the transcribed code, `Lem*.v` auxiliary lemmas, `Prop*.v` the theorems `Cnn_...`, `Example`s that
  meet their hypotheses on a concrete case, and one `Print Assumptions` per theorem.

## 2. Plan per property

| property | model | proof idea |
|---|---|---|
| C01-C06 | ModelStats: Mean/Covariance as state machines on rows | invariant over histories: mu = sum/n, S = sum of centred products |
| C07 | ModelStats.confidence_interval, quantiles as parameters | algebra |
| C08, C10-C12 | ModelEstimators: MeanEstimator, ControlVariableEstimator | invariant over histories; least squares identity |
| C09 | ModelAlias: heap of arrays, reads return floats or references | induction over read/update interleavings |
| C13-C17 | ModelEstimators: criteria as syntax trees + evaluator with exceptions and xnum | case analysis |
| C18, C19 | ModelTyping: association lists, ascii lower-casing | lists |
| C20 | ModelTrace._chunk | list induction |
| C21-C30 | ModelTrace.hutch: fuel loop over random tape | loop invariant; expectation as finite average over all sign tapes |
| C31-C34 | ModelHutchpp.hutchpp (QR as parameter) | matrix algebra, trace cyclicity |
| C35 | ModelHutchpp.update_trinv | block matrices, induction over columns |
| C36-C39 | ModelXtrace.xtrace, _xtrace (qr_insert as parameter) | leave-one-out projector characterisation; loop invariant in LemXrun |
| C40, C41, C81 | ModelTrace.diag | loop invariant, finite average |
| C42, C43 | ModelXtrace.xdiag (QR as parameter) | projector algebra |
| C44-C51, C53 | ModelLanczos: kernel with bounds-checked buffers | invariants; refinement to the textbook recurrence; orthogonality by induction |
| C52 | ModelHeap: arrays as views into a heap of buffers; copies allocate, kernels store | frame lemmas in LemHeap; each function reads back as the pure model (PropHeap) |
| C54, C57, C58 | ModelQuadrature | LAPACK specification; p(T)_00 by the eigenbasis; Christoffel numbers |
| C55, C56 | ModelOperators + LemQuad | Krylov identities for the textbook recurrence (ModelLanczos refinement) |
| C59-C62 | ModelOperators.MatrixFunction as an object with buffers | simulation between two histories; concrete 2x2 and 3x3 witnesses over any real closed field |
| C63-C65 | ModelTqli (tqli.py and tridiag.py, LAPACK as parameter) | each rotation keeps Z T Z^T as a bilinear form; characteristic polynomials; witnesses |
| C66, C67 | ModelToeplitz: FFT by its definition over `complex F` with the roots of unity as parameter (LemToeplitz.root_ref is an instance); operators as a small language of sums and multiples | convolution theorem; characteristic polynomial of an affine image |
| C68-C70, C82 | ModelRandom, ModelRandom2.isotropic_call | algebra; position of each draw in the array for each memory layout; exactness in any binary format |
| C71 | ModelRandom2: worker threads as lists of element operations on shared cells, `fill` takes a schedule | LemFill: steps with disjoint footprints commute; every fair schedule ends in the sequential result |
| C72, C73 | ModelRandom2.symmetric, haar (QR and orthogonal draw as parameters) | similarity by an orthogonal matrix |
| C74-C77 | ModelSpecial | convolution identity for central binomials; polynomial inequalities |
| C78 | ModelLanczos.resolve (pybind overload resolution) | case analysis over argument kinds; zeros are returned otherwise |
| C83 | ModelPylinop: matvec as a state machine returning arrays with offset and stride, copied by raw pointer | simulation with the matrix kernel under an invariant of the object's state |
| C84, C85 | ModelLanczosRef: `_lanczos_recurrence`, `_lanczos_py` | both programs refine the same abstract loop (LemLanczos.aloop, SpecLanczos) |
| C86-C88 | ModelRound: Covariance(dim=1), standard error and one probe with every operation rounded; sums and dot products as relations over all summation orders | sign preservation; standard-model error analysis; exactness on integers |
| C89, C90 | ModelReport: message() of every criterion as a list of tokens; the arrays plotting.py hands to bokeh | numbers shown are functions of the history (C08, C16); step curve = empirical distribution function |
| C91, C92 | no new code: MatrixFunction (ModelOperators) with an arbitrary function | f(A) by an eigendecomposition (SpecOperators); numerical range; polynomials below or near f; Hermite interpolation of 1/t |
| C93 | `hutch` (trace.py) on a `MatrixFunction` object whose buffers survive from probe to probe (ModelSLQ) | hutch on the explicit f(A); averages over tapes; f(A) and polynomial approximation as in C91 |
| C94 | no new code: hutch (ModelTrace) with Rademacher probes on tapes | fraction of tapes, Chebyshev |
| C95 | all of include/eigen_operators.h (ModelNative) | which entries of one memory array are replaced, and by which sums of products |
| C96 | hutch, diag, hutchpp, xtrace, xdiag on an operator object whose products are calls that may change it or raise (ModelOpApps), with Toeplitz as the object | the same estimators on the explicit Toeplitz matrix or its symmetric part |
| C97 | the same with MatrixFunction as the object | the same estimators on f(A); exact quadrature; polynomial approximation |
| C98, C99 | no new code: diag, hutchpp with Rademacher probes on tapes | mean squares and fractions over all tapes, harmonic numbers, Frobenius norm |
| C100 | no new code: hutch, diag with the tolerance and confidence criteria on +-1 probes | off-diagonal absolute sums, bounds on the number of batches or probes; a tape on which no run stops |
| C101 | no new code: hutch, diag in default mode with Rademacher probes on tapes | fraction of all tapes whose run returns a value E or more off |
| C102 | no new code: the estimators on operator objects (ModelOpApps) | the same object with a list of the calls made on it (`watch`) |
| C103 | Covariance, MeanEstimator, the criteria, hutch and diag with infinite or NaN samples (ModelNonFinite) | mean of a list, position of the first non-finite sample |
| C104 | MatrixFunction with functions returning 2-d arrays, setter of `fun`, matrix_function (ModelFunArray) | function of a matrix by eigendecomposition (is_mxfun), last accepted function of a history |
| C105 | hutch on a MatrixFunction with infinite or NaN samples (ModelSLQNonFinite) | mean of the values of quad on all probes, f at 0 through the padding |
| C106 | xtrace with a singular R: R_inv and everything computed from it are extended numbers, qr_insert may raise (ModelXtraceNonFinite) | invertibility of A W; leave-one-out average; exact arithmetic, so only pivots that are exactly zero count |
| C107 | ModelRoundHutch: the whole loop of hutch with rounded quadratic forms, accumulators and criteria, as a relation over all summation orders; without rounding it is proved equal to ModelTrace's hutch | C87's error analysis composed over a run; C94 for the tail; sign probes; no overflow |
| C108 | ModelRoundDiag: the whole loop of diag with rounded products, accumulators, quotients and running mean (two roundings: operator dtype and float64), as a relation over all summation orders and any stopping rule; without rounding a count run is proved equal to ModelTrace's diag | C87's mean bound entry by entry; C98 for the tail; sign probes, no more of them than representable counts (shown necessary); no overflow |
| C109 | the scatter, variance, margin of error and absolute-tolerance stop of ModelRound and ModelRoundHutch against the exact ones | C87's mean bound; batch sizes, sample bound B and mean_const <= 1 as hypotheses; sign-preserving rounding for the margin; the bound is relative to B^2, not to the variance (shown impossible); no overflow |
| C79, C80 | ModelOperators.is_valid_operator, ModelTrace, ModelRandom2 | case analysis over argument kinds |

## 3. Trusted base

* Coq's kernel (8.16.1) and the mathcomp library it checks.
* `Print Assumptions` answers "Closed under the global context" for every theorem listed in
  MANIFEST.json: no axioms, neither our own nor the standard library's. The real numbers are an arbitrary
  `rcfType`, so no axiomatised reals enter.
* The transcription of the Python/C++ text into Gallina (the `Model*.v` files), by reading.
* The meaning given to library calls: where a theorem needs a fact about numpy/scipy/LAPACK/Eigen, the fact
  is a hypothesis in its statement, and an Example shows an instance satisfying it.

## 4. What is modelled, file by file

| source | modelled in | left out |
|---|---|---|
| stats.py | ModelStats, ModelAlias, ModelNonFinite (infinite and NaN samples; arithmetic between finite numbers stays exact, so no overflow) | commented-out code (control variates, DeltaToleranceEstimator) |
| stats.py, trace.py, diagonal.py in floating point | ModelRound (rounded Covariance for dim = 1, margin of error, one sign probe), ModelRoundDiag (the loop of diag), ModelRoundHutch (the loop of hutch for operators without quad, count and confidence criteria) | overflow, dim > 1, rounding elsewhere (all other models use exact arithmetic) |
| estimators.py messages, plotting.py | ModelReport | digits of formatted numbers, colours, labels, bokeh itself (assumed: step_mode 'before' by default, Category10 palettes 3-10); searchsorted on unsorted arrays |
| estimators.py | ModelEstimators, ModelAlias, ModelNonFinite (as for stats.py) | EstimatorResult.info/criterion (messages: ModelReport) |
| typing.py, `_chunk` | ModelTyping | runtime protocols |
| random.py | ModelRandom, ModelRandom2 (isotropic with `out`, class Isotropic with its threads, symmetric, haar) | numpy bit generators (a stream of uniforms and gaussians is a parameter); ndim > 2 sizes; atomicity finer than one element operation |
| trace.py hutch, hutchpp | ModelTrace, ModelHutchpp, ModelSLQ (hutch on a MatrixFunction with its buffers), ModelOpApps (on any LinearOperator object) | `_xtrace` debugging branch; infinite or NaN samples are in ModelNonFinite (hutch on any map from probes to extended numbers), and in ModelSLQNonFinite (hutch on a MatrixFunction); in ModelSLQ they end the model (`NonFin`) |
| trace.py xtrace | ModelXtrace, ModelOpApps, ModelXtraceNonFinite (zero pivots of R) | qr_insert (parameter with explicit specification; Gram-Schmidt is an instance, in ModelXtraceNonFinite also a Gram-Schmidt that raises on dependent columns); rounding: a pivot that is zero in exact arithmetic may be a small non-zero double, which then gives a finite but meaningless value |
| linalg.py update_trinv | ModelHutchpp, ModelXtraceNonFinite (np.reciprocal(0.) = inf) | dtype assertion |
| diagonal.py | ModelTrace (diag), ModelNonFinite (diag with zeros in the probes and non-finite products), ModelXtrace (xdiag), ModelOpApps (both on a LinearOperator object) | scipy's matmat and transpose (column by column); products of an object that are infinite or NaN end the model (`NonFin`) |
| include/lanczos.h | ModelLanczos (mod, orth_vector, param_*, lanczos_recurrence on bounds-checked buffers) | the commented-out quadrature templates (lines 150-359) |
| lanczos.py `_validate_lanczos`, lanczos, rayleigh_ritz | ModelLanczos | - |
| lanczos.py `_orth_vector`, `_lanczos_recurrence`, `_lanczos_py` | ModelLanczosRef | float32 rounding in `_lanczos_py`; array contents after 0/0 |
| include/eigen_operators.h | ModelNative (all three operators on bounds-checked memory) | Eigen itself (products are exact and evaluated into a temporary); timers; `gram = true` and the affine operator are modelled although _lanczos.cpp never instantiates them |
| include/pylinop.h | ModelPylinop (one-dimensional results with any offset and stride; scipy's length checks) | `matmat`, reference counts, 2-d results |
| _lanczos.cpp | ModelLanczos (two-pass overload resolution, which arrays are bound and which are copies) | reference counting; mixed dtypes of user-supplied Q; in ModelHeap: non-contiguous work arrays (which pybind would copy) are written in place |
| tqli.py | ModelTqli (split search, shift, sweep, abandoned sweeps, iteration cap) | the pythran export restricts inputs to float64 arrays |
| tridiag.py | ModelTqli (front end, 'auto' fallback) | LAPACK solvers (parameters; specification SpecTridiag.lapack_ok, shown satisfiable in LemSpectral.ref_ok by proving the spectral theorem) |
| integrate.py, fttr.py | ModelQuadrature (arithmetic with inf/NaN, out-of-bounds accesses as `Undef`) | what happens to NaNs after tqli divided by zero (`NonFin`) |
| operators.py | ModelOperators (validation, overload resolution, MatrixFunction as an object with buffers), ModelHeap (which memory quad and _matvec write), ModelFunArray (functions returning 2-d arrays, assignments to `fun`), ModelToeplitz (Toeplitz as an object with its work array, normalize_unit) | ARPACK (parameter returning one eigenvalue); functions returning arrays of three or more dimensions; assigning attributes other than `fun` |
| special.py | ModelSpecial (exp and log are parameters) | arrays of more than one dimension; overflow of exp |

Simplifications shared by all files: ascii-only `lower()`; arrays have at most two dimensions; in exact
arithmetic over a field `x / 0 = 0`, so every theorem about a division either has a hypothesis that
the divisor is non-zero or the model branches to NaN/inf/an exception explicitly.

## 5. Not modelled

Rounding errors outside ModelRound, ModelRoundHutch and ModelRoundDiag; performance; rendering of figures; OpenMP support headers (no pragma reaches
the Python API); typing protocols; numpy warnings; complex or integer dtypes beyond being rejected.

## Wrong programs that no theorem rejects
In the last rounds of seeded/LOG.jsonl four edits left every theorem provable, and no theorem was tightened for them, so these details of the model are only read off the code:
- `unif_vec`: the range [-1, 1) of the default start vector (only its length is used).
- `fvals`: a function that returns a scalar broadcasts it.
- `matrix_function`: the value `orth = 3` passed on.
- `rhutch`: the result 0 for a 0 x 0 matrix in rounded arithmetic (the theorems of C107 take a non-empty matrix).
Earlier lines with an empty `theorems_failed` list and an empty `theorems_tightened` list are of the same kind.
