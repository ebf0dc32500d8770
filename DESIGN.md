# Formal model of Ceres Solver in Rocq (Coq 8.16.1)

## How to read this

* `properties.jsonl` lists the claims in English (C01, C02, ...).
* `rocq/theories/` holds the model. Each area has up to four files:
  * `XModel.v`  - definitions transcribed from the C++ sources, each citing file and lines in /repo;
  * `XSpec.v`   - the small specification vocabulary the theorems are stated in (readable without the model);
  * `XProofs.v` - lemmas and proofs;
  * `XProps.v`  - the final theorems, `Print Assumptions` for them, and
    `Example`s that show a concrete non-trivial instance meeting the hypotheses.
* `MANIFEST.json` maps each claim to theorem names and says what is missing.
* `seeded/LOG.jsonl` records the seeded bugs used to check that the theorems bite.

## Modelling conventions

* `int`, `size_t` and pointers are `Z` or `nat`; where 32-bit overflow is reachable and
  matters it is an explicit outcome, otherwise the comment says the overflow is not modelled.
* A failing `CHECK`, `LOG(FATAL)` or undefined behaviour is a separate outcome
  (constructor `Abort`/`None`), never silently assumed away.
* Pointers to user memory are addresses (`Z`); heap objects of Ceres are identified by fresh ids.
* Where control flow depends on doubles (trust region minimizer, Levenberg-Marquardt and dogleg radius,
  bounds), `double` is the type `dbl` of `Dbl.v`: a finite value (an integer multiple of 2^-1074), an infinity or NaN.
  `DblArith.v` computes + - * / exactly as IEEE binary64 with round-to-nearest-even, except that there is one zero
  (no signed zeros, so x/0 is the infinity of the sign of x). `pow` is a parameter with a stated contract.
* `double` is idealised as a mathematical real (`R`) in the analytic areas (dogleg step, losses, jets, ...). Rounding,
  overflow and signed zeros are NOT modelled there; where NaN/division by zero decides control flow, it is
  an explicit value. This is the largest idealisation in the development.
* Concurrency: small-step interleaving semantics with one step per atomic operation or
  critical section (sequentially consistent). C++ weak-memory effects are not modelled;
  the code uses default (seq_cst) atomics and mutexes, which justify this.
* User code (cost functions, losses, manifolds, callbacks) and external libraries (Eigen, SuiteSparse,
  CUDA) are universally quantified parameters or oracles, never axioms.

## Trusted base

* Coq's kernel (and `coqc`'s elaboration of the definitions as displayed).
* Axioms reported by `Print Assumptions`: theorems over `Z`/`nat`/lists are closed under the
  global context. Theorems over the reals use the standard library's axioms only:
  `ClassicalDedekindReals.sig_forall_dec`, `ClassicalDedekindReals.sig_not_dec`,
  `FunctionalExtensionality.functional_extensionality_dep`, and for some (via Coquelicot / Rtrigo)
  `Classical_Prop.classic`. Section "Assumptions per theorem" below is kept up to date.
* The fidelity of the transcription: the code was read, not run.

## Plan per property

| Id | What is modelled | How it is proved |
|----|------------------|------------------|
| C01-C03 | ProblemImpl as a state machine: program vectors, parameter map, residual set, fast-removal sets, positions; every edit op returns `Ok state` or `Abort` | invariant by induction over op sequences; refinement to an abstract pair of sets; simulation fast/slow removal |
| C04 | reference counts, ownership flags, list of destroyed objects ("free log"), destructor | invariant: refcount = number of live uses; destroyed once; by induction over histories |
| C05 | address map with lower_bound neighbour test | invariant: sorted, pairwise disjoint; neighbour test complete |
| C06 | constness flags, save/restore loop in Evaluate, evaluation an oracle | case analysis + list induction |
| C07 | lazy bounds arrays, clamp in Plus | history induction, real inequalities |
| C08-C09 | OrderedGroups's two maps as finite maps | refinement to a function element -> group; Reverse order lemma; overflow refutation |
| C10-C12 | ParallelInvoke small-step semantics: shared counters, finished counter, pool queue, arbitrary scheduler | inductive invariant over all executions; progress theorem with a measure |
| C13-C14 | ConcurrentQueue / ThreadPool small-step semantics | trace invariants, progress |
| C15 | greedy feasibility + binary search over Z | optimality by exchange argument |
| C16 | index folding arithmetic | bijection by explicit inverse, nia/lia |
| C17-C19, C22 | Graph as finite maps, the two colouring loops, union-find forest | loop invariants by list induction |
| C20-C21 | bucket fill, stable group placement | permutation and ordering invariants |
| C23-C27, C32 | TrustRegionMinimizer loop as a state machine, oracles for evaluator, strategy, callbacks, clock | invariant over iterations, all oracles |
| C57 | termination types of the trust region loop | the same invariant: each termination type names a test that held |
| C29-C30, C58 | LM and dogleg radius updates in IEEE arithmetic, composed with the minimizer loop (`with_lm`) | rounding lemmas (`DblArithProofs2.v`), history induction, refutation for the missing cap |
| C31, C58 | dogleg and LM steps over R, two dimensional subspace problem | real arithmetic (nra), Cauchy-Schwarz, intermediate value theorem |
| C33-C34 | LineSearchModel.v: Armijo / Wolfe loops (line_search.cc) in IEEE arithmetic, evaluator, manifold and polynomial minimizer as arbitrary functions | LineSearchProps.v: loop invariants by induction on the fuel, separate theorems for the result, for termination without abort and for descent |
| C35, C59, C32 (line search part) | LsMinimizerModel.v: LineSearchMinimizer::Minimize over the two searches of LineSearchModel.v; directions, callbacks, clock and evaluator are arbitrary functions | LsMinimizerProps.v: one induction principle for the loop (`lm_loop_ind`), instantiated per property |
| C36 | QuasiNewtonModel: low_rank_inverse_hessian.cc (ring buffer and two-loop product), line_search_direction.cc (steepest descent, the three conjugate gradient formulas, L-BFGS, BFGS with only the lower triangle kept) over R, vectors as functions read below n; uninitialised memory is a parameter | every sequence of calls: the ring buffer holds the last m accepted pairs (`ring_ok`), the two loops and the dense update compute the textbook operator `bfgs_op`, which is symmetric positive definite and satisfies the secant equation; hence lbfgs_direction, bfgs_direction (no CHECK failure, descent, true iff the gradient is not zero), lbfgs_is_bfgs, ncg_descends. Rounding is not modelled here. lr_update_without_memory_refuted: rank 0 (forbidden by Options) writes out of bounds |
| C37-C38 | polynomial routines over R, companion matrix and balancing included (the balancing exponent is arbitrary, its loop has fuel); LU solve and eigenvalue solver are oracle contracts | induction on coefficients; existence and uniqueness of Hermite interpolation by Newton basis and synthetic division; extreme value theorem for the global minimum; refutation for 0/0 |
| C39-C40 | loss functions and corrector over R | Coquelicot derivatives; ring/field identities on lists |
| C41 | ResidualBlockModel: residual_block.cc Evaluate and NumScratchDoublesForEvaluate, residual_block_utils.cc, array_utils.cc with explicit buffers (cost, residuals, each jacobian, scratch), pointers into them and a bound on the scratch space; the cost function is an oracle that writes any subset of the requested entries | rb_success (cost, corrected residuals, projected and corrected jacobians for every request), rb_failure, rb_frame (nothing else changes), rb_cost_same, rb_gradient. Not modelled: rounding and overflow |
| C42 | EvaluatorModel: ProgramEvaluator::Evaluate with the dense jacobian writer; every body of the parallel loop is two steps (test of the abort flag; the rest) which interleave arbitrarily, every block on any thread | evaluate_succeeds_iff, evaluate_values, evaluate_gradient (J^T r), evaluate_schedule_independent, evaluate_failure_frame. Real arithmetic: rounding and the final isfinite test are not modelled |
| C43, C28 | ProgramStateModel: user memory and vectors as named arrays, `state_` pointers, program.cc state functions, Program::Plus, solver.cc Minimize and the tail of Solver::Solve; the minimizer is any list of the operations it has (store a vector, evaluate at it, publish to the user, inner iterations) | list induction over blocks, invariant over the operation list; memory safety as "no read of a freed vector" |
| C44 | ReducedModel: CreateReducedProgram and RemoveFixedBlocks with the in-place compaction, marks in index_, evaluation of fixed residual blocks, EvaluationCallback | list induction; cost split by a permutation of the residual blocks |
| C45 | TripletSparseMatrix and CompressedRowSparseMatrix with their index arrays (SparseModel.v), real values; the random matrix constructors, the aligned/SuiteSparse variants and the text output are not modelled | each format is mapped to the list of its entries and that to a matrix (SparseSpec.v); counting sort and prefix sum invariants for transposition and conversion, permutations of entries, induction (SparseProofs*.v, SparseProps.v) |
| C46 | SchurModel.v: Init, Eliminate, BackSubstitute, UpdateRhs, ChunkDiagonalBlockAndGradient, ChunkOuterProduct, NoEBlockRowsUpdate and the row outer products of schur_eliminator_impl.h; SchurEliminatorForOneFBlock; SolveImpl and the block pairs of InitStorage. Updates of a cell are atomic (the cell's mutex); the chunks' update sequences are interleaved arbitrarily. Not modelled: rounding, the static sizes of the templates (the products are those of small_blas), the factorisation of the reduced matrix, Init when no row has an eliminated block (it reads the back of an empty vector: None) | SchurProofs.v to SchurProofs14.v: invariants over the rows of a chunk, permutation invariance of the sums, block elimination with a generalised inverse, LDL' construction of such an inverse; SchurProps.v |
| C47 | every operation and function of jet.h on real scalars extended with NaN (no rounding, infinities count as NaN; Bessel functions and Jets of Jets not modelled), and programs over them: operations, calls, branches (JetModel.v); meaning of a program as a real function, total derivative along differentiable curves (JetSpec.v) | each operation: derivative with Coquelicot and the Jet formula equal to it (JetProofs.v, JetProofs2.v, JetProofs3.v); programs by induction, with a gradient such that every Jet component is its product with the seeds (JetProofs4.v, JetProps.v) |
| C50 | CubicModel.v: CubicHermiteSpline, both interpolators (with Jets), Grid1D, Grid2D over R, int overflow of the sample indices as None | pieces are polynomials with matching values and slopes at the joints; a function that is locally one of two pieces that agree to first order has their derivative; arrays by block induction |
| C51 | all XToString and StringToX functions of types.cc as string functions over the enumerators' integer values, toupper in the C locale, IsSchurType and the library availability functions over a record of build switches (EnumModel.v) | the tables of names (EnumSpec.v) are those of types.h; a chain of comparisons against upper case names is shown equivalent to case-insensitive equality by induction on strings, then one theorem per enum (EnumProofs.v, EnumProps.v) |
| C52 | the option record of solver.h, IsValid and every function it calls over a record of build switches; results are valid, invalid with a message, or abort (OptionsModel.v) | a table of rules in words (OptionsSpec.v); boolean reflection for acceptance, and for rejection a search of the table for the message (OptionsProofs.v, OptionsProps.v) |
| C53 | the two orderings as shared objects in a store, and every step of the preprocessing that reads or writes them, over the OrderedGroups model of C08; results of the other steps are inputs (SolveOrderingModel.v) | refutation by execution; an effect relation on orderings (blocks removed, blocks regrouped) carried through the steps; exact condition for the CHECK on an empty ordering (SolveOrderingProofs.v, SolveOrderingProps.v) |
| C54 | NumDiffModel: the three methods, the loops over columns and blocks, both Evaluate functions; parameters as mutable state, trace of calls; doubles as R, CHECKs on sizes not modelled | column, tableau and block invariants by induction; algebra of even power series for exactness; Taylor-Lagrange for accuracy |
| C56 | Graph's vertex set and adjacency map | refinement to the edit history |
| C55 | InnerModel.v: Init, IsOrderingValid, Minimize with the lambda split into steps and any interleaving; the inner minimizer is a step machine (argument) | invariant over interleavings: each finished task's value is that of the task alone; Jacobi pass over an independent set = sequential pass |
| C60 | LinearSolver::Create and the replacement of Schur type solvers when no E block is left (end of OptionsModel.v) | case analysis on the solver type using the equivalence of C52; witnesses for the three gaps by execution (OptionsProps.v) |
| C61 | AutoDiffModel.v: the functor as expressions plus guards, run over Jets and over doubles; Make1stOrderPerturbation / Take1stOrderPart loops; the dynamic version's section discovery, seeding and copying loops, and its float pass count | The value of a Jet computation equals the double computation, with no regularity needed; components do not interact, so any component that is seeded at one parameter yields the same derivative. Invariant relating (section, cursor) to the position in the flat parameter list; ranks of active parameters identify the pass. Float division: Flocq, half-ulp bound |
| C49 | RotationModel.v: every function of rotation.h and the 24 systems of euler_angles.h, double as R, arrays as functions of the index, reads outside the 3x3 matrix as None; signed zeros and rounding are not modelled | RotationProofs*.v: quaternion algebra by ring, atan2 as the polar angle, the 2x2 minors of the matrix of products for the four branches of Shoemake's method, cofactor identities for Euler angles |
| C48 | ManifoldModel: all manifolds of manifold.{h,cc}, sphere, line and product manifolds, Householder vectors; arrays as functions of the index | ManifoldSpec.is_manifold (11 laws); exponential chart composed with a linear isometry, first order expansions of sin, cos, atan; block derivatives; induction over the list of factors |
| C62 | CGModel.v: ConjugateGradientsSolver and its loop, operators as functions, over R (no rounding, no infinities); the scratch vectors are values | CGProofs.v: A-conjugacy of the directions and orthogonality of the residuals by induction over the steps, Krylov spans, minimisation; CGProofs2.v: n + 1 vectors are dependent, hence termination in n steps; loop invariant; CGProps.v |
| C63 | BlockSparseModel.v: structures, memory as a function, every accumulating block product an update of a range; ParallelFor = any interleaving of the iterations' updates; constructor, transposed structure, append and delete with the value buffer; the E/F views | BlockSparseProofs*.v: updates add up independently of their order; sums over the transposed structure are sums over the structure; append/delete by induction over rows with the representation invariant `good` (transposed = CreateTranspose, values within the counted nonzeros) |
| C64 | ImplicitSchurModel.v: Init, products, back substitution, right hand side, power series, IterativeSchurComplementSolver::SolveImpl with its cached view, CgnrSolver::SolveImpl, block Jacobi preconditioners; the view operations are any interleaving of the updates of BlockSparseModel.v; Eigen's LLT inverse, the Schur-Jacobi, visibility and subset preconditioners are arguments | ImplicitSchurProofs*.v: the view products are E, F products (C63); E'E is block diagonal for a partitioned structure, so the inverse of its blocks inverts it; (u, x)' H (u, x) is the quadratic form of S; solvability of the normal equations by running conjugate gradients (C62); ImplicitSchurProps.v |
| C65 | CovarianceModel.v: CheckForDuplicates, ComputeCovarianceSparsity, the three ComputeCovarianceValues, SolveRTRWithSparseRHS, GetCovarianceBlock(InTangentSpace), GetCovarianceMatrix; Problem::Evaluate, the QR factorisation and the SVD are arguments; sparse matrices: SparseModel.v | CovarianceProofs*.v: the rows of the sparse matrix are the concatenation of the column lists of the requested blocks; R'R x = e by two triangular solves; V V' = I for square V with orthonormal columns by traces; CovarianceProps.v |
| C66 | JacobianModel.v: the writers, preparers and CreateJacobian functions for the three sparse formats; an evaluation is the list of stores of every residual block in any interleaving; the derivatives are an argument (C41), the dense format is in C42; int and unsigned arithmetic with its limits where the code counts entries | JacobianProofs*.v: every row of the compressed matrix is the list of the columns of the sorted arguments; layout positions by induction over the residual blocks; stores at different places commute; JacobianProps.v |
| C67 | Exact-arithmetic model of TinySolver (`Update`, `Solve`, `Residuals`, `Jacobian`) over an arbitrary function oracle (success flag, residuals, Jacobian) and an arbitrary linear solver oracle; trial points recorded in a trace; row-major to column-major adapter. | Loop invariant: buffers describe the current point, `u > 0`; the regularised normal matrix is symmetric positive definite, hence the model cost change is nonnegative and `rho > 0` iff the cost falls; best-point, status, count and independence theorems by induction on the iteration budget; refutations of the documented tolerances and of ignoring evaluation failures. |
| C68 | The four loop-based routines and the four 4-wide kernels over an arbitrary scalar type with uninterpreted `+ - *` and zero; arrays are lists, every access is bounds checked (an access outside is failure); pointers are indices. The Eigen variants (all dimensions fixed) are not modelled. | Invariant 'exactly these entries are written, with their final values' through the loops; the unrolled loop is the rolled one; the odd, pair and quad column groups partition the columns. |
| C69 | Product terms, their sort, nonzero counts, row pointers, the offset pass with its column stores, and Compute's accumulations, over the block structures of C46/C63; arrays as functions with explicit store lists, scalars real. | The strictly sorted list of distinct (row, column) block pairs gives closed forms for all offsets; the blocks' places are disjoint and cover every row; accumulated values are then matched with the Gram sum over the cells. |
| C70 | A cost function is its Evaluate on one flat memory, given the addresses of parameters, residuals and Jacobian blocks (or null) and the first free stack address; the wrappers are modelled on the same memory with their locals on the stack; destructor as the list of deleted objects. Scalars real. | Loop invariant over the residuals for the conditioner; the wrappers are shown to meet the same contract as the functions they wrap; a Frechet chain rule (limits, finite dimension) gives the derivatives. |
| C71 | Sets as sorted lists, the graph as in C56 with real weights, union-find as in C22; iteration order of hash containers is an oracle that returns some permutation; a NaN vertex weight is a separate value | list invariants; union-find invariant of C22; the quality difference is shown to be the difference of the documented objective, then loop invariants |
| C72 | block pairs, cluster pairs, cluster graph and forest (C22) as written; the Schur complement as a real matrix given by its cells (C46 gives the values); factorization is an oracle | set characterisation by list induction; positive definiteness by splitting the quadratic form over clusters and edges of the forest |
| C73 | LsqModel: the three SolveImpl functions with their persistent buffers, FactorAndSolve, the refined Cholesky wrappers and the two refiners; the factorizations of the libraries are oracles with the contract that a successful one solves with the matrix it was given (a reference Cholesky and QR over the reals meet it); exact arithmetic; one solver object is used always with or always without D | the minimiser by completing the square; for the sparse solver C63 (append, delete) and C69 (inner products) and C45 (symmetric product); induction on the refinement count and on the list of calls; counterexamples for the dense refiner |
| C74 | TplModel: DetectStructure with its early exit, the three generated tables (transcribed by a script from the sources), the choices of SchurComplementSolver and IterativeSchurComplementSolver and the report of Solve; block structures of C46; int as Z | detection as a fold over the three lists of sizes; the most specific entry by a decidable condition on pairs of table entries; the single block variant through C46 |
| C75 | GckModel: IsClose, EvaluateCostFunction, Probe, the wrapping cost function and its iteration callback, RunCallbacks and the end of Solve, CreateGradientCheckingProblemImpl as calls on the Problem model of C01; the user's function, the Ridders derivative (C54) and the manifolds are oracles; doubles are reals (NaN not modelled); a minimizer is the sequence of its iterations | verdict as an iff against a division-free closeness, maximum by induction over the entries; copy by an invariant of the user's picture (C01 refinement) plus an order invariant; the solve by induction over iterations |
| C76 | GpsModel: the conversion of the options, GradientProblem::Evaluate, RunCallbacks and the minimizer loop of C35 with the user's array as state, Solve; the vector operations, the function and the manifold are oracles, doubles with IEEE arithmetic; GpgModel: the constructors and Evaluate over the reals with the manifolds of C48 | the loop with memory simulates the loop of C35 with callbacks that look at the current iterate; C35 is then used; the gradient by the chain rule (first order expansions) |
| C77 | PevModel: Evaluate and EvaluateResidualBlock with the state pointers, stored manifold Jacobians, constness and offsets of the parameter blocks; the temporary state vector and its lifetime; the threads as in C42; the residual block is a function of states and manifold Jacobians (C41); dense Jacobian (C66 for the compressed one) | invariant: outside of a call all state pointers are the user's; loops by induction over the block lists; the offsets of the last occurrences; then the theorems of C42 |
| C78 | UstModel: the loop of TrustRegionModel (same body) together with the user's parameter blocks: written by the state updating callback, by evaluations if there is an EvaluationCallback, and at the end of Minimize (solver.cc); user callbacks read them. A state that a manifold rejects leaves unspecified values (an arbitrary function). Line search minimizer: C76 has the analogue | invariant over the loop relating the parameter blocks, the trace of evaluations and the accepted points; simulation by the loop of C23 |
| C79 | AdfModel.v: the Evaluate functions and operator() as loops over buffers, on top of AutoDiffModel (Jets, AutoDifferentiate) and NumDiffModel (difference quotients); functors as expressions (auto) or arbitrary functions (numeric); a cost function of the adapter is an arbitrary function writing as many doubles as its sizes say, the adapter's buffer has a capacity | loop lemmas for the buffers; exactness from the Jet theorems (gradient along curves), the product of the manifold Jacobians by the chain rule along t -> Plus(x, t e_c); numeric parts from C54 |
| C80 | BraModel.v: constructors, GetCell, SetZero of the three classes with memory as a list and int overflow as failure; adding to and assigning a block through GetCell as the eliminator does; SymmetricRightMultiplyAndAccumulate; Invert and RightMultiplyAndAccumulate in any order of the blocks; Tail; the extraction of the block diagonal in schur_complement_solver.cc | closed forms for the addresses of a window by induction over the blocks and pairs, disjointness from them; histories by induction against a function of block and position; the eliminator's updates are such a history (with C46) |
| C81 | PrepModel.v: Program as blocks (addresses), residual blocks and the index field; SetParameterOffsetsAndIndex, IsParameterBlockSetIndependent, MapValuesToContiguousRange, the two column reorderings of the Schur complement, ReorderProgramForSchurTypeLinearSolver, ReorderProgramForSparseCholesky, ReorderResidualBlocksByPartition, ReorderProgram; ApplyOrdering, the lexicographic order, the stable Schur ordering and the ordering object are those of C18-C22; the fill reducing algorithms and std::partition are arguments | PrepSpec.v: what a reduced program and a covering ordering are, what the libraries return. Each stage keeps a permutation whose first blocks are the first group; the rows sorted by first eliminated block are cut into groups, giving the hypothesis of C46 on the structure made by the Jacobian writer of C66 |
| C82 | GpuModel.v: the flat structure (both loops of the constructor, with the reverse iteration that leaves the array as an undefined outcome), the kernels as lists of writes per thread performed in any order, the binary search with its reads, the batches of CopyToGpu, the two views; block structures and values are those of C63. Not modelled: int overflow, CUDA errors, the overlap of copies and kernels in the two streams (a batch is in the buffer when its kernel runs), CudaSparseMatrix products (cuSPARSE) | GpuSpec.v: the matrix a CRS matrix stands for, when it represents a given matrix; theorems relate it to the dense matrix of C63. One lemma development on rows of cells with a column shift, used for the whole matrix, E and F: prefix sums, distinct addresses, binary search. Refuted theorems with witnesses for F and for the undefined construction |
| C83 | StbModel.v: CopyToGpu as the list of host instructions it issues (synchronise with a stream or event, write one value to the staging memory, enqueue an operation), and the device as one queue per stream whose first operation progresses one element at a time, in any order of its elements; events as recorded/finished counts; flat memories with the addresses of the code. The batches are those of C82. Not modelled: CUDA errors, int overflow, more than one kernel per callback, managed memory | StbSpec.v: executions, what kernels saw, what is idle. Invariant by phases of the host: running each queue to its end gives every kernel the values of its batch (a symbolic run of the queue, invariant under steps), every pending transfer from the staging memory is followed by a pending event. Measure for termination, progress for every reachable state |
| C84 | SpcModel.v: the two functions of compressed_col_sparse_matrix_utils.cc with reads outside the arrays as undefined; BlockOrdering, BlockAnalyzeCholesky, Cholesky with its status codes, Factorize and Solve of the SuiteSparse wrapper, the Eigen wrapper; the libraries as oracles. Not modelled: single precision (the values are abstract), logging, memory release | SpcSpec.v: contiguous blocks, block pattern, permutation that keeps blocks together, contract of the libraries (an analysis with a permutation is for that pattern; a factorisation that reports success is one of the matrix given; solving with it solves), and what a history of calls may answer. Induction over the blocks and over the history |
| C85 | SubModel.v: UpdateImpl on the block sparse matrices of C63 (AppendRows, DeleteRowBlocks), the inner product computer of C69 kept between updates, the factorisation an oracle as in C73; RightMultiplyAndAccumulate. Not modelled: log output, which of the libraries is used | SubSpec.v: the part of the normal equations, written as a sum over rows. The lemmas of C73 about reading a triangle are proved again for a range of row blocks; the Gram sum over the last row blocks is the sum over the last rows plus the squared diagonal; induction over the updates |
| C86 | DsnModel.v: SolveImpl and the three back ends function by function on the compressed row matrices of C45 (append_rows, delete_rows, block_diagonal); the libraries are oracles that may fail in analysis, factorisation or back substitution. Not modelled: messages, logging, builds without a library | DsnSpec.v: what is asked of a library, when a matrix is well formed; the objective of C73. The product of the stored rows with the diagonal appended is the normal matrix; appending then deleting restores rows, entries and blocks; induction over the calls |
| C87 | ExsModel.v: IncrementTimeBy as its single steps (lock, find or insert, load and store of the time, load and store of the number of calls, unlock), the scoped timer's constructor and destructor, threads that run nested scopes. Not modelled: memory order outside of the mutex, overflow of the counters | ExsSpec.v: count and total duration over the tree of scopes. Invariant over schedules: what is stored plus what the threads still owe is the total; only the holder of the mutex is between load and store; a measure that every step decreases |
| C88 | PvoModel.v: ParallelAssign and ParallelSetZero as the loop of C10 with the function that writes one element; evaluating and writing one element is one step. Not modelled: vector instructions inside of a segment | PvoSpec.v: elementwise expressions. By C10 the calls of any schedule are the indices, each once; a fold over such a list writes every element once |
| C89 | RedModel.v: Norm and Dot on the ParallelFor of ParallelModel.v with one partial sum per thread id, real numbers; an index outside of the partial sums is an outcome. Not modelled: rounding, vectors of different sizes | RedSpec.v: the sum by recursion over the elements. The total of the partial sums is the sum over the trace; the trace is a permutation of the indices (C01 family); thread ids are in range and exclusive |

No property is currently judged inexpressible.

## Findings (claims that are false of the code as read)

Each entry names the theorem that exhibits a concrete witness.

* C06 `evaluate_state_pointer_refuted`: `Problem::Evaluate` over a subset of blocks, when the manifold of an
  excluded block cannot compute its Plus Jacobian, succeeds but leaves evaluated blocks' `state_` pointers at the
  freed evaluation vector (problem_impl.cc:741 ignores the result of a loop that stops at the first failure).
* C07 `negative_bound_index_refuted`: a negative coordinate passed to SetParameterLowerBound/UpperBound is not
  rejected and writes outside the bounds array (parameter_block.h:191-223 check only `index < size_`).
* C09 `reverse_overflow_refuted`: OrderedGroups::Reverse computes `max_group + 1`-style ids in `int`; with a group
  id near INT_MAX it overflows.
* C15 `partition_overflow_refuted`: `max_partition_cost + cost_offset` is computed in `int` and can overflow
  although every single cost and the total fit.
* C17 `self_loop_aborts_refuted`: a graph with a self loop (a residual block listing the same block twice, possible
  only with safety checks disabled) fails the final CHECK of IndependentSetOrdering.
* C19 `recursive_ordering_diverges`: ComputeRecursiveIndependentSetOrdering never returns when the program has a
  constant block (it counts all blocks but only variable ones are in the graph).
* C14 `pool_no_threads` (an Example): a ThreadPool without threads silently drops queued tasks at destruction.
* C20 `residual_order_unused_block_aborts`: an eliminated block that no residual uses makes
  LexicographicallyOrderResidualBlocks fail its CHECK.
* C21 `apply_ordering_failure_changes_program_refuted`: a failure that ApplyOrdering finds late leaves the program with one
  block twice and another lost (reachable only when the problem has a block the program lacks).
* C25 `final_cost_refuted`: a rejected step with a slightly lower cost makes the reported final cost lower than
  the cost at the returned parameters.
* C26 `monotonic_with_inner_refuted`: inner iterations that raise the cost can turn the model cost change negative, and
  then even a monotonic solve accepts a step that increases the cost.
* C57 `infinite_cost_converges_refuted`: an infinite initial cost is reported as CONVERGENCE after one step.
* C29 `lm_radius_positive_refuted`: about 46 consecutive rejections drive the LM radius to exactly 0 (in a solve
  min_trust_region_radius stops earlier).
* C58 `lm_accept_abort_refuted`: with inner iterations an accepted step can have quality exactly 0 (underflow), and
  `CHECK_GT(step_quality, 0.0)` in StepAccepted ends the process.
* C30 `dogleg_radius_cap_refuted`: DoglegStrategy stores max_radius_ but never uses it, so the radius can exceed
  max_trust_region_radius; `dogleg_stuck`: once mu_ has reached kMaxMu every later ComputeStep fails without a solve.
* C31 `subspace_inside_refuted`: FindMinimumOnTrustRegionBoundary compares projected candidates but stores the
  unprojected one (dogleg_strategy.cc:509), so with an inexact root the step leaves the trust region while
  dogleg_step_norm_ reports the radius.
* C34 `wolfe_nonfinite_slope_aborts_refuted`: a point with a finite cost and an infinite directional derivative becomes
  bracket_low and fails ZoomPhase's CHECK, ending the process; `wolfe_nonfinite_slope_violates_armijo_refuted`: one
  met during zoom is returned as a success without the sufficient decrease test; `wolfe_success_without_step`: when
  every evaluation fails the search still reports success, with the start as its result.
* C59 `lm_failed_search_converges_refuted`: when every trial point of a Wolfe search fails to evaluate, the minimizer
  takes the "successful" zero step and reports CONVERGENCE (parameter tolerance reached).
* C32 `lm_callback_contract_wolfe_refuted`: in that case it evaluates the start with new_evaluation_point = false
  although another point was evaluated last.  With the Armijo search the contract holds (`lm_callback_contract_armijo`).
* C38 `quadratic_double_root_refuted`: for a x^2 (b = c = 0) FindQuadraticPolynomialRoots divides 2c = 0 by
  -b - sqrt(D) = 0, so the second root is NaN; the first one is right.  MinimizePolynomial still finds the minimum
  (`minimize_cubic_global`), because comparisons with NaN are false.
* C41 `rb_marker_value_refuted`: a residual that is exactly 1e302 (kImpossibleValue) is treated as "not written" and fails the
  evaluation; `rb_bad_loss_aborts`: a loss with rho'' > 0 and rho' <= 0 ends the process (CHECK in Corrector) as soon as
  residuals or Jacobians are wanted.
* C28 `solve_leaves_dangling_pointer_refuted`: SetParameterBlockStatePtrsToUserStatePtrs (program.cc:117-125) stops at the first
  block whose PlusJacobian fails, and Solver::Solve ignores its result (solver.cc:784, 840).  If a manifold fails there, blocks
  behind it keep a `state_` pointer into a vector that has been freed; the next Solve reads it.
- Sparse matrices (C45): `CompressedRowSparseMatrix::ToDenseMatrix` assigns where the triplet version adds, so a repeated position gives different dense matrices although the products agree (`to_dense_duplicates_refuted`). `ScaleColumns` with triangular storage scales the stored triangle only (`scale_triangular_refuted`). `AppendRows` copies the row blocks of the appended matrix without moving their positions (`append_rows_block_positions_refuted`). The DCHECK_LT in `AppendRows` fails in debug builds when the appended matrix has no nonzeros (not modelled).
* C52 `accepted_options_abort_strategy_refuted`: Solver::Options::IsValid accepts min_lm_diagonal = 0, but the constructors of
  both trust region strategies CHECK that it is positive, so Solve aborts the process.
* C60 `fallback_aborts_refuted`: PreconditionerForZeroEBlocks does not replace SCHUR_POWER_SERIES_EXPANSION, so valid ITERATIVE_SCHUR
  options whose first elimination group is entirely constant end in CgnrSolver's LOG(FATAL).
* C60 `fallback_invalid_refuted`: DENSE_SCHUR with mixed precision falls back to DENSE_QR with mixed precision, which IsValid rejects.
* C52 `dynamic_dense_accepted`: the messages call dynamic_sparsity "only supported with SPARSE_NORMAL_CHOLESKY", yet it is accepted
  with DENSE_QR and DENSE_NORMAL_CHOLESKY.
* C53 `ordering_changed_refuted`: Solve removes constant and unused blocks from the ordering objects the caller passed through
  `const Options&` (trust_region_preprocessor.cc:188, 322); making such a block variable again and solving with the same options fails.
  `single_group_regrouped_refuted`: with a Schur type solver an ordering with one group is split into two, in place.
* C53 `empty_ordering_aborts_refuted`: an ordering object without elements, or with a Schur type solver one holding only constant
  blocks, makes MinNonZeroGroup's CHECK abort the process; the size check that would report it as an error comes later.
* C47 `pow_zero_exponent_refuted`: pow(x, 0.0) is 1 for every x, but the derivative of the Jet at x = 0 is NaN (0 times pow(0, -1), jet.h:1215);
  jet.h documents this for pow(Jet, Jet), not for a constant exponent.  `branch_at_tie_refuted`: a program that returns x for every x by way of
  `if (x == 0) return 0` has Jet derivative 0 at 0; hence the condition on ties in the statement.
* C61 `dynamic_zero_size_block_refuted`: DynamicAutoDiffCostFunction with a constant parameter block of size zero between two non-constant ones records a section twice; a later pass then repeats a section, and the last Jacobian block is left unwritten although Evaluate returns true. `dynamic_many_parameters_refuted`: the number of passes is computed in float; with 2^24 + 1 columns and stride 1 the last column is never computed.
* C55 `init_undefined_iff`: CoordinateDescentMinimizer::Init does `parameter_map.find(...)->second` without a check, and the preprocessor checks the user's inner_iteration_ordering only for independence, so an ordering that names an address outside the problem is undefined behaviour.
* C49 `C49_matrix_to_quaternion_eigen_order_refuted`: RotationMatrixToQuaternion<EigenQuaternionOrder> uses Order::kW, kX, kY (3, 0, 1) as axis numbers in the branch for a negative trace (rotation.h:473-490), so for the half turn about x it reads R(3, 3). Also `C49_euler_row_stride_refuted`: EulerAnglesToRotationMatrix(euler, row_stride, R) ignores row_stride.
* C48 `sphere_minus_itself_refuted`, `sphere_plus_leaves_refuted`: ComputeHouseholderVector treats a vector with 0 < x_1^2 + ... + x_{n-1}^2 <= 2^-52 as if it were on the last axis but keeps its small entries in v, so Minus(x, x) is not 0 and, next to the negative end of the axis, Plus leaves the sphere (both by at most about sqrt(epsilon)).
* C48 `line_plus_jacobian_refuted`: LineManifold uses the Jacobian of the direction for the point as well, which is wrong by the factor |d| unless the direction has unit length.
* C48 `line_plus_minus_refuted`: Plus(x, Minus(y, x)) is a different line from y when the offset of the points is not perpendicular to the direction of x; `line_plus_minus_projects` says which.
* C48 `quaternion_opposite_refuted`: Plus(x, Minus(-x, x)) = x.
* C54 `numdiff_static_refuted`: NumericDiffCostFunction::Evaluate ignores the result of EvaluateJacobianForParameterBlocks and returns true when a perturbed evaluation failed, leaving the jacobians (or part of them) unwritten; DynamicNumericDiffCostFunction returns false in the same case. `numdiff_ridders_none_refuted`: max_num_ridders_extrapolations <= 0 makes Ridders' method report success with uninitialised memory as the jacobian; the option is not validated.
* C62 `cg_exact_guess_refuted`: with min_num_iterations >= 1 an exact initial guess, or exact convergence before min_num_iterations, is reported as FAILURE (rho = r'Mr = 0 is treated as numerical failure). `cg_model_test_refuted`: the quadratic model test divides by the new model value, so when that is positive (possible only for a nonzero start) any decrease at all passes it and SUCCESS is reported.
* C63 `bs_append_unpacked_refuted`: BlockSparseMatrix::AppendRows numbers the cells of the added rows in order but copies m.values() as they are, so the result is wrong when m does not store its cells in order. `bs_delete_unpacked_refuted`: DeleteRowBlocks lowers the count of nonzeros without moving values, so a later AppendRows can overwrite values of the rows that were kept if they are not stored in order (as in the layout with E and F cells apart). The solvers only append packed diagonal matrices and delete exactly those rows (`bs_restore`), which is safe for every layout.
* C64 `isc_accumulate_refuted`: RightMultiplyAndAccumulate of ImplicitSchurComplement and of the power series preconditioner write over y instead of adding to it (all present callers pass zero). `iterative_schur_stale_refuted`: IterativeSchurComplementSolver keeps the ImplicitSchurComplement made for the first matrix, and its Init keeps the first view, so a second call with another matrix object solves the first system. Not stated as theorems: CgnrSolver does not look at the result of the preconditioner's Update; SUBSET with ITERATIVE_SCHUR is LOG(FATAL).
* C65 `failed_evaluation_refuted`, `not_requested_refuted`, `thin_refuted`: Compute does not look at what Problem::Evaluate returns; when it fails, sparse QR factors a 0 x 0 matrix and Compute returns true with a covariance of zero, DENSE_SVD reads the first of no singular values. GetCovarianceBlock for a pair that was not asked for reads behind the end of the column numbers (only (y, y) computed, (x, x) asked for) or goes through a null pointer (only constant pairs computed) instead of returning false. DENSE_SVD takes the thin decomposition: with fewer rows than columns the missing singular values count neither as too small (Compute returns true though J'J is singular) nor as part of null_space_rank (which then drops values that are not zero). Not in the model: PlusJacobian's return value is not looked at; success in GetCovarianceMatrix is written by several threads without synchronisation.
* C66 `e_overflow_refuted`, `block_overflow_refuted`: BuildJacobianLayout checks f_block_pos but not e_block_pos (an int), and the products num_residuals * TangentSize() are computed in int before any check. With more than INT_MAX entries in E blocks, or in a single block, creating the Jacobian is signed overflow instead of the reported error.
* C67 `gradient_documented_refuted`, `cost_change_documented_refuted`, `failure_ignored_refuted`: TinySolver reports GRADIENT_TOO_SMALL from the Jacobi-scaled gradient (which can be 1000 times smaller than the documented max_norm |J'f|), tests the absolute change of twice the cost where the header documents a change relative to the old cost, and ignores a failed evaluation: it can move to a point where the function reports failure and return the cost of the start as final_cost.
* C70 `conditioned_shared_refuted`: a ConditionedCostFunction that owns its parts and whose wrapped function is also used as a conditioner deletes that object twice. `functor_residuals_refuted`: CostFunctionToFunctor<kNumResiduals, ...> checks the parameter block sizes but never compares kNumResiduals with num_residuals() of the wrapped function.
* C71 `invalid_views_refuted`: FindValidViews compares the vertex weight with WeightedGraph::InvalidWeight(), which is NaN, by `!=`; that is always true, so a view marked invalid is a candidate like any other, and the CHECK_GT on the best difference fails once only such views are left and min_views is not reached. The preconditioner gives every vertex weight one and is not affected.
* C73 `dense_refinement_in_place_refuted`, `dense_refinement_copy_refuted`: with max_num_refinement_iterations > 0, DENSE_NORMAL_CHOLESKY moves away from the exact solution. DenseNormalCholeskySolver fills only one triangle of lhs, the Eigen and LAPACK factorizations then overwrite it with the factor, and DenseIterativeRefiner multiplies by the whole buffer as if it still held the full symmetric matrix. With A = [2], b = [2] the exact answer 1 becomes 2 - 2^-k after k iterations; with a factorization of a copy (float) the other triangle is zero and (1, 1) becomes (2/3, 5/3) in the second example. The refiner is right for a full matrix that is not overwritten (`dense_refinement_full`), which is what its unit test passes.
* C74 `empty_rows_refuted`, `all_rows_empty_refuted`: DetectStructure uses 0 for not seen yet, so a cost function without residuals (which AddResidualBlock accepts) is ignored when it comes first: the eliminator is compiled for rows of another size and reads the next row twice. If all have none, the CHECK fails.
* C74 `restricted_report_refuted`: in builds with CERES_RESTRICT_SCHUR_SPECIALIZATION the summary reports d,d,d while the 2,3,6 single block eliminator is used.
* C75 `callback_kept_refuted`, `unchecked_problem_refuted`, `updated_despite_failure_refuted`, `failing_manifold_refuted`: with check_gradients the evaluation callback and disable_all_safety_checks of the user's problem are dropped (the callback is never called; a problem that names a parameter block twice in a residual block stops the program), a user callback that ends the solve in the iteration of the error leaves updated parameters although FAILURE is reported, and a failing PlusJacobian makes Probe read uninitialised memory.
* C76 `gps_failure_changes_parameters_refuted`: with update_state_every_iteration a GradientProblemSolver run that ends in FAILURE or USER_FAILURE leaves the last iterate in the user's array (gradient_problem_solver.cc has no restoring code), whereas Solver::Solve puts the initial values back (C28).
* C77 `pev_rejected_leaves_dangling_refuted`: Problem::Evaluate with parameter blocks listed in another order than in the problem, where the manifold of a block rejects the values (PlusJacobian returns false): the final SetParameterBlockStatePtrsToUserStatePtrs stops at the first block that is rejected (program.cc 104-113, its result is ignored in problem_impl.cc 739), so a later block keeps a pointer into the local vector that is then freed; a later Evaluate that does not list that block reads freed memory.
* C77 `pev_residual_block_rejected_aborts`: Problem::EvaluateResidualBlock aborts the process (CHECK, "Congratulations, you found a Ceres bug!", problem_impl.cc 772-777) if a manifold's PlusJacobian returns false at the user's values, where Problem::Evaluate returns false.
* C78 `ust_untouched_refuted`: with an EvaluationCallback, iteration callbacks find the point evaluated last in the parameter blocks even if update_state_every_iteration is false, and that may be a step that was rejected (solver.h only says that the blocks are not updated every iteration by default).
* C79 `adf_adapter_unchecked_refuted`: TinySolverCostFunctionAdapter compares the sizes of the cost function with its template parameters only if one of them is Eigen::Dynamic; with both fixed, a larger cost function writes beyond the adapter's Jacobian buffer.
* C80 `bra_overflow_refuted`: a reduced system of more than 46340 rows (or 46340 blocks) cannot be held by BlockRandomAccessDenseMatrix: num_rows_ * num_rows_ and num_blocks * num_blocks are int products (block_random_access_dense_matrix.cc 44-51), which overflow, although the matrix itself (16 GB) would fit in memory. The sparse and diagonal classes have the same limit for their numbers of entries.
* C81 `prep_ordering_failure_refuted`: `SuiteSparse::Ordering` and `ConstrainedApproximateMinimumDegreeOrdering` return whether CHOLMOD succeeded, but reorder_program.cc ignores the result of both: when CHOLMOD fails (for example for want of memory) the vector of zeros it was given is used as a permutation, so for sparse normal Cholesky every position of the program holds the first parameter block and true is returned; for a Schur type solver the process aborts in the check of the residual block order.
* C81 `prep_one_group_mismatch_refuted`: with a one group ordering ReorderProgramForSchurTypeLinearSolver checks only the number of blocks; with a foreign block in it the process aborts. Solver::Options::IsValid does not look at the ordering; IsOrderingValid in the trust region preprocessor does, so a caller of Solve cannot reach this.
* C82 `gpu_partitioned_f_refuted`: CudaPartitionedBlockSparseCRSView::UpdateValues (cuda_partitioned_block_sparse_crs_view.cc 106-151) copies from the first value of the matrix when F has to be permuted, but gives the kernel the offset of F: F receives the values shifted by the number of nonzeros of E. The unit test compares the columns from num_cols_e up to num_cols_f, an empty range for its matrices. The views are used by benchmarks and tests only.
* C82 `gpu_gap_undefined`, `gpu_gap_refuted`: the second loop of CudaBlockSparseStructure (cuda_block_structure.cc 155-160) decrements a reverse iterator at the end of the offsets, so that it leaves the array, whenever a row block with only an E cell is followed by one without an E cell.
* C84 `spc_suitesparse_message_refuted`: when CHOLMOD cannot compute the block ordering (nested dissection not compiled in, out of memory), SuiteSparseCholesky::Factorize returns FATAL_ERROR without writing the message; a failed cholmod_solve is not explained either. The statement says so (`spc_suitesparse_message`).
* C85 `subset_accumulate_refuted`: `SubsetPreconditioner::RightMultiplyAndAccumulate` overwrites its output with the solution instead of adding to it (subset_preconditioner.cc 67) (the visibility based one does too); callers that clear the output first do not notice. It also ignores the result of Solve, so after a failed update the output may stay as it was.
* C86 `dsn_failure_not_zero`: with dynamic sparsity a failed factorisation returns with A'b in x (dynamic_sparse_normal_cholesky_solver.cc 70, 154, 164, 214), where the solver without dynamic sparsity leaves zeros (C73); the trust region strategy only looks at the termination type.
* C85 `subset_mixed_refuted`: the range of row blocks that is summed is fixed in the first `Update` (subset_preconditioner.cc 87-93). A preconditioner updated first without and later with a diagonal leaves the diagonal out, and both updates return true. No caller in the repository mixes the two.
