{"id": "C01", "title": "Problem bookkeeping stays consistent over every edit history", "statement": "After any sequence of AddParameterBlock / AddResidualBlock / RemoveResidualBlock / RemoveParameterBlock calls that do not abort, the parameter blocks reported by the Problem are exactly those added and not removed (each once), the residual blocks likewise, every live residual block refers only to live parameter blocks, and every block's internal position is the position at which it is stored.", "quantifier": "all finite sequences of Problem edit operations, all sizes and pointers", "why_tests_cant": "the invariant is over unbounded edit histories (including swap-with-last removal); tests sample a few fixed histories", "anchors": ["internal/ceres/problem_impl.cc: ProblemImpl::AddResidualBlock, InternalAddParameterBlock, RemoveResidualBlock, RemoveParameterBlock, DeleteBlockInVector, InternalRemoveResidualBlock", "include/ceres/problem.h: Problem"]}
{"id": "C02", "title": "Removing a parameter block removes exactly the dependent residual blocks", "statement": "RemoveParameterBlock(v) leaves exactly the residual blocks that do not use v, and exactly the other parameter blocks; RemoveResidualBlock(r) removes only r and no parameter block.", "quantifier": "all reachable Problem states and all live v, r", "why_tests_cant": "cascading deletion while scanning a vector backwards with swap-with-last must be right for every dependency pattern and position", "anchors": ["internal/ceres/problem_impl.cc: ProblemImpl::RemoveParameterBlock, RemoveResidualBlock, DeleteBlockInVector"]}
{"id": "C03", "title": "enable_fast_removal is only an optimisation", "statement": "For every edit history the set of live parameter blocks, the set of live residual blocks, and the answers of GetResidualBlocksForParameterBlock (as sets) are the same with enable_fast_removal true and false.", "quantifier": "all edit histories, both option settings", "why_tests_cant": "equivalence of two data-structure implementations over unbounded histories", "anchors": ["internal/ceres/problem_impl.cc: RemoveParameterBlock, GetResidualBlocksForParameterBlock, InternalAddParameterBlock", "internal/ceres/parameter_block.h: EnableResidualBlockDependencies, AddResidualBlock, RemoveResidualBlock"]}
{"id": "C04", "title": "Owned functions are destroyed exactly once and never while in use", "statement": "With ownership taken, every CostFunction / LossFunction passed to the Problem is destroyed exactly once over the life of the Problem (including its destruction), never while a live residual block still uses it; objects the Problem does not own are never destroyed. Manifolds passed to SetManifold are destroyed exactly once, at destruction of the Problem.", "quantifier": "all edit histories followed by destruction, including functions shared by many residual blocks", "why_tests_cant": "double free / leak / use-after-free absence is a property of every history of shared references", "anchors": ["internal/ceres/problem_impl.cc: DecrementValueOrDeleteKey, DeleteBlock, ~ProblemImpl, AddResidualBlock, InternalSetManifold"]}
{"id": "C05", "title": "Accepted parameter blocks never overlap in memory", "statement": "If every AddParameterBlock call so far was accepted (with safety checks enabled), then the memory ranges of all live parameter blocks are pairwise disjoint; and an attempt to add a block overlapping any live block is always rejected.", "quantifier": "all add/remove histories, all addresses and sizes", "why_tests_cant": "the code only compares with the two address-adjacent blocks; that this suffices is an inductive fact", "anchors": ["internal/ceres/problem_impl.cc: RegionsAlias, CheckForNoAliasing, InternalAddParameterBlock"]}
{"id": "C06", "title": "Problem::Evaluate leaves the constness of every parameter block unchanged", "statement": "Evaluating a Problem over any subset of parameter blocks evaluates exactly with the chosen subset varying, and on return every parameter block is constant / variable exactly as before, whatever the success of the evaluation.", "quantifier": "all problems, subsets of parameter blocks and evaluation outcomes", "why_tests_cant": "save/restore over arbitrary subsets and failing evaluations", "anchors": ["internal/ceres/problem_impl.cc: ProblemImpl::Evaluate", "internal/ceres/parameter_block.h: SetConstant, SetVarying, IsConstant"]}
{"id": "C07", "title": "Bounds: last set value is returned and every update lands in the box", "statement": "GetParameterLowerBound / GetParameterUpperBound return the last value set for that coordinate (or -/+ max double if never set), other coordinates are unaffected; and whatever step is applied to a parameter block, each coordinate of the result satisfies its bounds whenever lower <= upper.", "quantifier": "all set/get histories, all states, steps and manifolds", "why_tests_cant": "holds for every history and every step value", "anchors": ["internal/ceres/parameter_block.h: SetUpperBound, SetLowerBound, UpperBound, LowerBound, Plus", "internal/ceres/problem_impl.cc: SetParameterLowerBound, SetParameterUpperBound"]}
{"id": "C08", "title": "OrderedGroups is a partition of its elements", "statement": "After any sequence of AddElementToGroup / Remove / bulk Remove / Clear / Reverse, every element belongs to exactly one group (the last it was added to), GroupId and IsMember agree with the group contents, no group is empty, and NumElements is the sum of the group sizes.", "quantifier": "all operation sequences over any element type", "why_tests_cant": "two mutually redundant maps must stay in agreement along every history", "anchors": ["include/ceres/ordered_groups.h: OrderedGroups::AddElementToGroup, Remove, Reverse, GroupId, IsMember, GroupSize, NumElements, NumGroups, MinNonZeroGroup"]}
{"id": "C09", "title": "OrderedGroups::Reverse exactly reverses the order of the groups", "statement": "Reverse keeps the groups as sets and reverses their order: a is before b afterwards iff b was before a; applying it twice restores the relative order. It is undefined behaviour when group ids approach the int maximum.", "quantifier": "all group structures", "why_tests_cant": "universally quantified over group structures and id gaps", "anchors": ["include/ceres/ordered_groups.h: OrderedGroups::Reverse"]}
{"id": "C10", "title": "ParallelFor runs every index exactly once under every schedule", "statement": "For every start <= end, thread count and block size and every interleaving of the worker and calling threads, each index in [start,end) is passed to the user function exactly once and no other index is.", "quantifier": "all ranges, thread counts, block sizes, and all interleavings of atomic steps", "why_tests_cant": "races depend on the schedule; tests observe only some schedules", "anchors": ["internal/ceres/parallel_invoke.h: ParallelInvoke, ParallelInvokeState", "internal/ceres/parallel_for.h: ParallelFor", "internal/ceres/parallel_invoke.cc: BlockUntilFinished, ParallelInvokeState"]}
{"id": "C11", "title": "ParallelFor thread ids are in range and never shared by concurrent calls", "statement": "Every call of the user function receives a thread id in [0,num_threads), and two calls that can run concurrently never receive the same thread id, so per-thread scratch memory is race free.", "quantifier": "all interleavings", "why_tests_cant": "a data-race freedom statement over all schedules", "anchors": ["internal/ceres/parallel_invoke.h: ParallelInvoke", "internal/ceres/thread_token_provider.cc: ThreadTokenProvider::Acquire, Release", "internal/ceres/scoped_thread_token.h: ScopedThreadToken"]}
{"id": "C12", "title": "ParallelFor returns only after all work is done and cannot hang", "statement": "When ParallelFor returns, every index has been processed; and from every reachable state, even if the thread pool never starts a single task, the calling thread's next steps lead to return (no lost wake-up, the finished count never exceeds the total).", "quantifier": "all interleavings, all pool sizes including zero workers", "why_tests_cant": "deadlock freedom and completion are over all schedules", "anchors": ["internal/ceres/parallel_invoke.cc: BlockUntilFinished::Finished, BlockUntilFinished::Block", "internal/ceres/parallel_invoke.h: ParallelInvoke"]}
{"id": "C13", "title": "ConcurrentQueue delivers each item once, in FIFO order, and Wait cannot miss a wake-up", "statement": "In every concurrent history items are delivered in push order, each at most once; Wait returns without an item only if the queue is empty and waiting was disabled; a blocked waiter is always eventually enabled after Push or StopWaiters.", "quantifier": "all interleavings of producers, consumers, StopWaiters and EnableWaiters", "why_tests_cant": "lost wake-ups and duplication depend on interleaving", "anchors": ["internal/ceres/concurrent_queue.h: ConcurrentQueue::Push, Pop, Wait, StopWaiters, EnableWaiters"]}
{"id": "C14", "title": "ThreadPool executes every submitted task exactly once before destruction completes", "statement": "Every task given to AddTask is executed exactly once (if the pool has at least one thread) and the destructor returns only after all submitted tasks have been executed and all workers have terminated.", "quantifier": "all interleavings, all task counts and pool sizes", "why_tests_cant": "shutdown races are schedule dependent", "anchors": ["internal/ceres/thread_pool.cc: ThreadPool::AddTask, ThreadMainLoop, Stop, Resize, ~ThreadPool"]}
{"id": "C15", "title": "PartitionRangeForParallelFor returns an optimal covering partition", "statement": "The returned boundaries start at start, end at end, are non-decreasing, describe at most max_num_partitions intervals, and the maximum interval cost is the minimum achievable by any such partition into contiguous intervals. The claim is for costs whose total, doubled, fits an int; beyond that the code overflows.", "quantifier": "all ranges, cumulative cost arrays (non-negative costs) and partition counts", "why_tests_cant": "optimality is over all partitions of all inputs", "anchors": ["internal/ceres/partition_range_for_parallel_for.h: MaxPartitionCostIsFeasible, PartitionRangeForParallelFor"]}
{"id": "C16", "title": "Linear index to upper-triangular index is a bijection", "statement": "LinearIndexToUpperTriangularIndex maps [0, n(n+1)/2) one-to-one onto the pairs i <= j < n.", "quantifier": "all n and k", "why_tests_cant": "holds for every n, not just tested sizes", "anchors": ["internal/ceres/parallel_utils.cc: LinearIndexToUpperTriangularIndex"]}
{"id": "C17", "title": "Independent set ordering yields a permutation headed by a maximal independent set", "statement": "IndependentSetOrdering and StableIndependentSetOrdering return a permutation of the graph's vertices whose first k (the returned count) vertices are pairwise non-adjacent, and every other vertex is adjacent to one of the first k.", "quantifier": "all finite graphs and input orderings", "why_tests_cant": "universally quantified over graphs", "anchors": ["internal/ceres/graph_algorithms.h: IndependentSetOrdering, StableIndependentSetOrdering", "internal/ceres/graph.h: Graph"]}
{"id": "C18", "title": "Schur ordering puts an independent set of parameter blocks first and keeps every block", "statement": "For any program, ComputeStableSchurOrdering / ComputeSchurOrdering list every parameter block exactly once, and no residual block involves two distinct variable blocks of the first group.", "quantifier": "all programs", "why_tests_cant": "for every program structure", "anchors": ["internal/ceres/parameter_block_ordering.cc: ComputeStableSchurOrdering, ComputeSchurOrdering, CreateHessianGraph"]}
{"id": "C19", "title": "Recursive independent set ordering terminates and each group is independent", "statement": "On programs without constant parameter blocks ComputeRecursiveIndependentSetOrdering terminates, places every block in exactly one group, and no residual block involves two blocks of one group; on a program with a constant block it does not terminate.", "quantifier": "all programs", "why_tests_cant": "termination over all inputs", "anchors": ["internal/ceres/parameter_block_ordering.cc: ComputeRecursiveIndependentSetOrdering"]}
{"id": "C20", "title": "Residual block reordering for Schur solvers is a permutation grouped by eliminated block", "statement": "LexicographicallyOrderResidualBlocks permutes the residual blocks, so that all residual blocks touching eliminated block i come before those touching i+1 and those touching none come last; none of its internal sanity checks can fire when every eliminated block is used.", "quantifier": "all programs and group sizes", "why_tests_cant": "bucket-fill index arithmetic must be right for every input", "anchors": ["internal/ceres/reorder_program.cc: LexicographicallyOrderResidualBlocks, MinParameterBlock"]}
{"id": "C21", "title": "ApplyOrdering stably permutes the parameter blocks by group", "statement": "When ApplyOrdering succeeds the new parameter block order is a permutation of the old in which group ids are non-decreasing and blocks of the same group keep their relative order; on failure due to an unknown element nothing is changed.", "quantifier": "all programs and orderings", "why_tests_cant": "universally quantified over orderings", "anchors": ["internal/ceres/reorder_program.cc: ApplyOrdering"]}
{"id": "C22", "title": "Degree2MaximumSpanningForest returns a spanning forest of maximum degree two", "statement": "The result contains all vertices, only edges of the input graph, every vertex has degree at most two, and it has no cycles.", "quantifier": "all finite weighted graphs", "why_tests_cant": "acyclicity for every graph", "anchors": ["internal/ceres/graph_algorithms.h: Degree2MaximumSpanningForest, FindConnectedComponent", "internal/ceres/graph.h: WeightedGraph"]}
{"id": "C23", "title": "Trust region solve returns the best accepted point", "statement": "For every cost function, strategy and callback behaviour: the parameters left in the user's array have the least cost among the initial point and all accepted points, hence cost no greater than at the start.", "quantifier": "all objective functions, step sequences, evaluation failures and callback decisions", "why_tests_cant": "ranges over all objective functions and all failure patterns", "anchors": ["internal/ceres/trust_region_minimizer.cc: TrustRegionMinimizer::Minimize, FinalizeIterationAndCheckIfMinimizerCanContinue"]}
{"id": "C24", "title": "Trust region solve terminates within max_num_iterations", "statement": "The minimizer performs at most max_num_iterations steps after iteration zero, terminates, and reports as many iteration summaries numbered 0,1,2,... as iterations finalised; num_successful_steps + num_unsuccessful_steps equals their number.", "quantifier": "all objectives, strategies and callbacks", "why_tests_cant": "termination for all inputs", "anchors": ["internal/ceres/trust_region_minimizer.cc: Minimize, MaxSolverIterationsReached, HandleInvalidStep"]}
{"id": "C25", "title": "Solver::Summary::final_cost is the cost of the returned solution", "statement": "For a usable solution, final_cost (minus fixed cost) equals the objective value at the parameters returned to the user.", "quantifier": "all solves with a usable termination type", "why_tests_cant": "depends on the whole trajectory of accepted and rejected steps", "anchors": ["internal/ceres/solver_utils.h: SetSummaryFinalCost", "internal/ceres/trust_region_minimizer.cc: Minimize"]}
{"id": "C26", "title": "Monotonic trust region steps strictly decrease the cost; non-monotonic ones never exceed the initial cost", "statement": "With use_nonmonotonic_steps = false each accepted step has strictly smaller cost than the previous accepted point; with it true, every accepted cost is smaller than the initial cost, and than the largest cost seen since the last reference reset.", "quantifier": "all trajectories, all min_relative_decrease >= 0", "why_tests_cant": "invariant of a stateful acceptance rule over unbounded histories", "anchors": ["internal/ceres/trust_region_step_evaluator.cc: StepQuality, StepAccepted", "internal/ceres/trust_region_minimizer.cc: IsStepSuccessful"]}
{"id": "C27", "title": "Bounds constrained solves only visit feasible points", "statement": "When bounds are present, every point accepted by the trust region minimizer and every point returned lies in the box.", "quantifier": "all objectives and step sequences", "why_tests_cant": "all trajectories", "anchors": ["internal/ceres/trust_region_minimizer.cc: IterationZero, ComputeCandidatePointAndEvaluateCost", "internal/ceres/program.cc: Program::Plus", "internal/ceres/parameter_block.h: Plus"]}
{"id": "C28", "title": "A solve that fails restores the user's parameters; constant blocks never change", "statement": "If the summary says the solution is not usable, the user's parameter values after Solve equal those before; values of constant parameter blocks never change in any case; no freed memory is read and afterwards all blocks point to the user's arrays again, provided the manifolds accept the user's values (their PlusJacobian does not fail there); without that proviso a dangling pointer is left.", "quantifier": "all problems, all failure modes", "why_tests_cant": "over every failure point", "anchors": ["internal/ceres/solver.cc: Minimize, Solver::Solve", "internal/ceres/program.cc: CopyParameterBlockStateToUserState, StateVectorToParameterBlocks, SetParameterBlockStatePtrsToUserStatePtrs"]}
{"id": "C29", "title": "Levenberg-Marquardt radius stays in [0, max], is positive whenever used, and reacts monotonically", "statement": "For every history of notifications the radius is never NaN, negative or above max_trust_region_radius; inside a solve every step is computed with a radius above min_trust_region_radius. An accepted step at most halves and at most triples the radius, does not shrink it at quality 1/2 or more, does not grow it at quality 1/2 or less, and a better quality never gives a smaller radius. A rejected or invalid step strictly shrinks a positive radius, and n rejections in a row divide it by 2*4*...*2^n.", "quantifier": "all sequences of accept/reject/invalid notifications, all qualities, all monotone implementations of the cube; all solves", "why_tests_cant": "unbounded histories, every double", "anchors": ["internal/ceres/levenberg_marquardt_strategy.cc: StepAccepted, StepRejected, LevenbergMarquardtStrategy", "internal/ceres/levenberg_marquardt_strategy.h: StepIsInvalid"]}
{"id": "C30", "title": "Dogleg radius respects max_trust_region_radius", "statement": "Under any history of accepted and rejected steps the dogleg trust region radius never exceeds max_trust_region_radius.", "quantifier": "all histories", "why_tests_cant": "unbounded histories", "anchors": ["internal/ceres/dogleg_strategy.cc: StepAccepted, StepRejected"]}
{"id": "C31", "title": "The dogleg step stays inside the trust region and is one of the three classical cases", "statement": "The traditional dogleg step has norm at most the radius (in the scaled norm); it is the Gauss-Newton step when that is inside, the scaled Cauchy step when the Cauchy point is outside, and otherwise lies on the segment between them exactly on the boundary.", "quantifier": "all gradients, Gauss-Newton steps and radii", "why_tests_cant": "real-analytic identity for all inputs", "anchors": ["internal/ceres/dogleg_strategy.cc: ComputeTraditionalDoglegStep"]}
{"id": "C32", "title": "EvaluationCallback: new_evaluation_point=false only for the point evaluated last", "statement": "Whenever PrepareForEvaluation is called with new_evaluation_point == false, the parameter values are those of the immediately preceding evaluation.", "quantifier": "all solves (trust region and line search), all objectives and evaluation failures", "why_tests_cant": "depends on every control path of the minimizers", "anchors": ["include/ceres/evaluation_callback.h: EvaluationCallback::PrepareForEvaluation", "internal/ceres/trust_region_minimizer.cc: EvaluateGradientAndJacobian, HandleSuccessfulStep", "internal/ceres/line_search_minimizer.cc: LineSearchMinimizer::Minimize", "internal/ceres/line_search.cc: LineSearchFunction::Evaluate"]}
{"id": "C33", "title": "A successful Armijo line search satisfies sufficient decrease with an admissible step", "statement": "If the Armijo search reports success then the returned point is the last one evaluated, its cost is finite and not above f(0) + c1*step*f'(0) (hence not above the initial cost along a descent direction), and the step is at least the minimum step size whenever it differs from the initial step; each trial step is the previous one times a factor between the two contraction options; it performs at most max_num_iterations evaluations, always ends, and reports an error when it fails.", "quantifier": "all univariate functions, options and initial steps", "why_tests_cant": "all functions", "anchors": ["internal/ceres/line_search.cc: ArmijoLineSearch::DoSearch, InterpolatingPolynomialMinimizingStepSize"]}
{"id": "C34", "title": "A successful Wolfe line search never returns a point violating the Armijo condition", "statement": "When every finite cost comes with a finite directional derivative: the Wolfe search always ends without a CHECK failure, with at most max(1, max_num_iterations) evaluations, and if it reports success the returned point (an evaluated point or the start) satisfies the Armijo condition and, unless the iteration limit was reached or two trial points were closer than min_step_size, the strong curvature condition. In every case its cost is not above the initial cost. (Without finite derivatives the search can abort or return a point violating Armijo: see Findings.)", "quantifier": "all univariate functions and options", "why_tests_cant": "all functions and both phases", "anchors": ["internal/ceres/line_search.cc: WolfeLineSearch::DoSearch, BracketingPhase, ZoomPhase"]}
{"id": "C35", "title": "Line search minimizer returns its best point and honours the iteration limit", "statement": "The line search minimizer always ends, without a CHECK failure, after at most max_num_iterations iterations; whatever the outcome, the returned parameters are those of the last reported iteration and the cost it reports is theirs. If the search directions are descent directions with finite slopes, reported costs never increase, so the returned parameters are the best of all reported iterates, the initial point included.", "quantifier": "all objectives with a finite initial cost, all directions, evaluation failures, callbacks, clocks, both line search types", "why_tests_cant": "all trajectories", "anchors": ["internal/ceres/line_search_minimizer.cc: LineSearchMinimizer::Minimize"]}
{"id": "C36", "title": "BFGS / L-BFGS inverse Hessian stays positive definite and satisfies the secant equation", "statement": "For every sequence of updates, corrections violating the curvature condition are skipped, the approximation stays symmetric positive definite, so the computed direction is a descent direction; the newest accepted correction satisfies H*y = s.", "quantifier": "all update sequences and dimensions", "why_tests_cant": "algebraic invariant over unbounded histories", "anchors": ["internal/ceres/low_rank_inverse_hessian.cc: Update, RightMultiplyAndAccumulate", "internal/ceres/line_search_direction.cc: BFGS, LBFGS"]}
{"id": "C37", "title": "Interpolating polynomial reproduces the samples and minimisation is over the interval", "statement": "The polynomial found for samples at different points matches every supplied value and derivative and is the only one of its size to do so; MinimizePolynomial returns a point in [x_min,x_max] whose value is no greater than at the end points, the middle and every critical point returned by the root finder, and for at most four coefficients it is a global minimum on the interval.", "quantifier": "all sample sets and intervals", "why_tests_cant": "all real inputs", "anchors": ["internal/ceres/polynomial.cc: FindInterpolatingPolynomial, MinimizePolynomial, MinimizeInterpolatingPolynomial, DifferentiatePolynomial, EvaluatePolynomial"]}
{"id": "C38", "title": "Polynomial roots are exactly the roots", "statement": "FindPolynomialRoots of a polynomial that is not zero everywhere returns, as the roots with zero imaginary part, exactly its real roots, after trimming leading zeros; for a quadratic it returns both roots with multiplicity, real or complex, except that for a*x^2 the second copy of the root 0 is the quotient 0/0.", "quantifier": "all coefficients; degree 3 and more relative to an exact eigenvalue solver, including building and balancing the companion matrix", "why_tests_cant": "all real inputs, including degenerate discriminants", "anchors": ["internal/ceres/polynomial.cc: FindLinearPolynomialRoots, FindQuadraticPolynomialRoots, RemoveLeadingZeros", "internal/ceres/polynomial.cc: BuildCompanionMatrix, BalanceCompanionMatrix, FindPolynomialRoots"]}
{"id": "C39", "title": "Loss functions report their true derivatives", "statement": "For each built-in loss and every s >= 0 (s away from the documented branch point), rho[1] and rho[2] are the first and second derivatives of rho[0]; rho(0)=0, rho'(0)=1 for the robust losses; Huber, Tukey are continuously differentiable at the branch point.", "quantifier": "all s >= 0 and all positive scale parameters", "why_tests_cant": "calculus over all reals", "anchors": ["internal/ceres/loss_function.cc: HuberLoss, SoftLOneLoss, CauchyLoss, ArctanLoss, TolerantLoss, TukeyLoss, ComposedLoss, ScaledLoss"]}
{"id": "C40", "title": "Robustification preserves the gradient exactly and the Hessian when it can", "statement": "After the Corrector is applied, J'^T r' = rho'(s) J^T r for every residual and Jacobian, and J'^T J' = rho' J^T J + 2 rho'' J^T r r^T J whenever the code does not clamp; the corrected Jacobian is never complex.", "quantifier": "all residuals, Jacobians of any size and loss derivatives with rho' >= 0", "why_tests_cant": "matrix identity over all inputs", "anchors": ["internal/ceres/corrector.cc: Corrector::Corrector, CorrectResiduals, CorrectJacobian"]}
{"id": "C41", "title": "Residual block evaluation yields the robust cost and tangent-space Jacobians", "statement": "For every cost function, loss, manifold and set of requested outputs: evaluation succeeds exactly when the cost function succeeds and fills every requested entry with a finite number (other than the marker 1e302); then the cost is rho(|r|^2)/2 (or |r|^2/2), each requested Jacobian is the user's Jacobian times the manifold's PlusJacobian, residuals and Jacobians carry the same clamped Triggs correction so that their product is rho' J'r, and the cost does not depend on what else is requested. No memory other than the requested outputs and the declared scratch space is touched, whether or not evaluation succeeds.", "quantifier": "all cost functions, losses, manifolds", "why_tests_cant": "all cost functions", "anchors": ["internal/ceres/residual_block.cc: ResidualBlock::Evaluate", "internal/ceres/residual_block_utils.cc: IsEvaluationValid, InvalidateEvaluation"]}
{"id": "C42", "title": "Program evaluation is independent of the thread schedule", "statement": "In exact arithmetic the cost, residual vector and gradient produced by the evaluator do not depend on the number of threads or the interleaving; residuals of block i occupy the slots after those of blocks 0..i-1, and the gradient is J^T r.", "quantifier": "all programs, thread counts, schedules", "why_tests_cant": "all schedules", "anchors": ["internal/ceres/program_evaluator.h: ProgramEvaluator::Evaluate, BuildResidualLayout"]}
{"id": "C43", "title": "State vector and parameter blocks round-trip", "statement": "Writing a state vector into the parameter blocks and reading it back is the identity, blocks occupy disjoint consecutive ranges in program order, and constant or removed blocks are unaffected.", "quantifier": "all programs and state vectors", "why_tests_cant": "all block structures", "anchors": ["internal/ceres/program.cc: StateVectorToParameterBlocks, ParameterBlocksToStateVector, SetParameterOffsetsAndIndex, Plus"]}
{"id": "C44", "title": "The reduced problem has the same objective up to the reported fixed cost", "statement": "For every assignment of the variable blocks, the cost of the full problem equals the cost of the reduced problem plus fixed_cost; the reduced program contains no constant or unused parameter block and exactly the residual blocks with at least one variable block.", "quantifier": "all programs and assignments", "why_tests_cant": "all problem structures", "anchors": ["internal/ceres/program.cc: CreateReducedProgram, RemoveFixedBlocks"]}
{"id": "C45", "title": "Sparse matrix formats represent the same linear map", "statement": "Conversion from triplet to compressed row form (with or without transposition, for any result of the unstable sort), transposition, column scaling, appending and deleting rows, resizing, and the diagonal and block diagonal constructors give exactly the matrix asked for; conversion to dense form does for matrices without repeated positions; the multiply and column norm routines compute exactly the product with (the column norms of) the represented matrix, in the case of triangular storage the symmetric one, for every order of the parallel rows. Column scaling of triangular storage, dense conversion with repeated positions and the block positions after appending rows are exceptions, shown by counterexamples.", "quantifier": "all matrices and vectors", "why_tests_cant": "all sizes and sparsity patterns", "anchors": ["internal/ceres/compressed_row_sparse_matrix.cc: FromTripletSparseMatrix, Transpose, ToDenseMatrix, DeleteRows, AppendRows, RightMultiplyAndAccumulate, LeftMultiplyAndAccumulate", "internal/ceres/triplet_sparse_matrix.cc: TripletSparseMatrix"]}
{"id": "C46", "title": "Schur elimination plus back substitution solves the original normal equations", "statement": "For a block sparse matrix A with its rows grouped by eliminated block, right hand side b and optional diagonal D, elimination produces, whatever the schedule of the threads, exactly the Schur complement of A'A + D'D and the reduced right hand side in every block that has storage; the sparse storage covers every block in which the Schur complement is not zero; any solution of the reduced system, substituted back in any order of the chunks, gives a vector that solves the regularised normal equations and minimises |Ax-b|^2 + |Dx|^2, and every solution of the normal equations arises in this way; the scratch buffers are never overrun and their parts do not overlap; the specialised eliminator for one remaining block computes the same reduced system and the same solution.", "quantifier": "all block structures with adjacent rows per eliminated block (any number and size of blocks and rows), all values, D, b, all interleavings of the updates, all orders of the chunks, dense and sparse storage, rank deficient eliminated blocks when full rank is not assumed", "why_tests_cant": "a linear algebra identity over all block structures and thread schedules", "anchors": ["internal/ceres/schur_eliminator_impl.h: SchurEliminator::Init, Eliminate, BackSubstitute", "internal/ceres/schur_eliminator.h: SchurEliminatorForOneFBlock", "internal/ceres/schur_complement_solver.cc: SchurComplementSolver::SolveImpl, SparseSchurComplementSolver::InitStorage"]}
{"id": "C47", "title": "Jets compute exact derivatives", "statement": "Every arithmetic operation and elementary function on Jets returns the value and the exact derivative of the underlying real function where that operation is differentiable (except pow at base 0 and exponent 0); so a program built from them returns its value and its gradient at every point where all executed operations are differentiable and no executed comparison is a tie. fmax and fmin average at ties and ignore NaN; pow with a negative base returns NaN exactly for the derivatives that do not exist.", "quantifier": "all programs (operations, function calls, branches), all real inputs where the executed operations are differentiable, all seedings of the infinitesimal parts", "why_tests_cant": "all expressions and reals", "anchors": ["include/ceres/jet.h: operator+, operator*, operator/, exp, log, sqrt, sin, cos, atan2, pow, hypot, fmax, fmin, erf, comparison operators"]}
{"id": "C48", "title": "Manifold laws", "statement": "For EuclideanManifold, SubsetManifold, QuaternionManifold, EigenQuaternionManifold, SphereManifold, LineManifold and ProductManifold of any sizes and any list of factors, for every point x of the manifold: Plus(x, delta) is on the manifold; Plus(x, 0) = x; Plus(x, Minus(y, x)) = y for every y of the manifold within reach (subset: equal constant entries; quaternions: y other than -x; sphere: every y, the opposite point included; lines: the point of y in the plane through the point of x perpendicular to the direction of x); Minus(Plus(x, delta), x) = delta for delta shorter than pi (any delta for flat manifolds); PlusJacobian is the derivative of Plus(x, .) at 0 and MinusJacobian that of Minus(., x) at x; MinusJacobian * PlusJacobian = I; RightMultiplyByPlusJacobian multiplies by PlusJacobian; only the stated numbers of entries are read. Sphere and line: wherever the (direction) vector is on the last axis or at least sqrt(epsilon) away from it; lines: directions of unit length. A product of manifolds has the laws of its factors.", "quantifier": "all sizes, points, tangent vectors and lists of factors", "why_tests_cant": "all reals; derivatives are limits", "anchors": ["internal/ceres/manifold.cc: SubsetManifold, QuaternionPlusImpl, QuaternionMinusImpl", "include/ceres/manifold.h: Manifold, EuclideanManifold", "include/ceres/product_manifold.h: ProductManifold", "include/ceres/sphere_manifold.h: SphereManifold", "include/ceres/line_manifold.h: LineManifold", "include/ceres/internal/sphere_manifold_functions.h", "include/ceres/internal/householder_vector.h"]}
{"id": "C49", "title": "Rotation conversions agree", "statement": "Quaternions, rotation matrices, angle-axis vectors and all 24 Euler angle conventions represent the same rotations: matrices are orthonormal with determinant 1, rotating a point agrees in all representations and is the right-handed rotation about the axis, the quaternion product is composition, the Euler matrix is the product of the axis rotations its name says, and round trips through any pair are the identity (up to the sign of the quaternion; Euler angles for every rotation including gimbal lock). Exception: RotationMatrixToQuaternion in Eigen's coefficient order reads out of bounds when the trace is negative.", "quantifier": "all rotations, unit quaternions, angle-axis vectors, Euler angles and points", "why_tests_cant": "all reals, including the zero branches, half turns and gimbal lock", "anchors": ["include/ceres/rotation.h: AngleAxisToQuaternion, QuaternionToAngleAxis, QuaternionToRotation, QuaternionProduct, UnitQuaternionRotatePoint, AngleAxisRotatePoint, RotationMatrixToQuaternion, RotationMatrixToAngleAxis, EulerAnglesToRotation, RotationMatrixToEulerAngles", "include/ceres/internal/euler_angles.h"]}
{"id": "C50", "title": "Cubic interpolation interpolates and is smooth", "statement": "CubicInterpolator reproduces the grid values at integer points (with central differences as slopes), its reported derivative is the derivative of its value everywhere (samples included), it is continuously differentiable, reproduces polynomials of degree at most two, overshoots the samples around the point by at most a quarter, and is constant beyond the data of a Grid1D. BiCubicInterpolator likewise: the reported derivatives are the partial derivatives and are jointly continuous, and biquadratic polynomials are reproduced. The overloads for Jets follow the chain rule. Grid1D and Grid2D read, in each of the memory layouts, the component asked for at the nearest stored position. Evaluate is defined exactly for arguments whose neighbouring indices fit in an int.", "quantifier": "all grids (user-defined or Grid1D/Grid2D with any data, offset, dimension and layout), all evaluation points, all curves of arguments", "why_tests_cant": "all reals and all grids; differentiability at the joints is a limit", "anchors": ["include/ceres/cubic_interpolation.h: CubicHermiteSpline, CubicInterpolator, BiCubicInterpolator, Grid1D, Grid2D"]}
{"id": "C51", "title": "Enum-string conversions round-trip", "statement": "For every enum value v with a string conversion, StringToX(XToString(v)) succeeds and yields v, case-insensitively; strings that are not a (case-insensitive) name are rejected leaving the output untouched.", "quantifier": "all enum values and all strings", "why_tests_cant": "all strings", "anchors": ["internal/ceres/types.cc: StringToLinearSolverType, LinearSolverTypeToString, StringToPreconditionerType"]}
{"id": "C52", "title": "Solver::Options::IsValid accepts only configurations satisfying every documented constraint", "statement": "If IsValid returns true then each documented numeric constraint and each compatibility rule between linear solver, preconditioner, ordering, line search and trust region options holds; if all hold it returns true.", "quantifier": "all option records", "why_tests_cant": "the option space is unbounded", "anchors": ["internal/ceres/solver.cc: Solver::Options::IsValid, CommonOptionsAreValid, TrustRegionOptionsAreValid, LineSearchOptionsAreValid"]}
{"id": "C53", "title": "Solve changes the caller's orderings only in stated ways", "statement": "Solver::Solve takes its options by const reference but may change the linear_solver_ordering and inner_iteration_ordering objects they point to. They are unchanged if no block in them is constant or unused and a Schur type solver is not given a single group, and always with the line search minimizer. Otherwise only constant or unused blocks disappear, and only a single-group ordering of a Schur type solver is regrouped, into groups 0 and 1. The process aborts exactly when the linear solver ordering is empty or a Schur type solver's ordering holds only removed blocks.", "quantifier": "all problems, options, orderings (possibly shared) and results of the other solver parts", "why_tests_cant": "depends on every preprocessing path", "anchors": ["internal/ceres/trust_region_preprocessor.cc: SetupLinearSolver, SetupInnerIterationMinimizer", "internal/ceres/reorder_program.cc: ReorderProgramForSchurTypeLinearSolver", "include/ceres/ordered_groups.h: Remove, MinNonZeroGroup"]}
{"id": "C54", "title": "Numeric differentiation computes the documented difference quotients and touches nothing else", "statement": "When a numerically differentiated cost function is evaluated successfully, the residuals are f(x) and the jacobian of every block asked for consists of the forward or central difference quotients with the documented step (relative to the value but not below a smallest step), or, for Ridders' method, of the entry with the smallest error estimate of the Richardson table; null blocks are skipped and no memory beyond the jacobian is written. The function is called only at x and at points that differ from x in one number by a step. Evaluation fails (DynamicNumericDiffCostFunction) only if the function fails at a needed point. Forward differences are exact on affine functions, central ones on quadratics, Ridders' method up to degree four (column k of the table up to degree 2k+2), and the errors on smooth functions are at most M h / 2 and M h^2 / 6. A true result of NumericDiffCostFunction does not imply that the jacobians were computed.", "quantifier": "all functions, points, block layouts, sets of requested jacobians, options with at least one extrapolation and a shrink factor above one", "why_tests_cant": "the function, the point and the pattern of failures are arbitrary", "anchors": ["include/ceres/internal/numeric_diff.h: NumericDiff::EvaluateJacobianForParameterBlock, EvaluateJacobianColumn, EvaluateRiddersJacobianColumn", "include/ceres/numeric_diff_cost_function.h: NumericDiffCostFunction::Evaluate", "include/ceres/dynamic_numeric_diff_cost_function.h: DynamicNumericDiffCostFunction::Evaluate"]}
{"id": "C55", "title": "Inner iterations are sequential block coordinate descent, whatever the threads do", "statement": "One call of the inner iteration minimizer on an accepted ordering leaves the parameters as block coordinate descent would: the blocks of the ordering one after the other, each minimized with all others fixed. The result does not depend on how the threads interleave nor on the order inside a group, blocks outside the ordering keep their values, index/offset/constness of every block are restored, and if the minimizer for one block never increases the cost of that block's residuals, the call never increases the cost of the problem. An ordering is accepted if and only if no residual block has two blocks of one group.", "quantifier": "all problems, orderings, schedules of the threads at the granularity of steps of the inner minimizers, all deterministic inner minimizers", "why_tests_cant": "schedules and objectives are unbounded", "anchors": ["internal/ceres/coordinate_descent_minimizer.cc: CoordinateDescentMinimizer::Init, Minimize, Solve, IsOrderingValid", "internal/ceres/program.cc: Program::IsParameterBlockSetIndependent"]}
{"id": "C56", "title": "Graph holds exactly the vertices and edges of its edit history", "statement": "After any sequence of AddVertex, AddEdge and RemoveVertex calls allowed by the interface, vertices() and Neighbors(v) are exactly those of the abstract undirected graph with that history (symmetric, no stale edges after removal).", "quantifier": "all finite sequences of calls", "why_tests_cant": "stale adjacency after removal only shows for particular histories", "anchors": ["internal/ceres/graph.h: Graph::AddVertex, AddEdge, RemoveVertex, Neighbors, vertices"]}
{"id": "C57", "title": "The termination type of a trust region solve is justified", "statement": "If a trust region solve reports CONVERGENCE, then at the last accepted point the gradient norm, the trust region radius, the relative step size or the relative cost change passed the corresponding tolerance test; NO_CONVERGENCE means the time or iteration limit was hit; USER_SUCCESS and USER_FAILURE mean a callback asked for it after the last iteration.", "quantifier": "all objectives, strategies, callbacks, clocks and options", "why_tests_cant": "depends on every exit path of the loop for all inputs", "anchors": ["internal/ceres/trust_region_minimizer.cc: TrustRegionMinimizer::Minimize, FinalizeIterationAndCheckIfMinimizerCanContinue, GradientToleranceReached, MinTrustRegionRadiusReached, ParameterToleranceReached, FunctionToleranceReached"]}
{"id": "C58", "title": "The strategy never works with stale data, never aborts a solve, and its step decreases the linearised cost", "statement": "In a solve without inner iterations the Levenberg-Marquardt strategy never fails its quality CHECK, and each step is computed with the regulariser of the Jacobian it is given, even after rejected steps that reuse the stored diagonal. The exact Levenberg-Marquardt step strictly decreases the linearised cost whenever the gradient is nonzero, and a smaller radius never gives a longer step.", "quantifier": "all evaluators, linear solvers, options and iteration histories; all Jacobians and gradients", "why_tests_cant": "needs every interleaving of accepted, rejected and invalid steps; a real-analytic inequality", "anchors": ["internal/ceres/levenberg_marquardt_strategy.cc: ComputeStep, StepAccepted", "internal/ceres/trust_region_minimizer.cc: Minimize"]}
{"id": "C59", "title": "Line search minimizer: the reported termination type is justified", "statement": "NO_CONVERGENCE is reported only when the iteration limit or the time limit was reached, USER_SUCCESS and USER_FAILURE only when a callback asked for it, and CONVERGENCE only when the gradient, parameter or function tolerance test holds at the returned parameters.", "quantifier": "all objectives with a finite initial cost, directions, failures, callbacks, clocks and tolerances", "why_tests_cant": "all trajectories", "anchors": ["internal/ceres/line_search_minimizer.cc: LineSearchMinimizer::Minimize", "internal/ceres/minimizer.cc: RunCallbacks"]}
{"id": "C60", "title": "Accepted options lead to a linear solver, also after the no-E-block fallback", "statement": "If Solver::Options::IsValid accepts options for the trust region minimizer then creating the linear solver neither fails nor aborts. When all blocks of the user's first elimination group are constant and a Schur type solver is replaced, the replacement configuration is again valid exactly when none of three gaps is hit: DENSE_SCHUR with mixed precision, ITERATIVE_SCHUR with SCHUR_POWER_SERIES_EXPANSION (the process aborts), ITERATIVE_SCHUR with CUDA_SPARSE in a build without CUDA.", "quantifier": "all builds and all option records", "why_tests_cant": "the product of all options, build switches and orderings is not enumerable by tests", "anchors": ["internal/ceres/trust_region_preprocessor.cc: AlternateLinearSolverAndPreconditionerForSchurTypeLinearSolver, SetupLinearSolver", "internal/ceres/linear_solver.cc: LinearSolver::Create, LinearSolverForZeroEBlocks", "internal/ceres/preconditioner.cc: PreconditionerForZeroEBlocks", "internal/ceres/cgnr_solver.cc: CgnrSolver"]}
{"id": "C61", "title": "Automatically differentiated cost functions return the functor's values and exact Jacobians", "statement": "A cost function built from a templated functor (AutoDiffCostFunction, DynamicAutoDiffCostFunction) returns what the functor returns; its residuals are the functor's values, the same whether or not Jacobians are requested; every requested Jacobian block is the row-major matrix of exact partial derivatives at every point where the functor's operations are differentiable, and blocks that are not requested, and memory behind a block, are not touched. The dynamic version returns the same as the static one for every stride and every choice of requested blocks, provided no block has size zero and at most 2^24 columns are requested.", "quantifier": "all functors made of the Jet operations, branches and failure conditions; all block structures; all sets of requested Jacobians; all strides; all points", "why_tests_cant": "A test differentiates a few functors with a few block layouts. The dynamic version evaluates in passes with a cursor over sections of requested blocks; whether each column is computed in exactly one pass and copied to its place depends on the layout, the stride and which blocks are constant.", "anchors": ["include/ceres/internal/autodiff.h:AutoDifferentiate", "include/ceres/autodiff_cost_function.h:AutoDiffCostFunction::Evaluate", "include/ceres/dynamic_autodiff_cost_function.h:DynamicAutoDiffCostFunction::Evaluate"]}
{"id": "C62", "title": "Conjugate gradients", "statement": "ConjugateGradientsSolver, given a symmetric linear operator A and a symmetric preconditioner M, always returns. A zero right hand side gives zero. Otherwise the vector returned after k steps, never more than the dimension n, is the unique minimiser of x'Ax - 2b'x over the start plus the k-dimensional Krylov space of M A and M r; the model decreases strictly at every step; the iteration stops at the first step at which a stopping test holds and min_num_iterations allows it, or at max_num_iterations, or on a direction of non-positive curvature, and the termination type, message and iteration count say which truthfully. On a consistent positive semidefinite system with a positive definite preconditioner and max_num_iterations >= n it never reports NO_CONVERGENCE; it reports FAILURE only when the solution is exact and min_num_iterations forbade stopping. From a zero start with the quadratic model test off, SUCCESS means residual <= r_tolerance * |b|.", "quantifier": "all dimensions, symmetric matrices and preconditioners, right hand sides, starts and options", "why_tests_cant": "the Krylov optimality and n-step termination hold for every matrix, not for the two or three 3x3 systems of the tests", "anchors": ["internal/ceres/conjugate_gradients_solver.h:ConjugateGradientsSolver", "internal/ceres/eigen_vector_ops.h"]}
{"id": "C63", "title": "Block sparse matrices compute with the matrix they represent", "statement": "A block sparse Jacobian represents a matrix: the sum of its cells at their places. Products with it and with its transpose add exactly A x and A' x to the output, both in the one-threaded form and in the threaded form for every interleaving of the iterations, which never write the same element. The column norms are those of A, scaling the columns multiplies A by the diagonal matrix, and the dense copy is A. The transposed structure that the threaded forms use lists the same cells. Appending the rows of a matrix stacks it below, deleting row blocks keeps the rest, and appending a diagonal and deleting it again restores the matrix. The E and F views that the Schur-based solvers use compute with the left and right columns of A and with the diagonal blocks of E'E and F'F.", "quantifier": "every block structure with contiguous row and column blocks and every value, vector and interleaving; for the views every structure with the rows of eliminated blocks first", "why_tests_cant": "Tests use a few structures and one schedule; wrong offsets show only for block sizes, orders and interleavings that no test enumerates.", "anchors": ["internal/ceres/block_sparse_matrix.cc:BlockSparseMatrix::RightMultiplyAndAccumulate", "internal/ceres/block_sparse_matrix.cc:BlockSparseMatrix::LeftMultiplyAndAccumulate", "internal/ceres/block_sparse_matrix.cc:BlockSparseMatrix::SquaredColumnNorm", "internal/ceres/block_sparse_matrix.cc:BlockSparseMatrix::ScaleColumns", "internal/ceres/block_sparse_matrix.cc:BlockSparseMatrix::AppendRows", "internal/ceres/block_sparse_matrix.cc:BlockSparseMatrix::DeleteRowBlocks", "internal/ceres/block_sparse_matrix.cc:CreateTranspose", "internal/ceres/partitioned_matrix_view_impl.h:PartitionedMatrixView"]}
{"id": "C64", "title": "Iterative Schur complement and CGNR solve the regularised normal equations", "statement": "Let H = A'A + D'D and g = A'b (D may be absent). The implicit Schur complement's product of x is the unique y for which some u gives H (u, x) = (0, y); its right hand side r is g reduced in the same way; the vector that back substitution makes of z satisfies the equations of the eliminated columns exactly, has z as its other part, and its residual g - H x in the remaining equations is that of z in the reduced system. The reduced system is symmetric and positive semidefinite and always has a solution. The Jacobi and power series preconditioners are symmetric positive definite, and when no row has more than one f block a partial sum y of the power series with last term t satisfies S y = x - W t, where W is the difference of the f part of H and S. Hence for the iterative Schur complement solver and for CGNR, whatever the threads do: SUCCESS by the residual test means that the residual of the full normal equations is at most r_tolerance times the right hand side used by conjugate gradients, and with a definite preconditioner and as many iterations as unknowns the solvers succeed unless a positive minimum number of iterations is asked for. The Schur solver leaves the output untouched when it reports FAILURE, and otherwise satisfies the eliminated equations exactly; it may be used again as long as it is given the same matrix. The solutions of H x = g are exactly the minimisers of |A x - b|^2 + |D x|^2, and there is always one.", "quantifier": "all block sparse matrices with valid, partitioned structure, all values, b, D with E'E + De'De definite, all option values, all interleavings of the parallel loops, all preconditioners that are symmetric linear operators", "why_tests_cant": "tests compare a few small problems with a dense solver up to a tolerance; the claim is about every structure, every schedule and exact algebra", "anchors": ["internal/ceres/implicit_schur_complement.cc: Init, RightMultiplyAndAccumulate, InversePowerSeriesOperatorRightMultiplyAccumulate, AddDiagonalAndInvert, BackSubstitute, UpdateRhs", "internal/ceres/iterative_schur_complement_solver.cc: SolveImpl, CreatePreconditioner", "internal/ceres/power_series_expansion_preconditioner.cc: RightMultiplyAndAccumulate", "internal/ceres/cgnr_solver.cc: CgnrLinearOperator, CgnrSolver::SolveImpl", "internal/ceres/block_jacobi_preconditioner.cc: BlockSparseJacobiPreconditioner::UpdateImpl", "internal/ceres/block_random_access_diagonal_matrix.cc: Invert, RightMultiplyAndAccumulate"]}
{"id": "C65", "title": "Covariance blocks are the blocks of the inverse of J'J", "statement": "Provided the evaluation of the Jacobian succeeds: Compute with SPARSE_QR returns true exactly when the factorisation finds full column rank (or nothing has to be computed). After it returned true, for every pair of blocks that was asked for, in either order, GetCovarianceBlockInTangentSpace gives the block of the inverse of J'J belonging to the two parameter blocks and GetCovarianceBlock gives P1 C12 P2' with the plus Jacobians of their manifolds; pairs with a constant or unused block give zero; exchanging the arguments transposes the result; a pair of varying blocks that was not asked for never gives numbers, and is reported as not found when a pair of blocks further up in memory was asked for. With DENSE_SVD C is the inverse of J'J when no singular value is dropped and as many singular values as columns exist, and otherwise the Moore-Penrose inverse of J'J with the dropped singular values set to zero; Compute returns false exactly when a kept value is below the ratio and truncation is not automatic. GetCovarianceMatrix is the symmetric matrix assembled from these blocks, whatever the threads do. Compute stops the program exactly when a pair is listed twice or names an unknown block beside one that is not constant. Its result does not depend on earlier calls.", "quantifier": "all problems (blocks, sizes, manifolds, constant flags, residual structure), all lists of requested pairs, all Jacobians, all factorisations that meet their contract, all orders in which the parallel loops run, all previous states of the object", "why_tests_cant": "tests check a handful of problems with known covariances; the layout of the sparse covariance depends on pointer order, sizes, requested pairs and the column permutation", "anchors": ["include/ceres/covariance.h: Covariance::Compute, GetCovarianceBlock, GetCovarianceBlockInTangentSpace, GetCovarianceMatrix", "internal/ceres/covariance_impl.cc: CovarianceImpl", "internal/ceres/compressed_col_sparse_matrix_utils.h: SolveRTRWithSparseRHS, SolveUpperTriangularInPlace"]}
{"id": "C66", "title": "The Jacobian is the same matrix in every storage format", "statement": "Whatever format the solver asks for (block sparse with or without a Schur partition, compressed rows, compressed rows with a dynamic pattern), the Jacobian that an evaluation leaves behind is the matrix whose block for residual block i and varying argument j is the derivative computed by that residual block, and zero elsewhere: whatever the matrix and the scratch areas held before, however the threads interleave. No derivative is written outside the arrays or on top of another. The compressed matrices are well formed with increasing columns, keep room for one diagonal entry per parameter, and the dynamic one stores exactly the nonzero entries; in the block sparse one the values of the E cells come first and those of the F cells follow, each in the order of rows and columns without gaps. As long as no single block (and, with a Schur partition, the E part alone) has more entries than an int can count, creating the compressed row or block sparse Jacobian is refused exactly if the total number of entries is more than an int can count, instead of producing a wrong matrix.", "quantifier": "all programs (parameter blocks, tangent sizes, residual blocks, constant arguments in any positions), all derivative values, all numbers of eliminated blocks, all previous contents, all interleavings", "why_tests_cant": "tests look at a few small programs; the layout depends on sizes, order of arguments and which are constant", "anchors": ["internal/ceres/block_jacobian_writer.cc: BuildJacobianLayout, BlockJacobianWriter::CreateJacobian", "internal/ceres/block_evaluate_preparer.cc: BlockEvaluatePreparer::Prepare", "internal/ceres/scratch_evaluate_preparer.cc: ScratchEvaluatePreparer::Prepare", "internal/ceres/compressed_row_jacobian_writer.cc: CompressedRowJacobianWriter", "internal/ceres/dynamic_compressed_row_jacobian_writer.cc: DynamicCompressedRowJacobianWriter::Write", "internal/ceres/dynamic_compressed_row_sparse_matrix.cc: DynamicCompressedRowSparseMatrix", "include/ceres/problem.h: Problem::Evaluate"]}
{"id": "C67", "title": "TinySolver returns the best point it tried, with consistent reports", "statement": "For a function that evaluates at every point and a linear solver that solves every symmetric positive definite system, TinySolver::Solve started with a positive trust region radius returns the point of least cost among the start and every point at which it called the function; it leaves the start only for a strictly smaller cost; initial_cost and final_cost are half the squared residual norm at the start and at the returned point; Residuals(), Jacobian() give exactly the function's residuals and Jacobian at the returned point; it takes fewer than max(1,max_num_iterations) trial steps and calls the function at most twice per step plus once; and the returned status states a condition that holds (on the Jacobi-scaled gradient and on the absolute cost change, not the ones documented). Nothing left in the solver from an earlier Solve influences the result. The CostFunction adapter hands the solver the same residuals and Jacobian in column-major layout.", "quantifier": "every number of residuals and parameters, every function, start, option values with positive radius, exact linear solver, and every earlier content of the solver's buffers", "why_tests_cant": "the claim is about every function and every number of iterations; tests run a few well-behaved functions from fixed starts, and never compare the reported gradient norm with the unscaled one", "anchors": ["include/ceres/tiny_solver.h:TinySolver", "include/ceres/tiny_solver_cost_function_adapter.h:TinySolverCostFunctionAdapter"]}
{"id": "C68", "title": "The small BLAS kernels compute the textbook products, entry by entry and in the textbook order", "statement": "MatrixMatrixMultiply, MatrixTransposeMatrixMultiply, MatrixVectorMultiply and MatrixTransposeVectorMultiply (the loop-based variants) set, add to or subtract from every entry of the addressed block of C exactly the sum, started from zero and accumulated in increasing k, of the products a_ik*b_kj, whatever the arithmetic of the scalars (so bit for bit in IEEE arithmetic without contraction); they change no other entry of C, and never read or write outside the arrays A, B and C, for every size (the unrolled 4-wide, pair and odd-column paths agree), every placement of the block inside C and every operation. The result does not depend on which dimensions are compile-time constants.", "quantifier": "every scalar arithmetic, all matrix sizes, contents, strides, block positions, kOperation and template arguments", "why_tests_cant": "the three code paths depend on the sizes modulo four; tests compare with Eigen up to a tolerance on a few sizes and cannot see an out-of-bounds read", "anchors": ["internal/ceres/small_blas.h:MatrixMatrixMultiplyNaive,MatrixTransposeMatrixMultiplyNaive,MatrixVectorMultiply,MatrixTransposeVectorMultiply", "internal/ceres/small_blas_generic.h:MMM_mat1x4,MTM_mat1x4,MVM_mat4x1,MTV_mat4x1"]}
{"id": "C69", "title": "The normal-equations matrix is exactly the requested block triangle of A'A", "statement": "For every block sparse matrix whose row blocks list their cells in increasing column-block order, InnerProductComputer::Create (for any range of row blocks and either triangle) followed by Compute yields a compressed row matrix whose entry (p, q) is the inner product of columns p and q of the chosen row blocks whenever the block of q is not above (for LOWER) or not below (for UPPER) the block of p, and 0 otherwise; the columns increase strictly within every row; the row pointers start at 0, do not decrease and end at the number of nonzeros; all entries are within the allocated arrays; and Compute may be repeated with other values. Every product of two cells is added to the result exactly once.", "quantifier": "every block structure with nonempty column blocks and increasing cells, all values, row ranges, both storage types, and every earlier content of the result", "why_tests_cant": "the offset table is built from a sort of product terms with duplicates; tests compare a few random matrices, and cannot cover all overlap patterns of row blocks", "anchors": ["internal/ceres/inner_product_computer.cc:InnerProductComputer::Create,Init,ComputeOffsetsAndCreateResultMatrix,ComputeNonzeros,Compute"]}
{"id": "C70", "title": "Wrapped cost functions evaluate to the composed function and its derivative", "statement": "Whatever cost functions they wrap, ConditionedCostFunction, NormalPrior and (Dynamic)CostFunctionToFunctor keep the contract of CostFunction::Evaluate. ConditionedCostFunction yields residual i = f_i(wrapped residual i) (the wrapped residual where the conditioner is null) and, in every requested Jacobian block, its derivative by the chain rule; it fails exactly when the wrapped function or one of the conditioners fails; it writes only the residuals and the requested Jacobian blocks. NormalPrior yields A(x - b) and the Jacobian A. A CostFunctionToFunctor called with Jets that carry the derivatives of its arguments with respect to any underlying parameters returns Jets that carry the value of the cost function and its derivatives with respect to the same parameters, and called with doubles returns the same values; a wrapped function that fails makes it return false. A ConditionedCostFunction that owns its parts deletes each of them exactly once, one that does not deletes none, provided the wrapped function is not also used as a conditioner.", "quantifier": "all wrapped cost functions meeting the contract, all parameter values, subsets of requested Jacobian blocks, memory contents, and numbers and sizes of blocks and residuals; every Jet dimension and differentiable inner functions", "why_tests_cant": "tests evaluate a few fixed functions; the chain rule and the absence of stray writes must hold for every wrapped function and pattern of null Jacobian blocks", "anchors": ["internal/ceres/conditioned_cost_function.cc:ConditionedCostFunction", "internal/ceres/normal_prior.cc:NormalPrior", "include/ceres/dynamic_cost_function_to_functor.h:DynamicCostFunctionToFunctor", "include/ceres/cost_function_to_functor.h:CostFunctionToFunctor"]}
{"id": "C71", "title": "Visibility clustering partitions the cameras correctly", "statement": "ComputeVisibility yields for every f-block exactly the e-blocks it shares a row block with. CreateSchurComplementGraph yields one vertex per f-block, with a self edge of weight one, and an edge between two f-blocks exactly when they see a common e-block, of weight |common| / sqrt(|V_i| |V_j|), which is in (0, 1]. ComputeSingleLinkageClustering gives two vertices the same cluster exactly when a path of edges of weight at least min_similarity joins them, names every cluster by its least vertex and returns the number of clusters. ComputeCanonicalViewsClustering chooses distinct centers, at least min_views of them if there are as many vertices; every center added maximises the documented objective E[C] among the vertices left, past min_views it increases it, and at the end no further vertex does; every vertex belongs to the center most similar to it (the earliest of equals), or to none exactly when it has positive similarity to no center. FlattenMembershipMap gives every camera an index below the number of clusters, equal for cameras of one cluster and different for cameras of different clusters, and its CHECK does not fail. All of it whatever the iteration order of the hash containers.", "quantifier": "all block structures, visibility sets, weighted graphs (finite weights), option values and iteration orders of the hash containers", "why_tests_cant": "the clusters depend on hash iteration order and on ties; tests compare a few small graphs", "anchors": ["internal/ceres/visibility.cc:ComputeVisibility", "internal/ceres/visibility.cc:CreateSchurComplementGraph", "internal/ceres/single_linkage_clustering.cc:ComputeSingleLinkageClustering", "internal/ceres/canonical_views_clustering.cc:ComputeCanonicalViewsClustering", "internal/ceres/visibility_based_preconditioner.cc:FlattenMembershipMap"]}
{"id": "C72", "title": "Visibility based preconditioners are positive definite parts of the Schur complement", "statement": "The cells of the CLUSTER_JACOBI and CLUSTER_TRIDIAGONAL preconditioners are all diagonal cells and exactly those structurally non-zero cells of the Schur complement (upper triangle) whose two f-blocks lie in one cluster or in two clusters joined by an edge of the degree-2 forest. With the values of a symmetric positive definite Schur complement in these cells, CLUSTER_JACOBI is the block diagonal part of it and is positive definite, and CLUSTER_TRIDIAGONAL is positive definite after the off-diagonal cells have been scaled by one half. UpdateImpl scales only after a failed factorization of the tridiagonal preconditioner, and reports success only if a factorization of one of the two matrices succeeded.", "quantifier": "all block structures, clusterings, forests of degree at most two, Schur complements and outcomes of the factorization", "why_tests_cant": "positive definiteness must hold for every Schur complement and clustering; tests use one or two random matrices", "anchors": ["internal/ceres/visibility_based_preconditioner.cc:VisibilityBasedPreconditioner"]}
{"id": "C73", "title": "Direct linear solvers return the regularized least squares solution", "statement": "Given a Jacobian A, a vector b and an optional diagonal D, each direct solver (DENSE_NORMAL_CHOLESKY, DENSE_QR, SPARSE_NORMAL_CHOLESKY) that reports success returns an x that minimises |A x - b|^2 + |D x|^2, whatever earlier calls left in the solver's buffers; if no nonzero v has A v = 0 and D v = 0, the minimiser is unique, so the solvers agree, and a factorization that succeeds on every positive definite matrix makes them succeed. SPARSE_NORMAL_CHOLESKY leaves A as it was. Iterative refinement of the sparse solvers keeps an exact solution and multiplies the error of an inexact one by the relative error of one solve in every iteration. Refinement of the dense normal equations does not: it multiplies by what is left of the triangle that was factored, which is refuted by counterexamples.", "quantifier": "all matrices, vectors, diagonals, sequences of calls, refinement counts and factorizations that meet the stated contract", "why_tests_cant": "tests compare solvers on a handful of fixed problems; the dense refinement test passes a full symmetric matrix, which the solver never does", "anchors": ["internal/ceres/dense_normal_cholesky_solver.cc:DenseNormalCholeskySolver::SolveImpl", "internal/ceres/dense_qr_solver.cc:DenseQRSolver::SolveImpl", "internal/ceres/sparse_normal_cholesky_solver.cc:SparseNormalCholeskySolver::SolveImpl", "internal/ceres/iterative_refiner.cc:SparseIterativeRefiner::Refine,DenseIterativeRefiner::Refine", "internal/ceres/dense_cholesky.cc:RefinedDenseCholesky", "internal/ceres/sparse_cholesky.cc:RefinedSparseCholesky"]}
{"id": "C74", "title": "Schur solvers are compiled for the block sizes of the problem", "statement": "For a problem whose residual and parameter blocks are not empty, the block sizes that a Schur solver detects tell exactly which of the three sizes (rows, eliminated blocks, remaining blocks) are constant over the rows with eliminated blocks; detection fails only if there are no such rows. The specialization that is then chosen by the eliminator, the matrix view and the report is the same, fixes a size only if all these blocks have it, and is the most specific one available. The single remaining block variant is chosen only for problems for which it computes the same reduced system and solution. The sizes reported in Solver::Summary are those detected and used (except in builds with restricted specializations, refuted). With cost functions without residuals the detected size can be wrong or detection can abort (refuted).", "quantifier": "all block structures, numbers of eliminated blocks, sizes and both build settings", "why_tests_cant": "the tests use a few structures; a wrong specialization reads blocks with the wrong stride only for the sizes that select it", "anchors": ["internal/ceres/detect_structure.cc:DetectStructure", "internal/ceres/schur_templates.cc:GetBestSchurTemplateSpecialization", "internal/ceres/schur_eliminator.cc:SchurEliminatorBase::Create", "internal/ceres/partitioned_matrix_view.cc:PartitionedMatrixViewBase::Create", "internal/ceres/schur_complement_solver.cc:SchurComplementSolver::SolveImpl", "internal/ceres/solver.cc:Solver::Solve"]}
{"id": "C75", "title": "Gradient checking reports exactly the wrong derivatives and otherwise leaves the solve unchanged", "statement": "GradientChecker::Probe returns true exactly when the cost function and its numeric differentiation can both be evaluated, they agree on every residual, and every entry of the user's Jacobians, taken in the tangent space of the manifolds, is within the relative precision of the numeric one; maximum_relative_error is the largest relative error of all entries. The cost functions that Solve installs when check_gradients is set return the user's residuals and requested Jacobians unchanged, and an error is recorded exactly when a probe of an evaluable function fails; then no further iteration is run and Solve reports FAILURE, and if no probe fails the outcome is that of the unchecked solve. The problem Solve works on instead of the user's has the same parameter blocks in the same order with the same size, manifold, constness and bounds and the same residual blocks in the same order with the same loss and parameter blocks, and destroys nothing of the user's. (Not kept: the evaluation callback and disable_all_safety_checks of the user's problem; and a user callback that ends the solve in the same iteration leaves updated parameters although FAILURE is reported.)", "quantifier": "all cost functions, numeric derivatives, manifolds, parameter values and precisions; all problems built by any accepted history of calls; all sequences of iterations, probes and user callbacks", "why_tests_cant": "tests probe a few polynomial cost functions and compare one small problem; the claim is about every function, every problem and every course of a solve", "anchors": ["internal/ceres/gradient_checker.cc:GradientChecker::Probe", "internal/ceres/gradient_checking_cost_function.cc:CreateGradientCheckingProblemImpl", "internal/ceres/is_close.cc:IsClose", "internal/ceres/solver.cc:Solver::Solve"]}
{"id": "C76", "title": "GradientProblemSolver: accepted options, returned parameters, what callbacks see, tangent gradient", "statement": "GradientProblemSolver accepts options exactly if the documented line search rules hold; otherwise it reports FAILURE, evaluates nothing and leaves the parameters alone. A solve with accepted options ends. If the summary says the solution is usable, the user's array holds the parameters of the last reported iteration (the initial ones if none is reported), and with descent directions final_cost is the cost there, the least of all reported. With update_state_every_iteration every callback finds the current iterate in the user's array; without it, the initial values. If the solution is not usable the array holds the initial values, unless update_state_every_iteration is set: then it holds the iterate of the last reported iteration, that is, a failed solve is not undone. GradientProblem::Evaluate returns the function's cost, the same with and without gradient, and as gradient the derivative of the cost along the tangent directions at zero.", "quantifier": "all objectives, manifolds, options, callbacks, clocks, failures of the function or the manifold", "why_tests_cant": "all trajectories, all points where the function, the manifold or a callback can fail", "anchors": ["internal/ceres/gradient_problem_solver.cc: GradientProblemSolver::Solve, GradientProblemSolverOptionsToSolverOptions", "internal/ceres/gradient_problem.cc: GradientProblem::Evaluate", "internal/ceres/gradient_problem_evaluator.h: GradientProblemEvaluator", "internal/ceres/callbacks.cc: GradientProblemSolverStateUpdatingCallback"]}
{"id": "C77", "title": "Problem::Evaluate and EvaluateResidualBlock evaluate the requested blocks at the user's current values", "statement": "Problem::Evaluate with any lists of residual and parameter blocks aborts exactly if a parameter block is not in the problem; otherwise it succeeds exactly if the manifolds of all requested variable parameter blocks accept the user's current values and every requested residual block can be evaluated there. Then the cost is the sum over the requested residual blocks, their residuals follow each other in the requested order, the columns of the Jacobian and the entries of the gradient are those of the requested parameter blocks in the requested order (if one is listed twice, the last occurrence counts), the columns of constant blocks are zero, blocks that are not requested are treated as constant, and the gradient is J'r, whatever subset of the outputs is asked for and whatever the threads do. Evaluation does not change the user's values or which blocks are constant, and as long as the manifolds accept the values, evaluations, changes of the values and of the constant blocks can follow each other in any order without any of them reading outdated values, outdated manifold Jacobians or freed memory. EvaluateResidualBlock gives the same values for one residual block, and returns false exactly if a Jacobian of a constant block is requested or the evaluation fails. The callback is told about every evaluation that gets as far as evaluating residual blocks. If a manifold does not accept the values, EvaluateResidualBlock aborts the process, and Evaluate, if the parameter blocks are listed in another order than that of the problem, leaves a pointer to freed memory behind.", "quantifier": "all problems, block lists, requested outputs, thread interleavings, and all sequences of evaluations and changes by the user", "why_tests_cant": "all histories of changes between evaluations, all subsets and orders of blocks, failing manifolds", "anchors": ["internal/ceres/problem_impl.cc: ProblemImpl::Evaluate, ProblemImpl::EvaluateResidualBlock", "internal/ceres/program.cc: SetParameterOffsetsAndIndex, SetParameterBlockStatePtrsToUserStatePtrs, StateVectorToParameterBlocks", "internal/ceres/program_evaluator.h: ProgramEvaluator::Evaluate", "internal/ceres/parameter_block.h: SetState, UpdatePlusJacobian"]}
{"id": "C78", "title": "What iteration callbacks find in the parameter blocks during a trust region solve", "statement": "During a trust region solve every registered IterationCallback is called once per iteration, in the registered order, until one of them does not ask to continue, and finds in the summary all iterations so far. With update_state_every_iteration the parameter blocks then hold the best solution found so far: the accepted point of least cost among the iterations so far (the first of them), or the initial values as long as no accepted point has a cost below DBL_MAX, also if the problem has an EvaluationCallback and whatever steps were tried and rejected in between. Without it they hold the initial values, or, with an EvaluationCallback, the point evaluated last, which may be a rejected step. Apart from what callbacks decide, the option has no influence on the solve, and after the solve the parameter blocks hold the best accepted point if the solution is usable and the initial values otherwise, whatever the callbacks found.", "quantifier": "all problems, options, evaluators, strategies, line searches, inner iterations, clocks and callbacks (which may decide by what they find in the parameter blocks)", "why_tests_cant": "What a callback finds depends on the order of the evaluations, the rejected and non-monotonic steps and the memory operations before it; tests see a few runs.", "anchors": ["internal/ceres/callbacks.cc:StateUpdatingCallback", "internal/ceres/preprocessor.cc:SetupCommonMinimizerOptions", "internal/ceres/minimizer.cc:RunCallbacks", "internal/ceres/trust_region_minimizer.cc:FinalizeIterationAndCheckIfMinimizerCanContinue", "internal/ceres/program_evaluator.h:Evaluate", "include/ceres/solver.h:update_state_every_iteration"]}
{"id": "C79", "title": "Objective functions, manifolds and TinySolver functions built from functors", "statement": "An objective built from a templated functor (AutoDiffFirstOrderFunction) returns what the functor returns; its cost is the functor's value, the same whether or not the gradient is asked for, and the gradient consists of the exact partial derivatives wherever the functor is differentiable. An objective differentiated numerically (NumericDiffFirstOrderFunction) returns the functor's value and the documented difference quotients, exact on affine (forward) and quadratic (central) functions, and returns false exactly if the functor fails at a point that is needed, for compile time and run time sizes alike. A manifold built from templated Plus and Minus (AutoDiffManifold) has as PlusJacobian the exact derivative of Plus(x, .) at zero and as MinusJacobian the exact derivative of Minus(., x) at x, row major; if Minus undoes Plus near zero then the product of the two is the identity. TinySolverAutoDiffFunction returns the same residuals and derivatives column major, whatever earlier calls left in its buffers, and TinySolverCostFunctionAdapter returns the cost function's residuals and its Jacobian transposed to column major; it aborts on cost functions whose sizes do not fit if one of the sizes is dynamic. Nothing behind the outputs is written. If both sizes of the adapter are given at compile time they are not checked, and a larger cost function writes beyond the adapter's buffer.", "quantifier": "all functors over the Jet operations, points, tangent vectors, sizes, step options, cost functions and buffer contents", "why_tests_cant": "The exactness of a derivative is a statement about all points and functors; tests compare a few numbers with a tolerance.", "anchors": ["include/ceres/autodiff_first_order_function.h:AutoDiffFirstOrderFunction::Evaluate", "include/ceres/numeric_diff_first_order_function.h:NumericDiffFirstOrderFunction::Evaluate", "include/ceres/autodiff_manifold.h:AutoDiffManifold::PlusJacobian, MinusJacobian", "include/ceres/tiny_solver_autodiff_function.h:TinySolverAutoDiffFunction::operator()", "include/ceres/tiny_solver_cost_function_adapter.h:TinySolverCostFunctionAdapter"]}
{"id": "C80", "title": "The matrices that hold the Schur complement give every block its own memory", "statement": "A block random access matrix (dense, sparse or block diagonal) built for a list of blocks hands out, for every pair of block numbers it stores, a window of the right shape inside its values; windows of different pairs never share an entry and have different locks; pairs that are not stored give null. So after any history of clearing, adding to and assigning blocks every block reads what was last made of it, as if each block were a matrix of its own; in particular after Schur elimination the stored blocks are exactly the blocks of the Schur complement, in whichever storage and under every interleaving of the threads. SymmetricRightMultiplyAndAccumulate adds the product with the full symmetric matrix of which one triangle is stored, and Invert followed by RightMultiplyAndAccumulate solves with the diagonal blocks (for SCHUR_JACOBI: of the Schur complement). Construction fails only if a number of entries exceeds the range of int.", "quantifier": "all block lists, block pairs, histories of operations, vectors, Jacobian structures and values, interleavings of the eliminator's updates", "why_tests_cant": "overlap of two windows depends on every combination of block sizes; a wrong stride, or a lost update of one block by another, shows only for particular layouts and schedules, and the overflow needs gigabytes", "anchors": ["internal/ceres/block_random_access_dense_matrix.cc BlockRandomAccessDenseMatrix", "internal/ceres/block_random_access_sparse_matrix.cc BlockRandomAccessSparseMatrix", "internal/ceres/block_random_access_diagonal_matrix.cc BlockRandomAccessDiagonalMatrix", "internal/ceres/schur_jacobi_preconditioner.cc SchurJacobiPreconditioner", "internal/ceres/schur_complement_solver.cc SparseSchurComplementSolver", "internal/ceres/block_structure.cc Tail"]}
{"id": "C81", "title": "A program prepared for a linear solver is the same program in an order that solver can use", "statement": "After preprocessing has reduced a program and the user's ordering covers its blocks, the reordering for the linear solver never aborts; it is refused exactly when the user gave two or more groups and some residual block has two parameter blocks of the first group. Otherwise the parameter blocks and the residual blocks are permutations of those before, every block's index is its position, and: for Schur type solvers the first blocks are exactly the blocks of the first group of the ordering (with one group: a maximal independent set, and the rest is in group 1), groups of the user follow each other in order unless the sparse library reorders the rest, and the block structure of the Jacobian is one that Schur elimination is exact for (C46): rows sharing an eliminated block adjacent, at most one eliminated block per row, every eliminated block used, rows without one last; for sparse normal Cholesky only columns move; for the subset preconditioner the rows from the reported row block on are exactly the residual blocks the user chose. Provided the fill reducing ordering of the sparse library succeeds: its failure is not noticed.", "quantifier": "every reduced program, ordering built by any calls, linear solver, sparse library, ordering type, any permutation the fill reducing algorithm (CAMD under constraints, AMD, METIS) may return and any result std::partition may give", "why_tests_cant": "Tests run a handful of small problems with one library; the structure must hold for every program, ordering and permutation returned by the libraries, and the Schur eliminator gives silently wrong steps without it.", "anchors": ["internal/ceres/reorder_program.cc ReorderProgramForSchurTypeLinearSolver", "internal/ceres/reorder_program.cc ReorderSchurComplementColumnsUsingSuiteSparse", "internal/ceres/reorder_program.cc ReorderSchurComplementColumnsUsingEigen", "internal/ceres/reorder_program.cc ReorderProgramForSparseCholesky", "internal/ceres/reorder_program.cc ReorderResidualBlocksByPartition", "internal/ceres/trust_region_preprocessor.cc ReorderProgram", "internal/ceres/program.cc IsParameterBlockSetIndependent", "internal/ceres/array_utils.cc MapValuesToContiguousRange"]}
{"id": "C82", "title": "The copy of a block sparse Jacobian on the GPU is the same matrix", "statement": "A CRS view of a block sparse matrix on the GPU is, after construction and after every update of the values, the matrix on the host, whatever order the GPU threads run in, for every block structure whose cells are stored one after the other and whatever the size of the transfer buffer: no array is read outside, every value that has to be permuted is written by exactly one thread, row offsets start at 0, do not decrease and end at the number of nonzeros, and every entry is that of the block sparse matrix. For the view partitioned into [E F] the same holds for E, and for F if its values can be copied as they are; if they have to be permuted F holds wrong values (those of the matrix whose values are shifted by the number of nonzeros of E), and the construction is undefined if a row block with only an E cell is followed by a row block that has no E cell. Every row block is assumed to have a cell.", "quantifier": "every block structure (any block sizes, also zero), every number of columns eliminated, values, buffer size, and every order in which the threads of a kernel perform their writes", "why_tests_cant": "The kernels compute the place of a value by a binary search over row blocks and a scan over cells, in a thread per value; the unit test of the partitioned view compares the columns from num_cols_e up to num_cols_f, an empty range for its matrices, so F is never compared.", "anchors": ["internal/ceres/cuda_block_structure.cc CudaBlockSparseStructure", "internal/ceres/cuda_kernels_bsm_to_crs.cu.cc RowBlockIdAndNNZ ComputeColumns FillCRSStructure FillCRSStructurePartitioned PartitionPoint PermuteToCrsKernel PermuteToCRS PermuteToCRSPartitionedF", "internal/ceres/cuda_block_sparse_crs_view.cc CudaBlockSparseCRSView UpdateValues", "internal/ceres/cuda_partitioned_block_sparse_crs_view.cc CudaPartitionedBlockSparseCRSView UpdateValues", "internal/ceres/cuda_streamed_buffer.h CudaStreamedBuffer CopyToGpu"]}
{"id": "C83", "title": "Streaming values to the GPU: every kernel sees exactly the values of its batch", "statement": "CopyToGpu hands every value of the caller's array to the callback's kernels exactly once and unchanged, in batches no larger than half the buffer, although copies, kernels and the host run concurrently and the buffers are used again and again: no kernel reads a value of another batch or one not copied yet, the staging memory is never overwritten while a transfer still reads it, work put into the default stream earlier is finished before the first kernel runs, the call cannot hang, it returns only when everything in all its streams is finished, and it leaves the buffer ready for the next call. This holds for page-locked and for ordinary host memory, for every number of values and every buffer size it accepts.", "quantifier": "every array, number of values, buffer size, kind of host memory, contents of the buffers before the call, and every interleaving of the host with the streams, down to the single elements of a transfer and of a kernel", "why_tests_cant": "The order in which the streams progress is chosen by the device; a missing wait or a wrong buffer half shows only if a transfer happens to be slow, and the test runs one schedule.", "anchors": ["internal/ceres/cuda_streamed_buffer.h CudaStreamedBuffer CopyToGpu", "internal/ceres/context_impl.h streams_ DefaultStream kNumCudaStreams"]}
{"id": "C84", "title": "Sparse Cholesky wrappers order whole blocks and solve with the matrix given last", "statement": "The block orderings the SuiteSparse wrapper computes are found on exactly the block pattern of the matrix, and the scalar ordering handed to CHOLMOD is a permutation of the rows that keeps the scalars of every block together, in the order the library chose for the blocks. Over every sequence of Factorize and Solve calls with matrices of one structure the SuiteSparse wrapper never aborts, the Eigen wrapper does not once a matrix was analysed, and Solve reports success only if the matrix given last was factorised successfully, and then returns a solution for that matrix, although the symbolic analysis is done only once and failed factorisations may come in between. Every failed call of the Eigen wrapper writes a message, and so does every failed call of the SuiteSparse wrapper except when the library could not compute an ordering or a solution.", "quantifier": "every matrix and block structure, every ordering the library may return, every sequence of Factorize and Solve calls, and every pattern of library failures", "why_tests_cant": "The tests factorise a few matrices once and check the solution; stale factors after a failed or repeated factorisation, and wrong orderings (which only cost time or give a library error), do not show.", "anchors": ["internal/ceres/compressed_col_sparse_matrix_utils.cc CompressedColumnScalarMatrixToBlockMatrix BlockOrderingToScalarOrdering", "internal/ceres/suitesparse.cc SuiteSparse SuiteSparseCholesky", "internal/ceres/eigensparse.cc EigenSparseCholeskyTemplate"]}
{"id": "C85", "title": "The subset preconditioner is the inverse of the chosen part of the normal equations", "statement": "With the SUBSET preconditioner, after every successful update applying the preconditioner to x yields exactly the y with (Q'Q + D'D) y = x, where Q is the current values of the Jacobian's rows from the chosen row block on and D the current diagonal (if there is one), over any sequence of updates with changing values and diagonals; the update succeeds whenever that matrix is positive definite, and the Jacobian handed in is left as it was. It overwrites its output instead of adding to it.", "quantifier": "every block sparse Jacobian, every choice of the first row block, every sequence of values and diagonals (all updates with a diagonal or all without), every triangle the factorisation wants, and every library factorisation that meets its contract", "why_tests_cant": "The structure of the product is computed once and reused; a wrong row range, a diagonal not included or left in the Jacobian only slows down or slightly perturbs the solve, which tests on one matrix do not show.", "anchors": ["internal/ceres/subset_preconditioner.cc SubsetPreconditioner UpdateImpl RightMultiplyAndAccumulate"]}
{"id": "C86", "title": "Solving with dynamic sparsity returns the regularized least squares solution and leaves the Jacobian alone", "statement": "With dynamic_sparsity, a linear solve that reports success returns the minimizer of |Ax-b|^2 + |Dx|^2 for the Jacobian and diagonal given in that call, whichever sparse library is used and whether or not the Jacobian carries block information; it succeeds when the problem has full rank and the library does what it promises; after every call, failed or not, the Jacobian has the rows, entries and blocks it had before, so the next call starts from the same matrix. After a failure before the final back substitution the output holds A'b, not zero.", "quantifier": "every compressed row Jacobian with or without blocks, every sequence of right hand sides and diagonals (present or absent per call), every outcome of the library", "why_tests_cant": "The diagonal is appended to the caller's matrix and taken away again in three different code paths with five early returns; a leftover row or a wrong transpose shows only for some shapes, libraries or failures.", "anchors": ["internal/ceres/dynamic_sparse_normal_cholesky_solver.cc DynamicSparseNormalCholeskySolver SolveImpl SolveImplUsingEigen SolveImplUsingSuiteSparse SolveImplUsingCuda"]}
{"id": "C87", "title": "Evaluation counts and times add up under every schedule", "statement": "However many threads run timed evaluations at the same time and however they are interleaved, when they are done the statistics hold, for every name, exactly the number of timed scopes of that name and the sum of their durations, and no entry for a name that was never timed; scopes may be nested; no schedule blocks for ever.", "quantifier": "every number of threads, every nesting of timed scopes, every clock reading, every interleaving of the individual loads and stores", "why_tests_cant": "A lost update needs one particular interleaving of two short critical sections; tests that count evaluations pass on almost every run without the lock.", "anchors": ["internal/ceres/execution_summary.h ExecutionSummary IncrementTimeBy ScopedExecutionTimer", " internal/ceres/evaluator.h Statistics"]}
{"id": "C88", "title": "Vector assignments and clearing in parallel give the sequential result", "statement": "Assigning one vector expression to a vector, or clearing a vector, on any number of threads gives, when the call returns, exactly the value of the expression in every element and leaves all memory outside of the vector alone, also when the expression uses the vector assigned to at the same position (x = -x, y = y + x); before it returns every element has its old or its new value. Expressions that use other positions of the vector are not covered: for these the result is not the expression at the old vector.", "quantifier": "every length, every number of threads, every schedule of the threads, every elementwise expression", "why_tests_cant": "The parallel path is taken only for vectors of more than 131072 elements; which elements race depends on the schedule.", "anchors": ["internal/ceres/parallel_vector_ops.h ParallelAssign ParallelSetZero", " internal/ceres/parallel_vector_ops.cc ParallelSetZero"]}
{"id": "C89", "title": "Dot products and norms computed in parallel", "statement": "Dot and Norm on any number of threads and with any schedule return the sum of the products and the Euclidean norm, each element counted exactly once; the result does not depend on the number of threads or on the schedule (in exact arithmetic). No thread writes outside of the array of partial sums and no two threads use the same partial sum at a time. The norm is zero only for the zero vector.", "quantifier": "every vector, every length, every number of threads, every schedule", "why_tests_cant": "The parallel path is taken only from 131072 elements on, and which thread adds which block depends on the schedule.", "anchors": ["internal/ceres/eigen_vector_ops.h Norm Dot"]}
