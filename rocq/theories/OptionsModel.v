(* Solver::Options::IsValid: internal/ceres/solver.cc:68-498, 714-731, with the
   fields of include/ceres/solver.h:66-781 that it reads.

   The enumerations are the integers of EnumModel.v, doubles are those of
   Dbl.v (comparisons with NaN are false).  The text of an error message is
   kept except that the macros OPTION_OP and OPTION_OP_OPTION also print the
   values of the two options, which is left out here. *)

From Coq Require Import String ZArith List Bool.
From Verif Require Import Dbl EnumModel.
Import ListNotations.
Local Open Scope Z_scope.
Local Open Scope string_scope.

Definition ONE : dbl := Fin (2 ^ 1074).

Record options : Type := mkoptions {
  minimizer_type : Z;
  line_search_direction_type : Z;
  line_search_type : Z;
  max_lbfgs_rank : Z;
  min_line_search_step_size : dbl;
  line_search_sufficient_function_decrease : dbl;
  max_line_search_step_contraction : dbl;
  min_line_search_step_contraction : dbl;
  max_num_line_search_step_size_iterations : Z;
  line_search_sufficient_curvature_decrease : dbl;
  max_line_search_step_expansion : dbl;
  trust_region_strategy_type : Z;
  use_nonmonotonic_steps : bool;
  max_consecutive_nonmonotonic_steps : Z;
  max_num_iterations : Z;
  max_solver_time_in_seconds : dbl;
  num_threads : Z;
  initial_trust_region_radius : dbl;
  max_trust_region_radius : dbl;
  min_trust_region_radius : dbl;
  min_relative_decrease : dbl;
  min_lm_diagonal : dbl;
  max_lm_diagonal : dbl;
  max_num_consecutive_invalid_steps : Z;
  function_tolerance : dbl;
  gradient_tolerance : dbl;
  parameter_tolerance : dbl;
  linear_solver_type : Z;
  preconditioner_type : Z;
  (* residual_blocks_for_subset_preconditioner: only its size is used *)
  num_subset_blocks : nat;
  dense_linear_algebra_library_type : Z;
  sparse_linear_algebra_library_type : Z;
  linear_solver_ordering_type : Z;
  use_explicit_schur_complement : bool;
  dynamic_sparsity : bool;
  use_mixed_precision_solves : bool;
  min_linear_solver_iterations : Z;
  max_linear_solver_iterations : Z;
  max_num_spse_iterations : Z;
  use_spse_initialization : bool;
  spse_tolerance : dbl;
  eta : dbl;
  use_inner_iterations : bool;
  inner_iteration_tolerance : dbl;
  trust_region_minimizer_iterations_to_dump : list Z;
  trust_region_problem_dump_directory : string;
  trust_region_problem_dump_format_type : Z;
  check_gradients : bool;
  gradient_check_relative_precision : dbl;
  gradient_check_numeric_derivative_relative_step_size : dbl
}.

(* further compile time switches: CERES_NO_CUDSS, CERES_NO_CHOLMOD_FLOAT and the
   answers of IsNestedDissectionAvailable of the three libraries *)
Record build2 : Type := mkbuild2 {
  libs : build;
  no_cudss : bool;
  no_cholmod_float : bool;
  suitesparse_nesdis : bool;
  eigen_nesdis : bool;
  cudss_nesdis : bool
}.

(* return true; *error = text, return false; CHECK failure or LOG(FATAL) *)
Inductive result : Type :=
| Valid
| Invalid (text : string)
| Fatal.

(* if (!c) { *error = text; return false; } rest *)
Definition need (c : bool) (text : string) (rest : result) : result :=
  if c then rest else Invalid text.

(* if (!f(options, error)) return false; rest *)
Definition andThen (r : result) (rest : result) : result :=
  match r with Valid => rest | _ => r end.

Section Check.
Variable b : build2.
Variable o : options.

(* solver.cc:99-111  CommonOptionsAreValid *)
Definition CommonOptionsAreValid : result :=
  need (0 <=? max_num_iterations o)%Z "Solver::Options::max_num_iterations >= 0" (
  need (dle (Fin 0) (max_solver_time_in_seconds o)) "Solver::Options::max_solver_time_in_seconds >= 0.0" (
  need (dle (Fin 0) (function_tolerance o)) "Solver::Options::function_tolerance >= 0.0" (
  need (dle (Fin 0) (gradient_tolerance o)) "Solver::Options::gradient_tolerance >= 0.0" (
  need (dle (Fin 0) (parameter_tolerance o)) "Solver::Options::parameter_tolerance >= 0.0" (
  need (0 <? num_threads o)%Z "Solver::Options::num_threads > 0" (
  if check_gradients o then
    need (dlt (Fin 0) (gradient_check_relative_precision o))
      "Solver::Options::gradient_check_relative_precision > 0.0" (
    need (dlt (Fin 0) (gradient_check_numeric_derivative_relative_step_size o))
      "Solver::Options::gradient_check_numeric_derivative_relative_step_size > 0.0"
    Valid)
  else Valid)))))).

(* solver.cc:113-124  IsNestedDissectionAvailable *)
Definition IsNestedDissectionAvailable (type : Z) : bool :=
  ((type =? SUITE_SPARSE)%Z && suitesparse_nesdis b) ||
  (type =? ACCELERATE_SPARSE)%Z ||
  ((type =? EIGEN_SPARSE)%Z && eigen_nesdis b) ||
  (if no_cudss b then false else (type =? CUDA_SPARSE)%Z && cudss_nesdis b).

(* solver.cc:126-128  IsIterativeSolver *)
Definition IsIterativeSolver (type : Z) : bool :=
  (type =? CGNR)%Z || (type =? ITERATIVE_SCHUR)%Z.

(* solver.cc:130-146  OptionsAreValidForDenseSolver *)
Definition OptionsAreValidForDenseSolver : result :=
  need (IsDenseLinearAlgebraLibraryTypeAvailable (libs b) (dense_linear_algebra_library_type o))
    ("Can't use " ++ LinearSolverTypeToString (linear_solver_type o) ++
     " with dense_linear_algebra_library_type = " ++
     DenseLinearAlgebraLibraryTypeToString (dense_linear_algebra_library_type o) ++
     " because support not enabled when Ceres was built.")
  Valid.

(* solver.cc:148-213  OptionsAreValidForSparseCholeskyBasedSolver *)
Definition OptionsAreValidForSparseCholeskyBasedSolver : result :=
  let lib := sparse_linear_algebra_library_type o in
  let library_name := SparseLinearAlgebraLibraryTypeToString lib in
  let solver_name := if IsIterativeSolver (linear_solver_type o)
                     then PreconditionerTypeToString (preconditioner_type o)
                     else LinearSolverTypeToString (linear_solver_type o) in
  let noLibrary := "Can't use " ++ solver_name ++ " sparse_linear_algebra_library_type = " ++
     library_name ++ ", because support was not enabled when Ceres Solver was built." in
  need (negb (lib =? NO_SPARSE)%Z)
    ("Can't use " ++ solver_name ++ " with sparse_linear_algebra_library_type = " ++
     library_name ++ ".") (
  need (if IsSparseLinearAlgebraLibraryTypeAvailable (libs b) lib
        then if (lib =? CUDA_SPARSE)%Z then negb (no_cudss b) else true
        else false) noLibrary (
  need (negb ((linear_solver_ordering_type o =? NESDIS)%Z && negb (IsNestedDissectionAvailable lib)))
    ("NESDIS is not available with sparse_linear_algebra_library_type = " ++ library_name ++ ".") (
  need (negb (no_cholmod_float b && use_mixed_precision_solves o && (lib =? SUITE_SPARSE)%Z))
    "This version of SuiteSparse does not support single precision Cholesky factorization. So use_mixed_precision_solves is not supported with SUITE_SPARSE" (
  need (negb (dynamic_sparsity o && (lib =? ACCELERATE_SPARSE)%Z))
    ("dynamic sparsity is not supported with sparse_linear_algebra_library_type = " ++ library_name)
  Valid)))).

(* CHECK_EQ(options.linear_solver_type, type) *)
Definition checkType (type : Z) (rest : result) : result :=
  if (linear_solver_type o =? type)%Z then rest else Fatal.

(* solver.cc:215-219 *)
Definition OptionsAreValidForDenseNormalCholesky : result :=
  checkType DENSE_NORMAL_CHOLESKY OptionsAreValidForDenseSolver.

(* solver.cc:221-235 *)
Definition OptionsAreValidForDenseQr : result :=
  checkType DENSE_QR (
  andThen OptionsAreValidForDenseSolver (
  need (negb (use_mixed_precision_solves o)) "Can't use use_mixed_precision_solves with DENSE_QR."
  Valid)).

(* solver.cc:237-241 *)
Definition OptionsAreValidForSparseNormalCholesky : result :=
  checkType SPARSE_NORMAL_CHOLESKY OptionsAreValidForSparseCholeskyBasedSolver.

(* solver.cc:243-257 *)
Definition OptionsAreValidForDenseSchur : result :=
  checkType DENSE_SCHUR (
  need (negb (dynamic_sparsity o)) "dynamic sparsity is only supported with SPARSE_NORMAL_CHOLESKY" (
  andThen OptionsAreValidForDenseSolver Valid)).

(* solver.cc:259-267 *)
Definition OptionsAreValidForSparseSchur : result :=
  checkType SPARSE_SCHUR (
  need (negb (dynamic_sparsity o)) "Dynamic sparsity is only supported with SPARSE_NORMAL_CHOLESKY."
  OptionsAreValidForSparseCholeskyBasedSolver).

(* solver.cc:269-321 *)
Definition OptionsAreValidForIterativeSchur : result :=
  checkType ITERATIVE_SCHUR (
  need (negb (dynamic_sparsity o)) "Dynamic sparsity is only supported with SPARSE_NORMAL_CHOLESKY." (
  andThen (if use_explicit_schur_complement o then
             need (preconditioner_type o =? SCHUR_JACOBI)%Z
               "use_explicit_schur_complement only supports SCHUR_JACOBI as the preconditioner." (
             need (negb (use_spse_initialization o))
               "use_explicit_schur_complement does not support use_spse_initialization."
             Valid)
           else Valid) (
  andThen (if use_spse_initialization o || (preconditioner_type o =? SCHUR_POWER_SERIES_EXPANSION)%Z then
             need (1 <=? max_num_spse_iterations o)%Z "Solver::Options::max_num_spse_iterations >= 1" (
             need (dle (Fin 0) (spse_tolerance o)) "Solver::Options::spse_tolerance >= 0.0"
             Valid)
           else Valid) (
  need (negb (use_mixed_precision_solves o)) "Can't use use_mixed_precision_solves with ITERATIVE_SCHUR" (
  need (negb (dynamic_sparsity o)) "Dynamic sparsity is only supported with SPARSE_NORMAL_CHOLESKY." (
  need (negb (preconditioner_type o =? SUBSET)%Z) "Can't use SUBSET preconditioner with ITERATIVE_SCHUR" (
  if (preconditioner_type o =? CLUSTER_JACOBI)%Z || (preconditioner_type o =? CLUSTER_TRIDIAGONAL)%Z
  then OptionsAreValidForSparseCholeskyBasedSolver
  else Valid))))))).

(* solver.cc:323-377 *)
Definition OptionsAreValidForCgnr : result :=
  checkType CGNR (
  need (negb (negb (preconditioner_type o =? IDENTITY)%Z && negb (preconditioner_type o =? JACOBI)%Z &&
              negb (preconditioner_type o =? SUBSET)%Z))
    ("Can't use CGNR with preconditioner_type = " ++
     PreconditionerTypeToString (preconditioner_type o) ++ ".") (
  need (negb (use_mixed_precision_solves o)) "use_mixed_precision_solves cannot be used with CGNR" (
  need (negb (dynamic_sparsity o)) "Dynamic sparsity is only supported with SPARSE_NORMAL_CHOLESKY." (
  andThen (if (preconditioner_type o =? SUBSET)%Z then
      need (negb (sparse_linear_algebra_library_type o =? CUDA_SPARSE)%Z)
        "Can't use CGNR with preconditioner_type = SUBSET when sparse_linear_algebra_library_type = CUDA_SPARSE." (
      need (negb (num_subset_blocks o =? 0)%nat)
        "When using SUBSET preconditioner, residual_blocks_for_subset_preconditioner cannot be empty" (
      andThen OptionsAreValidForSparseCholeskyBasedSolver Valid))
    else Valid) (
  if (sparse_linear_algebra_library_type o =? CUDA_SPARSE)%Z then
    need (IsSparseLinearAlgebraLibraryTypeAvailable (libs b) CUDA_SPARSE)
      "Can't use CGNR with sparse_linear_algebra_library_type = CUDA_SPARSE because support was not enabled when Ceres was built."
    Valid
  else Valid))))).

(* solver.cc:379-403  OptionsAreValidForLinearSolver *)
Definition OptionsAreValidForLinearSolver : result :=
  let t := linear_solver_type o in
  if (t =? DENSE_NORMAL_CHOLESKY)%Z then OptionsAreValidForDenseNormalCholesky else
  if (t =? DENSE_QR)%Z then OptionsAreValidForDenseQr else
  if (t =? SPARSE_NORMAL_CHOLESKY)%Z then OptionsAreValidForSparseNormalCholesky else
  if (t =? DENSE_SCHUR)%Z then OptionsAreValidForDenseSchur else
  if (t =? SPARSE_SCHUR)%Z then OptionsAreValidForSparseSchur else
  if (t =? ITERATIVE_SCHUR)%Z then OptionsAreValidForIterativeSchur else
  if (t =? CGNR)%Z then OptionsAreValidForCgnr else
  Fatal.

(* solver.cc:405-452  TrustRegionOptionsAreValid *)
Definition TrustRegionOptionsAreValid : result :=
  need (dlt (Fin 0) (initial_trust_region_radius o)) "Solver::Options::initial_trust_region_radius > 0.0" (
  need (dlt (Fin 0) (min_trust_region_radius o)) "Solver::Options::min_trust_region_radius > 0.0" (
  need (dlt (Fin 0) (max_trust_region_radius o)) "Solver::Options::max_trust_region_radius > 0.0" (
  need (dle (min_trust_region_radius o) (max_trust_region_radius o))
    "Solver::Options::min_trust_region_radius<= Solver::Options::max_trust_region_radius." (
  need (dle (min_trust_region_radius o) (initial_trust_region_radius o))
    "Solver::Options::min_trust_region_radius<= Solver::Options::initial_trust_region_radius." (
  need (dle (initial_trust_region_radius o) (max_trust_region_radius o))
    "Solver::Options::initial_trust_region_radius<= Solver::Options::max_trust_region_radius." (
  need (dle (Fin 0) (min_relative_decrease o)) "Solver::Options::min_relative_decrease >= 0.0" (
  need (dle (Fin 0) (min_lm_diagonal o)) "Solver::Options::min_lm_diagonal >= 0.0" (
  need (dle (Fin 0) (max_lm_diagonal o)) "Solver::Options::max_lm_diagonal >= 0.0" (
  need (dle (min_lm_diagonal o) (max_lm_diagonal o))
    "Solver::Options::min_lm_diagonal<= Solver::Options::max_lm_diagonal." (
  need (0 <=? max_num_consecutive_invalid_steps o)%Z
    "Solver::Options::max_num_consecutive_invalid_steps >= 0" (
  need (dlt (Fin 0) (eta o)) "Solver::Options::eta > 0.0" (
  need (0 <=? min_linear_solver_iterations o)%Z "Solver::Options::min_linear_solver_iterations >= 0" (
  need (0 <=? max_linear_solver_iterations o)%Z "Solver::Options::max_linear_solver_iterations >= 0" (
  need (min_linear_solver_iterations o <=? max_linear_solver_iterations o)%Z
    "Solver::Options::min_linear_solver_iterations<= Solver::Options::max_linear_solver_iterations." (
  andThen (if use_inner_iterations o then
             need (dle (Fin 0) (inner_iteration_tolerance o))
               "Solver::Options::inner_iteration_tolerance >= 0.0" Valid
           else Valid) (
  andThen (if use_nonmonotonic_steps o then
             need (0 <? max_consecutive_nonmonotonic_steps o)%Z
               "Solver::Options::max_consecutive_nonmonotonic_steps > 0" Valid
           else Valid) (
  need (negb ((trust_region_strategy_type o =? DOGLEG)%Z && IsIterativeSolver (linear_solver_type o)))
    "DOGLEG only supports exact factorization based linear solvers. If you want to use an iterative solver please use LEVENBERG_MARQUARDT as the trust_region_strategy_type" (
  andThen OptionsAreValidForLinearSolver (
  need (negb (negb (match trust_region_minimizer_iterations_to_dump o with [] => true | _ => false end) &&
              negb (trust_region_problem_dump_format_type o =? CONSOLE)%Z &&
              String.eqb (trust_region_problem_dump_directory o) ""))
    "Solver::Options::trust_region_problem_dump_directory is empty."
  Valid))))))))))))))))))).

(* solver.cc:454-498  LineSearchOptionsAreValid (the warning about BISECTION is
   only logged) *)
Definition LineSearchOptionsAreValid : result :=
  need (0 <? max_lbfgs_rank o)%Z "Solver::Options::max_lbfgs_rank > 0" (
  need (dlt (Fin 0) (min_line_search_step_size o)) "Solver::Options::min_line_search_step_size > 0.0" (
  need (dlt (Fin 0) (max_line_search_step_contraction o))
    "Solver::Options::max_line_search_step_contraction > 0.0" (
  need (dlt (max_line_search_step_contraction o) ONE)
    "Solver::Options::max_line_search_step_contraction < 1.0" (
  need (dlt (max_line_search_step_contraction o) (min_line_search_step_contraction o))
    "Solver::Options::max_line_search_step_contraction< Solver::Options::min_line_search_step_contraction." (
  need (dle (min_line_search_step_contraction o) ONE)
    "Solver::Options::min_line_search_step_contraction <= 1.0" (
  need ((if (minimizer_type o =? TRUST_REGION)%Z then 0 else 1) <=?
        max_num_line_search_step_size_iterations o)%Z
    "Solver::Options::max_num_line_search_step_size_iterations >= (options.minimizer_type == ceres::TRUST_REGION ? 0 : 1)" (
  need (dlt (Fin 0) (line_search_sufficient_function_decrease o))
    "Solver::Options::line_search_sufficient_function_decrease > 0.0" (
  need (dlt (line_search_sufficient_function_decrease o) (line_search_sufficient_curvature_decrease o))
    "Solver::Options::line_search_sufficient_function_decrease< Solver::Options::line_search_sufficient_curvature_decrease." (
  need (dlt (line_search_sufficient_curvature_decrease o) ONE)
    "Solver::Options::line_search_sufficient_curvature_decrease < 1.0" (
  need (dlt ONE (max_line_search_step_expansion o))
    "Solver::Options::max_line_search_step_expansion > 1.0" (
  need (negb (((line_search_direction_type o =? BFGS)%Z || (line_search_direction_type o =? LBFGS)%Z) &&
              negb (line_search_type o =? WOLFE)%Z))
    ("Invalid configuration: Solver::Options::line_search_type = " ++
     LineSearchTypeToString (line_search_type o) ++
     ". When using (L)BFGS, Solver::Options::line_search_type must be set to WOLFE.")
  Valid))))))))))).

(* solver.cc:714-731  Solver::Options::IsValid *)
Definition IsValid : result :=
  andThen CommonOptionsAreValid (
  andThen (if (minimizer_type o =? TRUST_REGION)%Z then TrustRegionOptionsAreValid else Valid)
  LineSearchOptionsAreValid).

End Check.

(* options with the linear solver and the preconditioner replaced *)
Definition with_solver (t p : Z) (o : options) : options :=
  mkoptions (minimizer_type o) (line_search_direction_type o) (line_search_type o)
    (max_lbfgs_rank o) (min_line_search_step_size o) (line_search_sufficient_function_decrease o)
    (max_line_search_step_contraction o) (min_line_search_step_contraction o) (max_num_line_search_step_size_iterations o)
    (line_search_sufficient_curvature_decrease o) (max_line_search_step_expansion o) (trust_region_strategy_type o)
    (use_nonmonotonic_steps o) (max_consecutive_nonmonotonic_steps o) (max_num_iterations o)
    (max_solver_time_in_seconds o) (num_threads o) (initial_trust_region_radius o)
    (max_trust_region_radius o) (min_trust_region_radius o) (min_relative_decrease o)
    (min_lm_diagonal o) (max_lm_diagonal o) (max_num_consecutive_invalid_steps o)
    (function_tolerance o) (gradient_tolerance o) (parameter_tolerance o)
    t p (num_subset_blocks o)
    (dense_linear_algebra_library_type o) (sparse_linear_algebra_library_type o) (linear_solver_ordering_type o)
    (use_explicit_schur_complement o) (dynamic_sparsity o) (use_mixed_precision_solves o)
    (min_linear_solver_iterations o) (max_linear_solver_iterations o) (max_num_spse_iterations o)
    (use_spse_initialization o) (spse_tolerance o) (eta o)
    (use_inner_iterations o) (inner_iteration_tolerance o) (trust_region_minimizer_iterations_to_dump o)
    (trust_region_problem_dump_directory o) (trust_region_problem_dump_format_type o) (check_gradients o)
    (gradient_check_relative_precision o) (gradient_check_numeric_derivative_relative_step_size o).

(* linear_solver.cc:51-73  LinearSolver::LinearSolverForZeroEBlocks *)
Definition LinearSolverForZeroEBlocks (t : Z) : Z :=
  if negb (IsSchurType t) then t else
  if (t =? SPARSE_SCHUR)%Z then SPARSE_NORMAL_CHOLESKY else
  if (t =? DENSE_SCHUR)%Z then DENSE_QR else
  if (t =? ITERATIVE_SCHUR)%Z then CGNR else
  t.

(* preconditioner.cc:39-47  Preconditioner::PreconditionerForZeroEBlocks *)
Definition PreconditionerForZeroEBlocks (p : Z) : Z :=
  if (p =? SCHUR_JACOBI)%Z || (p =? CLUSTER_JACOBI)%Z || (p =? CLUSTER_TRIDIAGONAL)%Z then JACOBI else p.

(* trust_region_preprocessor.cc:79-111
   AlternateLinearSolverAndPreconditionerForSchurTypeLinearSolver, without the
   log message.  SetupLinearSolver calls it when every block of the user's first
   elimination group is constant or unused. *)
Definition AlternateLinearSolver (o : options) : options :=
  if negb (IsSchurType (linear_solver_type o)) then o else
  with_solver (LinearSolverForZeroEBlocks (linear_solver_type o))
              (if (linear_solver_type o =? ITERATIVE_SCHUR)%Z
               then PreconditionerForZeroEBlocks (preconditioner_type o)
               else preconditioner_type o) o.

(* the objects LinearSolver::Create can make; NoSolver stands for nullptr and
   CreateAborts for LOG(FATAL) *)
Inductive created : Type :=
| Cgnr | CudaCgnr | DynamicSparseNormalCholesky | SparseNormalCholesky | SparseSchur | DenseSchur
| IterativeSchur | DenseQr | DenseNormalCholesky | NoSolver | CreateAborts.

(* cgnr_solver.cc:125-135  CgnrSolver::CgnrSolver *)
Definition CgnrSolver (p : Z) : created :=
  if negb (p =? JACOBI)%Z && negb (p =? IDENTITY)%Z && negb (p =? SUBSET)%Z then CreateAborts else Cgnr.

(* cgnr_solver.cc:295-310  CudaCgnrSolver::Create *)
Definition CudaCgnrSolverCreate (p : Z) : created :=
  if negb (p =? IDENTITY)%Z && negb (p =? JACOBI)%Z then NoSolver else CudaCgnr.

(* linear_solver.cc:75-129  LinearSolver::Create, for the options which
   SetupLinearSolver copies from Solver::Options (trust_region_preprocessor.cc:201-227).
   CERES_NO_SPARSE is defined when no sparse library is built
   (cmake/config.h.in:60-105: no SuiteSparse, no Accelerate, no Eigen, no CUDSS).
   CUDA is assumed to initialise (CHECK in CudaCgnrSolver::Create). *)
Definition LinearSolverCreate (b : build2) (o : options) : created :=
  let noSparse := no_suitesparse (libs b) && no_accelerate (libs b) && negb (use_eigen_sparse (libs b)) &&
                  no_cudss b in
  let t := linear_solver_type o in
  if (t =? CGNR)%Z then
    if negb (no_cuda (libs b)) && (sparse_linear_algebra_library_type o =? CUDA_SPARSE)%Z
    then CudaCgnrSolverCreate (preconditioner_type o)
    else CgnrSolver (preconditioner_type o)
  else if (t =? SPARSE_NORMAL_CHOLESKY)%Z then
    if noSparse then NoSolver else
    if dynamic_sparsity o then DynamicSparseNormalCholesky else SparseNormalCholesky
  else if (t =? SPARSE_SCHUR)%Z then if noSparse then NoSolver else SparseSchur
  else if (t =? DENSE_SCHUR)%Z then DenseSchur
  else if (t =? ITERATIVE_SCHUR)%Z then
    if use_explicit_schur_complement o then SparseSchur else IterativeSchur
  else if (t =? DENSE_QR)%Z then DenseQr
  else if (t =? DENSE_NORMAL_CHOLESKY)%Z then DenseNormalCholesky
  else CreateAborts.
