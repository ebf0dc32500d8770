(* Specification for C52: the constraints on Solver::Options in words.  Each
   rule is a text (the error message that goes with it) and what it demands. *)

From Coq Require Import String ZArith List.
From Verif Require Import Dbl EnumModel OptionsModel.
Import ListNotations.
Local Open Scope Z_scope.
Local Open Scope string_scope.

(* a <= b and a < b as doubles: neither is NaN *)
Definition le (a b : dbl) : Prop := dle a b = true.
Definition lt (a b : dbl) : Prop := dlt a b = true.
Definition zero : dbl := Fin 0.
Definition nonnegative (x : dbl) : Prop := le zero x.
Definition positive (x : dbl) : Prop := lt zero x.

Definition uses_trust_region (o : options) : Prop := minimizer_type o = TRUST_REGION.
Definition solver_is (o : options) (l : list Z) : Prop := In (linear_solver_type o) l.
Definition preconditioner_is (o : options) (l : list Z) : Prop := In (preconditioner_type o) l.

(* some part of the linear solver factorises a sparse matrix *)
Definition needs_sparse_cholesky (o : options) : Prop :=
  solver_is o [SPARSE_NORMAL_CHOLESKY; SPARSE_SCHUR] \/
  (solver_is o [ITERATIVE_SCHUR] /\ preconditioner_is o [CLUSTER_JACOBI; CLUSTER_TRIDIAGONAL]) \/
  (solver_is o [CGNR] /\ preconditioner_is o [SUBSET]).

Definition needs_dense_library (o : options) : Prop :=
  solver_is o [DENSE_NORMAL_CHOLESKY; DENSE_QR; DENSE_SCHUR].

(* what the build offers *)
Definition dense_library_built (b : build2) (lib : Z) : Prop :=
  lib = EIGEN \/ (lib = LAPACK /\ no_lapack (libs b) = false) \/
  (lib = CUDA /\ no_cuda (libs b) = false).

Definition sparse_cholesky_built (b : build2) (lib : Z) : Prop :=
  (lib = SUITE_SPARSE /\ no_suitesparse (libs b) = false) \/
  (lib = ACCELERATE_SPARSE /\ no_accelerate (libs b) = false) \/
  (lib = EIGEN_SPARSE /\ use_eigen_sparse (libs b) = true) \/
  (lib = CUDA_SPARSE /\ no_cuda (libs b) = false /\ no_cudss b = false) \/
  lib = NO_SPARSE.

Definition nested_dissection_built (b : build2) (lib : Z) : Prop :=
  (lib = SUITE_SPARSE /\ suitesparse_nesdis b = true) \/ lib = ACCELERATE_SPARSE \/
  (lib = EIGEN_SPARSE /\ eigen_nesdis b = true) \/
  (lib = CUDA_SPARSE /\ no_cudss b = false /\ cudss_nesdis b = true).

Definition uses_power_series (o : options) : Prop :=
  use_spse_initialization o = true \/ preconditioner_is o [SCHUR_POWER_SERIES_EXPANSION].

Definition rule : Type := ((options -> string) * (options -> Prop))%type.
Definition text (s : string) : options -> string := fun _ => s.

(* names used in the messages *)
Definition library_name (o : options) : string :=
  SparseLinearAlgebraLibraryTypeToString (sparse_linear_algebra_library_type o).
Definition sparse_user (o : options) (s : string) : Prop :=
  (solver_is o [CGNR; ITERATIVE_SCHUR] /\ s = PreconditionerTypeToString (preconditioner_type o)) \/
  (~ solver_is o [CGNR; ITERATIVE_SCHUR] /\ s = LinearSolverTypeToString (linear_solver_type o)).

Definition common_rules : list rule :=
  [ (text "Solver::Options::max_num_iterations >= 0", fun o => 0 <= max_num_iterations o);
    (text "Solver::Options::max_solver_time_in_seconds >= 0.0",
       fun o => nonnegative (max_solver_time_in_seconds o));
    (text "Solver::Options::function_tolerance >= 0.0", fun o => nonnegative (function_tolerance o));
    (text "Solver::Options::gradient_tolerance >= 0.0", fun o => nonnegative (gradient_tolerance o));
    (text "Solver::Options::parameter_tolerance >= 0.0", fun o => nonnegative (parameter_tolerance o));
    (text "Solver::Options::num_threads > 0", fun o => 0 < num_threads o);
    (text "Solver::Options::gradient_check_relative_precision > 0.0",
       fun o => check_gradients o = true -> positive (gradient_check_relative_precision o));
    (text "Solver::Options::gradient_check_numeric_derivative_relative_step_size > 0.0",
       fun o => check_gradients o = true ->
                positive (gradient_check_numeric_derivative_relative_step_size o)) ].

Definition trust_region_rules : list rule :=
  [ (text "Solver::Options::initial_trust_region_radius > 0.0",
       fun o => positive (initial_trust_region_radius o));
    (text "Solver::Options::min_trust_region_radius > 0.0", fun o => positive (min_trust_region_radius o));
    (text "Solver::Options::max_trust_region_radius > 0.0", fun o => positive (max_trust_region_radius o));
    (text "Solver::Options::min_trust_region_radius<= Solver::Options::max_trust_region_radius.",
       fun o => le (min_trust_region_radius o) (max_trust_region_radius o));
    (text "Solver::Options::min_trust_region_radius<= Solver::Options::initial_trust_region_radius.",
       fun o => le (min_trust_region_radius o) (initial_trust_region_radius o));
    (text "Solver::Options::initial_trust_region_radius<= Solver::Options::max_trust_region_radius.",
       fun o => le (initial_trust_region_radius o) (max_trust_region_radius o));
    (text "Solver::Options::min_relative_decrease >= 0.0", fun o => nonnegative (min_relative_decrease o));
    (text "Solver::Options::min_lm_diagonal >= 0.0", fun o => nonnegative (min_lm_diagonal o));
    (text "Solver::Options::max_lm_diagonal >= 0.0", fun o => nonnegative (max_lm_diagonal o));
    (text "Solver::Options::min_lm_diagonal<= Solver::Options::max_lm_diagonal.",
       fun o => le (min_lm_diagonal o) (max_lm_diagonal o));
    (text "Solver::Options::max_num_consecutive_invalid_steps >= 0",
       fun o => 0 <= max_num_consecutive_invalid_steps o);
    (text "Solver::Options::eta > 0.0", fun o => positive (eta o));
    (text "Solver::Options::min_linear_solver_iterations >= 0",
       fun o => 0 <= min_linear_solver_iterations o);
    (text "Solver::Options::max_linear_solver_iterations >= 0",
       fun o => 0 <= max_linear_solver_iterations o);
    (text "Solver::Options::min_linear_solver_iterations<= Solver::Options::max_linear_solver_iterations.",
       fun o => min_linear_solver_iterations o <= max_linear_solver_iterations o);
    (text "Solver::Options::inner_iteration_tolerance >= 0.0",
       fun o => use_inner_iterations o = true -> nonnegative (inner_iteration_tolerance o));
    (text "Solver::Options::max_consecutive_nonmonotonic_steps > 0",
       fun o => use_nonmonotonic_steps o = true -> 0 < max_consecutive_nonmonotonic_steps o);
    (text "DOGLEG only supports exact factorization based linear solvers. If you want to use an iterative solver please use LEVENBERG_MARQUARDT as the trust_region_strategy_type",
       fun o => trust_region_strategy_type o = DOGLEG -> ~ solver_is o [CGNR; ITERATIVE_SCHUR]);
    (text "Solver::Options::trust_region_problem_dump_directory is empty.",
       fun o => trust_region_minimizer_iterations_to_dump o <> [] ->
                trust_region_problem_dump_format_type o <> CONSOLE ->
                trust_region_problem_dump_directory o <> "") ].

Definition linear_solver_rules (b : build2) : list rule :=
  [ (fun o => "Can't use " ++ LinearSolverTypeToString (linear_solver_type o) ++
              " with dense_linear_algebra_library_type = " ++
              DenseLinearAlgebraLibraryTypeToString (dense_linear_algebra_library_type o) ++
              " because support not enabled when Ceres was built.",
       fun o => needs_dense_library o -> dense_library_built b (dense_linear_algebra_library_type o));
    (fun o => "Can't use " ++ PreconditionerTypeToString (preconditioner_type o) ++
              " with sparse_linear_algebra_library_type = " ++ library_name o ++ ".",
       fun o => needs_sparse_cholesky o -> solver_is o [CGNR; ITERATIVE_SCHUR] ->
                sparse_linear_algebra_library_type o <> NO_SPARSE);
    (fun o => "Can't use " ++ LinearSolverTypeToString (linear_solver_type o) ++
              " with sparse_linear_algebra_library_type = " ++ library_name o ++ ".",
       fun o => needs_sparse_cholesky o -> ~ solver_is o [CGNR; ITERATIVE_SCHUR] ->
                sparse_linear_algebra_library_type o <> NO_SPARSE);
    (fun o => "Can't use " ++ PreconditionerTypeToString (preconditioner_type o) ++
              " sparse_linear_algebra_library_type = " ++ library_name o ++
              ", because support was not enabled when Ceres Solver was built.",
       fun o => needs_sparse_cholesky o -> solver_is o [CGNR; ITERATIVE_SCHUR] ->
                sparse_cholesky_built b (sparse_linear_algebra_library_type o));
    (fun o => "Can't use " ++ LinearSolverTypeToString (linear_solver_type o) ++
              " sparse_linear_algebra_library_type = " ++ library_name o ++
              ", because support was not enabled when Ceres Solver was built.",
       fun o => needs_sparse_cholesky o -> ~ solver_is o [CGNR; ITERATIVE_SCHUR] ->
                sparse_cholesky_built b (sparse_linear_algebra_library_type o));
    (fun o => "NESDIS is not available with sparse_linear_algebra_library_type = " ++
              library_name o ++ ".",
       fun o => needs_sparse_cholesky o -> linear_solver_ordering_type o = NESDIS ->
                nested_dissection_built b (sparse_linear_algebra_library_type o));
    (text "This version of SuiteSparse does not support single precision Cholesky factorization. So use_mixed_precision_solves is not supported with SUITE_SPARSE",
       fun o => needs_sparse_cholesky o -> no_cholmod_float b = true ->
                use_mixed_precision_solves o = true ->
                sparse_linear_algebra_library_type o <> SUITE_SPARSE);
    (fun o => "dynamic sparsity is not supported with sparse_linear_algebra_library_type = " ++
              library_name o,
       fun o => needs_sparse_cholesky o -> dynamic_sparsity o = true ->
                sparse_linear_algebra_library_type o <> ACCELERATE_SPARSE);
    (text "Can't use use_mixed_precision_solves with DENSE_QR.",
       fun o => solver_is o [DENSE_QR] -> use_mixed_precision_solves o = false);
    (text "Can't use use_mixed_precision_solves with ITERATIVE_SCHUR",
       fun o => solver_is o [ITERATIVE_SCHUR] -> use_mixed_precision_solves o = false);
    (text "use_mixed_precision_solves cannot be used with CGNR",
       fun o => solver_is o [CGNR] -> use_mixed_precision_solves o = false);
    (text "dynamic sparsity is only supported with SPARSE_NORMAL_CHOLESKY",
       fun o => solver_is o [DENSE_SCHUR] -> dynamic_sparsity o = false);
    (text "Dynamic sparsity is only supported with SPARSE_NORMAL_CHOLESKY.",
       fun o => solver_is o [SPARSE_SCHUR; ITERATIVE_SCHUR; CGNR] -> dynamic_sparsity o = false);
    (text "use_explicit_schur_complement only supports SCHUR_JACOBI as the preconditioner.",
       fun o => solver_is o [ITERATIVE_SCHUR] -> use_explicit_schur_complement o = true ->
                preconditioner_is o [SCHUR_JACOBI]);
    (text "use_explicit_schur_complement does not support use_spse_initialization.",
       fun o => solver_is o [ITERATIVE_SCHUR] -> use_explicit_schur_complement o = true ->
                use_spse_initialization o = false);
    (text "Solver::Options::max_num_spse_iterations >= 1",
       fun o => solver_is o [ITERATIVE_SCHUR] -> uses_power_series o -> 1 <= max_num_spse_iterations o);
    (text "Solver::Options::spse_tolerance >= 0.0",
       fun o => solver_is o [ITERATIVE_SCHUR] -> uses_power_series o -> nonnegative (spse_tolerance o));
    (text "Can't use SUBSET preconditioner with ITERATIVE_SCHUR",
       fun o => solver_is o [ITERATIVE_SCHUR] -> ~ preconditioner_is o [SUBSET]);
    (fun o => "Can't use CGNR with preconditioner_type = " ++
              PreconditionerTypeToString (preconditioner_type o) ++ ".",
       fun o => solver_is o [CGNR] -> preconditioner_is o [IDENTITY; JACOBI; SUBSET]);
    (text "Can't use CGNR with preconditioner_type = SUBSET when sparse_linear_algebra_library_type = CUDA_SPARSE.",
       fun o => solver_is o [CGNR] -> preconditioner_is o [SUBSET] ->
                sparse_linear_algebra_library_type o <> CUDA_SPARSE);
    (text "When using SUBSET preconditioner, residual_blocks_for_subset_preconditioner cannot be empty",
       fun o => solver_is o [CGNR] -> preconditioner_is o [SUBSET] -> num_subset_blocks o <> 0%nat);
    (text "Can't use CGNR with sparse_linear_algebra_library_type = CUDA_SPARSE because support was not enabled when Ceres was built.",
       fun o => solver_is o [CGNR] -> sparse_linear_algebra_library_type o = CUDA_SPARSE ->
                no_cuda (libs b) = false) ].

Definition line_search_rules : list rule :=
  [ (text "Solver::Options::max_lbfgs_rank > 0", fun o => 0 < max_lbfgs_rank o);
    (text "Solver::Options::min_line_search_step_size > 0.0",
       fun o => positive (min_line_search_step_size o));
    (text "Solver::Options::max_line_search_step_contraction > 0.0",
       fun o => positive (max_line_search_step_contraction o));
    (text "Solver::Options::max_line_search_step_contraction < 1.0",
       fun o => lt (max_line_search_step_contraction o) ONE);
    (text "Solver::Options::max_line_search_step_contraction< Solver::Options::min_line_search_step_contraction.",
       fun o => lt (max_line_search_step_contraction o) (min_line_search_step_contraction o));
    (text "Solver::Options::min_line_search_step_contraction <= 1.0",
       fun o => le (min_line_search_step_contraction o) ONE);
    (text "Solver::Options::max_num_line_search_step_size_iterations >= (options.minimizer_type == ceres::TRUST_REGION ? 0 : 1)",
       fun o => 0 <= max_num_line_search_step_size_iterations o /\
                (~ uses_trust_region o -> 1 <= max_num_line_search_step_size_iterations o));
    (text "Solver::Options::line_search_sufficient_function_decrease > 0.0",
       fun o => positive (line_search_sufficient_function_decrease o));
    (text "Solver::Options::line_search_sufficient_function_decrease< Solver::Options::line_search_sufficient_curvature_decrease.",
       fun o => lt (line_search_sufficient_function_decrease o)
                   (line_search_sufficient_curvature_decrease o));
    (text "Solver::Options::line_search_sufficient_curvature_decrease < 1.0",
       fun o => lt (line_search_sufficient_curvature_decrease o) ONE);
    (text "Solver::Options::max_line_search_step_expansion > 1.0",
       fun o => lt ONE (max_line_search_step_expansion o));
    (fun o => "Invalid configuration: Solver::Options::line_search_type = " ++
              LineSearchTypeToString (line_search_type o) ++
              ". When using (L)BFGS, Solver::Options::line_search_type must be set to WOLFE.",
       fun o => line_search_direction_type o = BFGS \/ line_search_direction_type o = LBFGS ->
                line_search_type o = WOLFE) ].

(* the rules that apply to the chosen minimizer *)
Definition applies (b : build2) (o : options) (r : rule) : Prop :=
  In r common_rules \/ In r line_search_rules \/
  (uses_trust_region o /\ (In r trust_region_rules \/ In r (linear_solver_rules b))).

Definition satisfied (o : options) (r : rule) : Prop := snd r o.

(* the linear solver is one of the enumerators *)
Definition known_solver (o : options) : Prop :=
  solver_is o [DENSE_NORMAL_CHOLESKY; DENSE_QR; SPARSE_NORMAL_CHOLESKY; DENSE_SCHUR; SPARSE_SCHUR;
               ITERATIVE_SCHUR; CGNR].

Definition acceptable (b : build2) (o : options) : Prop :=
  (forall r, applies b o r -> satisfied o r) /\ (uses_trust_region o -> known_solver o).
