(** GradientProblem and GradientProblemSolver.
    Source: internal/ceres/gradient_problem.cc, gradient_problem_evaluator.h,
    gradient_problem_solver.cc 50-230, callbacks.cc 54-75, minimizer.cc 57-89.

    The line searches and the steps of the minimizer are those of LineSearchModel.v and
    LsMinimizerModel.v (IEEE doubles); the loop is written again because here the
    callbacks act on the user's array.  The function, the manifold, the vector
    operations, the directions, the user's callbacks and the clock are arbitrary
    functions.  A callback that keeps private state is a function of all the summaries it has
    been given.  Callbacks that write to the user's array are not modelled, nor are
    timings, log messages and the counters of evaluations. *)
Require Import List ZArith Bool String.
From Verif Require Import Dbl DblArith LineSearchModel LsMinimizerModel.
From Verif Require EnumModel OptionsModel.
Import ListNotations.
Open Scope Z_scope.

(** gradient_problem.h 93-122: the function and the manifold.  [fn x g]: FirstOrderFunction::Evaluate
    with or without gradient, None = false; [right_multiply]: RightMultiplyByPlusJacobian for one
    row; [unwritten]: the memory of a gradient that is not asked for. *)
Record gradient_problem := mkGP {
  point : Type; tangent : Type; ambient_gradient : Type;
  fn : point -> bool -> option (dbl * ambient_gradient);
  manifold_plus : point -> tangent -> option point;
  right_multiply : point -> ambient_gradient -> option tangent;
  unwritten : tangent }.

(** gradient_problem.cc 67-79 GradientProblem::Evaluate *)
Definition Evaluate (P : gradient_problem) (x : point P) (gradient : bool) : option (dbl * tangent P) :=
  if negb gradient then
    match fn P x false with
    | None => None
    | Some (cost, _) => Some (cost, unwritten P)
    end
  else
    match fn P x true with
    | None => None
    | Some (cost, scratch) =>
        match right_multiply P x scratch with
        | None => None
        | Some g => Some (cost, g)
        end
    end.

(** Eigen's operations, the interpolation, the direction and the clock *)
Record operations (P : gradient_problem) := mkOps {
  op_scale : dbl -> tangent P -> tangent P;
  op_dot : tangent P -> tangent P -> dbl;
  op_inf_norm : tangent P -> dbl;
  op_poly_min : list psample -> dbl -> dbl -> dbl;
  op_neg : tangent P -> tangent P;
  op_max_dist : point P -> point P -> dbl;
  op_dist : point P -> point P -> dbl;
  op_norm : point P -> dbl;
  op_next_direction : Z -> tangent P -> option (tangent P);
  op_time_up : Z -> bool }.

(** gradient_problem_evaluator.h 48-102 GradientProblemEvaluator, as the evaluator of the minimizer *)
Definition evaluator (P : gradient_problem) (W : operations P) : ls_env :=
  mkLEnv (point P) (tangent P) (op_scale P W) (manifold_plus P) (Evaluate P) (op_dot P W) (op_inf_norm P W) (op_poly_min P W).
Definition environment (P : gradient_problem) (W : operations P) (cbs : list (list iter -> point P -> cb_status)) : lm_env :=
  mkLM (evaluator P W) (op_neg P W) (op_max_dist P W) (op_dist P W) (op_norm P W) (op_next_direction P W) cbs (op_time_up P W).

(** gradient_problem_solver.h 53-256 GradientProblemSolver::Options; enumerations as in EnumModel.v *)
Record goptions := mkGO {
  line_search_direction_type : Z;
  line_search_type : Z;
  max_lbfgs_rank : Z;
  line_search_interpolation_type : Z;
  min_line_search_step_size : dbl;
  line_search_sufficient_function_decrease : dbl;
  max_line_search_step_contraction : dbl;
  min_line_search_step_contraction : dbl;
  max_num_line_search_step_size_iterations : Z;
  max_num_line_search_direction_restarts : Z;
  line_search_sufficient_curvature_decrease : dbl;
  max_line_search_step_expansion : dbl;
  max_num_iterations : Z;
  max_solver_time_in_seconds : dbl;
  function_tolerance : dbl;
  gradient_tolerance : dbl;
  parameter_tolerance : dbl;
  logging : bool;                        (* logging_type != SILENT *)
  update_state_every_iteration : bool }.

(** gradient_problem_solver.cc 57-86: [d] is a default constructed Solver::Options (its linear
    solver depends on the build).  nonlinear_conjugate_gradient_type,
    use_approximate_eigenvalue_bfgs_scaling, logging_type and the like are not read by IsValid. *)
Definition ToSolverOptions (d : OptionsModel.options) (o : goptions) : OptionsModel.options :=
  OptionsModel.mkoptions EnumModel.LINE_SEARCH (line_search_direction_type o) (line_search_type o)
    (max_lbfgs_rank o) (min_line_search_step_size o) (line_search_sufficient_function_decrease o)
    (max_line_search_step_contraction o) (min_line_search_step_contraction o) (max_num_line_search_step_size_iterations o)
    (line_search_sufficient_curvature_decrease o) (max_line_search_step_expansion o) (OptionsModel.trust_region_strategy_type d)
    (OptionsModel.use_nonmonotonic_steps d) (OptionsModel.max_consecutive_nonmonotonic_steps d) (max_num_iterations o)
    (max_solver_time_in_seconds o) (OptionsModel.num_threads d) (OptionsModel.initial_trust_region_radius d)
    (OptionsModel.max_trust_region_radius d) (OptionsModel.min_trust_region_radius d) (OptionsModel.min_relative_decrease d)
    (OptionsModel.min_lm_diagonal d) (OptionsModel.max_lm_diagonal d) (OptionsModel.max_num_consecutive_invalid_steps d)
    (function_tolerance o) (gradient_tolerance o) (parameter_tolerance o)
    (OptionsModel.linear_solver_type d) (OptionsModel.preconditioner_type d) (OptionsModel.num_subset_blocks d)
    (OptionsModel.dense_linear_algebra_library_type d) (OptionsModel.sparse_linear_algebra_library_type d) (OptionsModel.linear_solver_ordering_type d)
    (OptionsModel.use_explicit_schur_complement d) (OptionsModel.dynamic_sparsity d) (OptionsModel.use_mixed_precision_solves d)
    (OptionsModel.min_linear_solver_iterations d) (OptionsModel.max_linear_solver_iterations d) (OptionsModel.max_num_spse_iterations d)
    (OptionsModel.use_spse_initialization d) (OptionsModel.spse_tolerance d) (OptionsModel.eta d)
    (OptionsModel.use_inner_iterations d) (OptionsModel.inner_iteration_tolerance d) (OptionsModel.trust_region_minimizer_iterations_to_dump d)
    (OptionsModel.trust_region_problem_dump_directory d) (OptionsModel.trust_region_problem_dump_format_type d) (OptionsModel.check_gradients d)
    (OptionsModel.gradient_check_relative_precision d) (OptionsModel.gradient_check_numeric_derivative_relative_step_size d).

(** gradient_problem_solver.cc 92-96 Options::IsValid *)
Definition IsValid (b : OptionsModel.build2) (d : OptionsModel.options) (o : goptions) : OptionsModel.result :=
  OptionsModel.IsValid b (ToSolverOptions d o).

(** minimizer.h 61-112 Minimizer::Options::Init and line_search_minimizer.cc 170-205, what the loop
    reads; fixed_cost is 0 (gradient_problem_solver.cc 162).  Both enumerations are assumed to be
    one of their values. *)
Definition MinimizerOptions (o : goptions) : lm_options :=
  mkLMO (if line_search_type o =? EnumModel.ARMIJO then ARMIJO else WOLFE)
    (mkLO (if line_search_interpolation_type o =? EnumModel.BISECTION then BISECTION
           else if line_search_interpolation_type o =? EnumModel.QUADRATIC then QUADRATIC else CUBIC)
          (line_search_sufficient_function_decrease o) (max_line_search_step_contraction o)
          (min_line_search_step_contraction o) (min_line_search_step_size o)
          (max_num_line_search_step_size_iterations o)
          (line_search_sufficient_curvature_decrease o) (max_line_search_step_expansion o))
    (max_num_iterations o) (max_num_line_search_direction_restarts o)
    (gradient_tolerance o) (function_tolerance o) (parameter_tolerance o) (Fin 0).

(** iteration_callback.h: the three kinds of callbacks *)
Inductive callback (X : Type) :=
| Logging                                            (* LoggingCallback *)
| UpdateState                                        (* GradientProblemSolverStateUpdatingCallback *)
| User (f : list iter -> X -> cb_status).            (* sees the summaries and the user's array *)
Arguments Logging {X}. Arguments UpdateState {X}. Arguments User {X}.

(** IterationSummary::step_is_successful: line_search_minimizer.cc 111 sets it to false for
    iteration 0, 401 to true for every other iteration that is reported *)
Definition step_is_successful (its : list iter) : bool :=
  match rev its with [] => false | it :: _ => 0 <? it_number it end.

(** minimizer.cc 57-89 RunCallbacks.  [x]: the minimizer's array (solution); [user]: the
    user's array; [seen]: what the user's callbacks have found there, with the iterate *)
Record memory (X : Type) := mkMem { user : X; seen : list (list iter * X * X) }.
Arguments mkMem {X}. Arguments user {X}. Arguments seen {X}.
Fixpoint RunCallbacks {X} (cbs : list (callback X)) (its : list iter) (x : X) (m : memory X) : cb_status * memory X :=
  match cbs with
  | [] => (SOLVER_CONTINUE, m)
  | Logging :: rest => RunCallbacks rest its x m
  | UpdateState :: rest =>
      (* callbacks.cc 68-75 *)
      RunCallbacks rest its x (if step_is_successful its then mkMem x (seen m) else m)
  | User f :: rest =>
      let m' := mkMem (user m) (seen m ++ [(its, x, user m)]) in
      match f its (user m) with
      | SOLVER_CONTINUE => RunCallbacks rest its x m'
      | st => (st, m')
      end
  end.

Section Minimize.
Variable P : gradient_problem.
Variable W : operations P.
Variable Op : lm_options.
Variable cbs : list (callback (point P)).
Notation M := (environment P W []).
Notation mem := (memory (point P)).

Definition finish_mem (r : outcome (result M)) (m : mem) : outcome (result M * mem) :=
  match r with Done r => Done (r, m) | Aborted => Aborted | Looping => Looping end.

(** line_search_minimizer.cc 214-478: lm_loop (LsMinimizerModel.v) with the user's array *)
Fixpoint Loop (fuel ls_fuel : nat) (k : Z) (s : state M) (m : mem) : outcome (result M * mem) :=
  match RunCallbacks cbs (st_iters M s) (st_x M s) m with
  | (SOLVER_TERMINATE_SUCCESSFULLY, m) => finish_mem (finish M USER_SUCCESS s) m
  | (SOLVER_ABORT, m) => finish_mem (finish M USER_FAILURE s) m
  | (SOLVER_CONTINUE, m) =>
    if mo_max_iter Op <=? k then finish_mem (finish M NO_CONVERGENCE s) m
    else if lm_time_up M k then finish_mem (finish M NO_CONVERGENCE s) m
    else
      match fuel with
      | O => Looping
      | S f =>
        let k := k + 1 in
        match choose_direction M Op k s with
        | None => finish_mem (finish M FAILURE s) m
        | Some (d, status, restarts) =>
          let dd := dot (lm_ls M) (st_grad M s) d in
          let step := initial_step M k status s dd in
          if dlt step (Fin 0) then finish_mem (finish M FAILURE s) m
          else
            match search M Op ls_fuel (st_x M s) d (st_cost M s) dd step with
            | Aborted => Aborted
            | Looping => Looping
            | Done r =>
              let tr := st_trace M s ++ map (fun y => (y, true)) (su_points (lm_ls M) r) in
              if negb (su_success (lm_ls M) r) then finish_mem (finish_trace M FAILURE s tr) m
              else
                match fs_vector_x (lm_ls M) (su_optimal (lm_ls M) r) with
                | None => Aborted
                | Some y =>
                  let '(e, tr) := at_optimum M (su_optimal (lm_ls M) r) y tr in
                  match e with
                  | None => finish_mem (finish_trace M FAILURE s tr) m
                  | Some (cost, g) =>
                    match gradient_norm M y g with
                    | None => finish_mem (finish_trace M FAILURE s tr) m
                    | Some gmax =>
                      let it := mkIt k (dadd cost (mo_fixed Op)) (dsub (st_cost M s) cost) gmax
                                     (pdist M y (st_x M s)) (fs_x (lm_ls M) (su_optimal (lm_ls M) r)) in
                      let s' := mkSt M y cost g gmax (st_cost M s) restarts (st_iters M s ++ [it]) tr in
                      if converged Op it (pnorm M (st_x M s)) (st_cost M s) then finish_mem (finish M CONVERGENCE s') m
                      else Loop f ls_fuel k s' m
                    end
                  end
                end
            end
        end
      end
  end.

(** line_search_minimizer.cc 87-214; with summary->initial_cost, which is set at 144 (-1 before, solver.h 839) *)
Definition Minimize (fuel ls_fuel : nat) (x : point P) (m : mem) : outcome (result M * mem) * dbl :=
  match eval (lm_ls M) x true with
  | None => (Done (mkRes M FAILURE x [] [(x, true)], m), dz (-1))
  | Some (cost, g) =>
      match gradient_norm M x g with
      | None => (Done (mkRes M FAILURE x [] [(x, true)], m), dz (-1))
      | Some gmax =>
          (if dle gmax (mo_gtol Op) then Done (mkRes M CONVERGENCE x [] [(x, true)], m)
           else Loop fuel ls_fuel 0
                  (mkSt M x cost g gmax (Fin 0) 0 [mkIt 0 (dadd cost (mo_fixed Op)) (Fin 0) gmax (Fin 0) (Fin 0)] [(x, true)]) m,
           dadd cost (mo_fixed Op))
      end
  end.
End Minimize.

(** gradient_problem_solver.h 258-330 Summary, without times, counters and the copied options *)
Record gsummary := mkGS { g_term : termination; g_initial_cost : dbl; g_final_cost : dbl; g_iterations : list iter }.

(** solver_utils.h 45-60 IsSolutionUsable and SetSummaryFinalCost *)
Definition IsSolutionUsable (t : termination) : bool :=
  match t with CONVERGENCE | NO_CONVERGENCE | USER_SUCCESS => true | FAILURE | USER_FAILURE => false end.
Definition SetSummaryFinalCost (initial : dbl) (its : list iter) : dbl :=
  fold_left (fun final it => dmin (it_cost it) final) its initial.

(** gradient_problem_solver.cc 140-157: each one is inserted at the front *)
Definition callbacks {X} (o : goptions) (users : list (list iter -> X -> cb_status)) : list (callback X) :=
  (if update_state_every_iteration o then [UpdateState] else []) ++
  (if logging o then [Logging] else []) ++ map User users.

(** gradient_problem_solver.cc 100-229 GradientProblemSolver::Solve: the summary and the user's array *)
Definition Solve (b : OptionsModel.build2) (d : OptionsModel.options) (P : gradient_problem) (W : operations P)
  (o : goptions) (users : list (list iter -> point P -> cb_status)) (fuel ls_fuel : nat) (parameters : point P)
  : outcome (gsummary * memory (point P)) :=
  match IsValid b d o with
  | OptionsModel.Fatal => Aborted
  | OptionsModel.Invalid _ => Done (mkGS FAILURE (dz (-1)) (dz (-1)) [], mkMem parameters [])
  | OptionsModel.Valid =>
      let solution := parameters in
      match Minimize P W (MinimizerOptions o) (callbacks o users) fuel ls_fuel solution (mkMem parameters []) with
      | (Aborted, _) => Aborted
      | (Looping, _) => Looping
      | (Done (r, m), initial) =>
          if IsSolutionUsable (r_term _ r)
          then Done (mkGS (r_term _ r) initial (SetSummaryFinalCost initial (r_iters _ r)) (r_iters _ r),
                     mkMem (r_x _ r) (seen m))
          else Done (mkGS (r_term _ r) initial (dz (-1)) (r_iters _ r), m)
      end
  end.
