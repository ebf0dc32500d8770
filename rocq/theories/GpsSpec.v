(** Vocabulary for the statements about GradientProblemSolver (C76). *)
Require Import List ZArith Bool.
From Verif Require Import Dbl DblArith DblArithProofs2 LineSearchModel LineSearchSpec LsMinimizerModel LsMinimizerSpec GpsModel.
From Verif Require EnumModel.
Import ListNotations.
Open Scope Z_scope.

(** ** the documented rules (gradient_problem_solver.h) *)
Definition ONE : dbl := Fin (2 ^ 1074).
Definition lt (a b : dbl) : Prop := dlt a b = true.
Definition le (a b : dbl) : Prop := dle a b = true.
Definition rules (o : goptions) : list Prop :=
  [ 0 <= max_num_iterations o;
    le (Fin 0) (max_solver_time_in_seconds o);
    le (Fin 0) (function_tolerance o);
    le (Fin 0) (gradient_tolerance o);
    le (Fin 0) (parameter_tolerance o);
    0 < max_lbfgs_rank o;
    lt (Fin 0) (min_line_search_step_size o);
    lt (Fin 0) (max_line_search_step_contraction o);
    lt (max_line_search_step_contraction o) ONE;
    lt (max_line_search_step_contraction o) (min_line_search_step_contraction o);
    le (min_line_search_step_contraction o) ONE;
    1 <= max_num_line_search_step_size_iterations o;
    lt (Fin 0) (line_search_sufficient_function_decrease o);
    lt (line_search_sufficient_function_decrease o) (line_search_sufficient_curvature_decrease o);
    lt (line_search_sufficient_curvature_decrease o) ONE;
    lt ONE (max_line_search_step_expansion o);
    line_search_direction_type o = EnumModel.BFGS \/ line_search_direction_type o = EnumModel.LBFGS ->
      line_search_type o = EnumModel.WOLFE ].
Definition all_hold (l : list Prop) : Prop := forall p, In p l -> p.

(** ** the objective *)
(** the function gives doubles, and the same cost whether or not the gradient is asked for *)
Definition sane_function (P : gradient_problem) : Prop :=
  (forall x b c g, fn P x b = Some (c, g) -> dvalid c) /\
  (forall x c g c' g', fn P x true = Some (c, g) -> fn P x false = Some (c', g') -> c = c').
(** the cost at x is c *)
Definition cost_at (P : gradient_problem) (x : point P) (c : dbl) : Prop := exists g, fn P x true = Some (c, g).
(** if there is a cost at the initial parameters, it is finite *)
Definition finite_start (P : gradient_problem) (x0 : point P) : Prop :=
  forall c, cost_at P x0 c -> is_fin c = true.

(** x is the iterate of the last reported iteration: its cost is the one reported; before anything is
    reported it is the starting point *)
Definition last_iterate (P : gradient_problem) (x0 : point P) (its : list iter) (x : point P) : Prop :=
  (its = [] /\ x = x0) \/ exists l it, its = l ++ [it] /\ cost_at P x (it_cost it).

(** the search directions descend, and the line searches have what they need *)
Definition good_directions (P : gradient_problem) (W : operations P) (o : goptions) : Prop :=
  descent_directions (environment P W []) /\ searchable (environment P W []) (MinimizerOptions o).
(** how a run can end *)
Definition went_well (t : termination) : Prop := t = CONVERGENCE \/ t = NO_CONVERGENCE \/ t = USER_SUCCESS.
Definition went_wrong (t : termination) : Prop := t = FAILURE \/ t = USER_FAILURE.
