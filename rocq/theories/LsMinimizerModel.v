(** LineSearchMinimizer::Minimize.
    Source: internal/ceres/line_search_minimizer.cc 65-479, internal/ceres/minimizer.cc
    RunCallbacks.

    The line searches are those of LineSearchModel.v.  The evaluator, the manifold, the
    direction (LineSearchDirection::NextDirection), the user's callbacks and the clock are
    arbitrary functions; the direction, which keeps private state, receives the iteration
    number and is asked at most once per iteration, so every behaviour of it is covered.
    Not modelled: timings, log messages, the counters num_line_search_steps etc., and
    gradient_norm (recorded but never read). *)
Require Import List ZArith Bool.
From Verif Require Import Dbl DblArith LineSearchModel.
Import ListNotations.
Open Scope Z_scope.

(** types.h TerminationType and CallbackReturnType *)
Inductive termination := CONVERGENCE | NO_CONVERGENCE | FAILURE | USER_SUCCESS | USER_FAILURE.
Inductive cb_status := SOLVER_CONTINUE | SOLVER_ABORT | SOLVER_TERMINATE_SUCCESSFULLY.
Inductive ls_type := ARMIJO | WOLFE.

(** iteration_callback.h IterationSummary, the fields the loop fills *)
Record iter := mkIt {
  it_number : Z; it_cost : dbl; it_cost_change : dbl; it_gmax : dbl; it_step_norm : dbl; it_step_size : dbl }.

Record lm_env := mkLM {
  lm_ls : ls_env;
  neg : vec lm_ls -> vec lm_ls;
  pmax_dist : pt lm_ls -> pt lm_ls -> dbl;   (* (x - y).lpNorm<Infinity>() *)
  pdist : pt lm_ls -> pt lm_ls -> dbl;       (* (x - y).norm() *)
  pnorm : pt lm_ls -> dbl;                   (* x.norm() *)
  next_direction : Z -> vec lm_ls -> option (vec lm_ls);  (* iteration, current gradient; None = false *)
  lm_callbacks : list (list iter -> pt lm_ls -> cb_status);
  lm_time_up : Z -> bool }.

(** minimizer.h Minimizer::Options, what the loop reads *)
Record lm_options := mkLMO {
  mo_type : ls_type;
  mo_ls : ls_options;
  mo_max_iter : Z;
  mo_max_restarts : Z;
  mo_gtol : dbl; mo_ftol : dbl; mo_ptol : dbl;
  mo_fixed : dbl }.

Section LM.
Variable M : lm_env.
Variable Op : lm_options.
Notation E := (lm_ls M).

(** line_search_minimizer.cc:67-83 EvaluateGradientNorms: gradient_max_norm *)
Definition gradient_norm (x : pt E) (g : vec E) : option dbl :=
  match plus E x (neg M g) with
  | None => None
  | Some y => Some (pmax_dist M x y)
  end.

(** current_state and previous_state.cost, x, and what has been reported; [st_trace] observes the
    evaluator calls (point, new_evaluation_point) *)
Record state := mkSt {
  st_x : pt E; st_cost : dbl; st_grad : vec E; st_gmax : dbl; st_prev_cost : dbl;
  st_restarts : Z; st_iters : list iter; st_trace : list (pt E * bool) }.
(** termination type, x, iterations, trace *)
Record result := mkRes { r_term : termination; r_x : pt E; r_iters : list iter; r_trace : list (pt E * bool) }.
Definition finish (t : termination) (s : state) : outcome result :=
  Done (mkRes t (st_x s) (st_iters s) (st_trace s)).
Definition finish_trace (t : termination) (s : state) (tr : list (pt E * bool)) : outcome result :=
  Done (mkRes t (st_x s) (st_iters s) tr).

(** minimizer.cc:57-89 RunCallbacks *)
Fixpoint run_callbacks (cbs : list (list iter -> pt E -> cb_status)) (its : list iter) (x : pt E) : cb_status :=
  match cbs with
  | [] => SOLVER_CONTINUE
  | c :: r => match c its x with SOLVER_CONTINUE => run_callbacks r its x | st => st end
  end.

(** LineSearch::Search (line_search.cc:187-205), whose DoSearch is that of the chosen type *)
Definition search (ls_fuel : nat) (x : pt E) (d : vec E) (cost dd step : dbl) : outcome (summary E) :=
  match mo_type Op with
  | ARMIJO => armijo_search E (mo_ls Op) x d cost dd ls_fuel step
  | WOLFE => wolfe_search E (mo_ls Op) x d cost dd ls_fuel step
  end.

(** line_search_minimizer.cc:247-290: the search direction, whether NextDirection succeeded, the
    number of restarts; None = too many restarts *)
Definition choose_direction (k : Z) (s : state) : option (vec E * bool * Z) :=
  if k =? 1 then Some (neg M (st_grad s), true, st_restarts s)
  else match next_direction M k (st_grad s) with
       | Some d => Some (d, true, st_restarts s)
       | None => if mo_max_restarts Op <=? st_restarts s then None
                 else Some (neg M (st_grad s), false, st_restarts s + 1)
       end.

(** line_search_minimizer.cc:302-307 *)
Definition initial_step (k : Z) (status : bool) (s : state) (dd : dbl) : dbl :=
  if (k =? 1) || negb status then dmin (dz 1) (ddiv (dz 1) (st_gmax s))
  else dmin (dz 1) (ddiv (dmul (dz 2) (dsub (st_cost s) (st_prev_cost s))) dd).

(** line_search_minimizer.cc:434-477: the tests after a successful step *)
Definition converged (it : iter) (x_norm prev_cost : dbl) : bool :=
  dle (it_step_norm it) (dmul (mo_ptol Op) (dadd x_norm (mo_ptol Op)))
  || dle (it_gmax it) (mo_gtol Op)
  || dle (dabs (it_cost_change it)) (dmul (mo_ftol Op) (dabs prev_cost)).

(** line_search_minimizer.cc:346-373: cost and gradient at the point found, and the trace.
    None = evaluation failed *)
Definition at_optimum (o : sample E) (y : pt E) (tr : list (pt E * bool)) : option (dbl * vec E) * list (pt E * bool) :=
  match fs_vector_gradient E o with
  | Some g => (Some (fs_value E o, g), tr)
  | None => (eval E y true, tr ++ [(y, false)])
  end.

(** line_search_minimizer.cc:214-478, the loop; [k] is iteration_summary.iteration *)
Fixpoint lm_loop (fuel ls_fuel : nat) (k : Z) (s : state) : outcome result :=
  match run_callbacks (lm_callbacks M) (st_iters s) (st_x s) with
  | SOLVER_TERMINATE_SUCCESSFULLY => finish USER_SUCCESS s
  | SOLVER_ABORT => finish USER_FAILURE s
  | SOLVER_CONTINUE =>
    if mo_max_iter Op <=? k then finish NO_CONVERGENCE s
    else if lm_time_up M k then finish NO_CONVERGENCE s
    else
      match fuel with
      | O => Looping
      | S f =>
        let k := k + 1 in
        match choose_direction k s with
        | None => finish FAILURE s
        | Some (d, status, restarts) =>
          let dd := dot E (st_grad s) d in
          let step := initial_step k status s dd in
          if dlt step (Fin 0) then finish FAILURE s
          else
            match search ls_fuel (st_x s) d (st_cost s) dd step with
            | Aborted => Aborted
            | Looping => Looping
            | Done r =>
              let tr := st_trace s ++ map (fun y => (y, true)) (su_points E r) in
              if negb (su_success E r) then finish_trace FAILURE s tr
              else
                match fs_vector_x E (su_optimal E r) with
                | None => Aborted
                | Some y =>
                  let '(e, tr) := at_optimum (su_optimal E r) y tr in
                  match e with
                  | None => finish_trace FAILURE s tr
                  | Some (cost, g) =>
                    match gradient_norm y g with
                    | None => finish_trace FAILURE s tr
                    | Some gmax =>
                      let it := mkIt k (dadd cost (mo_fixed Op)) (dsub (st_cost s) cost) gmax
                                     (pdist M y (st_x s)) (fs_x E (su_optimal E r)) in
                      let s' := mkSt y cost g gmax (st_cost s) restarts (st_iters s ++ [it]) tr in
                      if converged it (pnorm M (st_x s)) (st_cost s) then finish CONVERGENCE s'
                      else lm_loop f ls_fuel k s'
                    end
                  end
                end
            end
        end
      end
  end.

(** line_search_minimizer.cc:87-214: initial evaluation, then the loop.  On the early returns
    summary->iterations is empty. *)
Definition minimize (fuel ls_fuel : nat) (x : pt E) : outcome result :=
  match eval E x true with
  | None => Done (mkRes FAILURE x [] [(x, true)])
  | Some (cost, g) =>
      match gradient_norm x g with
      | None => Done (mkRes FAILURE x [] [(x, true)])
      | Some gmax =>
          if dle gmax (mo_gtol Op) then Done (mkRes CONVERGENCE x [] [(x, true)])
          else lm_loop fuel ls_fuel 0
                 (mkSt x cost g gmax (Fin 0) 0 [mkIt 0 (dadd cost (mo_fixed Op)) (Fin 0) gmax (Fin 0) (Fin 0)] [(x, true)])
      end
  end.
End LM.
