(** The trust region minimizer loop.
    Source: internal/ceres/trust_region_minimizer.cc (all of it),
    internal/ceres/trust_region_step_evaluator.cc (all of it),
    internal/ceres/minimizer.cc RunCallbacks, internal/ceres/solver_utils.h,
    internal/ceres/solver.cc Minimize.

    Costs, tolerances and radii are doubles with IEEE arithmetic (DblArith.v).
    Everything the loop calls is an arbitrary function (an oracle): evaluator,
    manifold, trust region strategy, projected line search, inner iterations,
    user callbacks and the clock.  Oracles that hold private state or may answer
    differently each time receive the iteration number, and each is asked at
    most once per iteration, so every behaviour of theirs is covered.
    Not modelled: timings in the summaries, log messages, thread counts, and the
    counters num_line_search_steps / num_inner_iteration_steps. *)
Require Import List ZArith Bool.
From Verif Require Import Dbl DblArith.
Import ListNotations.
Open Scope Z_scope.

(** include/ceres/types.h:359-395 TerminationType, the values the minimizer sets. *)
Inductive termination := CONVERGENCE | NO_CONVERGENCE | FAILURE | USER_SUCCESS | USER_FAILURE.

(** include/ceres/types.h:401-415 CallbackReturnType. *)
Inductive cb_status := SOLVER_CONTINUE | SOLVER_ABORT | SOLVER_TERMINATE_SUCCESSFULLY.

(** include/ceres/iteration_callback.h:46-136 IterationSummary (fields the loop uses). *)
Record iter_summary := mkIS {
  is_iteration : Z;
  is_valid : bool;
  is_nonmonotonic : bool;
  is_successful : bool;
  is_cost : dbl;
  is_cost_change : dbl;
  is_gmax : dbl;
  is_step_norm : dbl;
  is_rel : dbl;
  is_radius : dbl }.

(** IterationSummary(): iteration_callback.h:46-136, all zero / false. *)
Definition new_summary (k : Z) : iter_summary :=
  mkIS k false false false (Fin 0) (Fin 0) (Fin 0) (Fin 0) (Fin 0) (Fin 0).

(** What TrustRegionStrategy::ComputeStep produced, together with the
    model_cost_change_ computed from it and the unscaled step (trust_region_minimizer.cc:398-453). *)
Inductive step_result (D : Type) :=
| StepFatal | StepFailure | Step (model_cost_change : dbl) (delta : D).
Arguments StepFatal {D}. Arguments StepFailure {D}. Arguments Step {D}.

(** The oracles. *)
Record tr_env := mkEnv {
  pt : Type;                     (* parameter vectors *)
  dlta : Type;                   (* tangent vectors *)
  jac : Type;                    (* residuals, gradient and Jacobian of one evaluation *)
  strat : Type;                  (* state of the trust region strategy *)
  ev_set : pt -> bool;           (* Program::StateVectorToParameterBlocks succeeds (program_evaluator.h:150) *)
  ev_cost : pt -> option dbl;    (* Evaluator::Evaluate, cost only; None = false *)
  ev_jac : pt -> option (dbl * jac);   (* Evaluator::Evaluate with residuals, gradient, jacobian *)
  ev_plus : pt -> dlta -> bool * pt;   (* Evaluator::Plus: success, and what is left in the output array *)
  zero_delta : dlta;
  neg_gradient : jac -> dlta;
  max_dist : pt -> pt -> dbl;    (* (x - y).lpNorm<Infinity>() *)
  dist : pt -> pt -> dbl;        (* (x - y).norm() *)
  norm : pt -> dbl;              (* x.norm() *)
  st_step : Z -> jac -> strat -> strat * step_result dlta;
  st_accepted : dbl -> strat -> strat;
  st_rejected : dbl -> strat -> strat;
  st_invalid : strat -> strat;
  st_radius : strat -> dbl;
  line_search : Z -> pt -> jac -> dbl -> dlta -> list pt * dlta;  (* points evaluated, scaled step *)
  inner : Z -> pt -> pt;         (* inner_iteration_minimizer->Minimize *)
  callbacks : list (list iter_summary -> pt -> cb_status);  (* called with all summaries so far and the user's parameters *)
  time_up : Z -> bool }.         (* total time >= max_solver_time_in_seconds at this iteration *)

(** Minimizer::Options used by the loop (internal/ceres/minimizer.h:58-181). *)
Record tr_options := mkOpts {
  o_constrained : bool;
  o_line_search : bool;          (* max_num_line_search_step_size_iterations > 0 *)
  o_inner : bool;                (* inner_iteration_minimizer != nullptr *)
  o_inner_tol : dbl;
  o_max_iter : Z;
  o_max_invalid : Z;
  o_gtol : dbl;
  o_ftol : dbl;
  o_ptol : dbl;
  o_min_radius : dbl;
  o_min_rel : dbl;
  o_nonmono : bool;
  o_max_nonmono : Z;
  o_fixed : dbl }.               (* solver_summary->fixed_cost *)

(** *** TrustRegionStepEvaluator *)
(** trust_region_step_evaluator.h:101-122 members. *)
Record step_ev := mkSE {
  se_max : Z; se_min : dbl; se_cur : dbl; se_ref : dbl; se_cand : dbl;
  se_acc_ref : dbl; se_acc_cand : dbl; se_num : Z }.

(** trust_region_step_evaluator.cc:38-47 constructor. *)
Definition se_new (initial : dbl) (m : Z) : step_ev :=
  mkSE m initial initial initial initial (Fin 0) (Fin 0) 0.

(** trust_region_step_evaluator.cc:49-65 StepQuality. *)
Definition step_quality (e : step_ev) (cost mcc : dbl) : dbl :=
  if dle DBL_MAX cost then DBL_LOWEST
  else dmax (ddiv (dsub (se_cur e) cost) mcc)
            (ddiv (dsub (se_ref e) cost) (dadd (se_acc_ref e) mcc)).

(** trust_region_step_evaluator.cc:67-109 StepAccepted. *)
Definition se_accept (e : step_ev) (cost mcc : dbl) : step_ev :=
  let acc_cand := dadd (se_acc_cand e) mcc in
  let acc_ref := dadd (se_acc_ref e) mcc in
  let '(mn, num, cand, acc_cand) :=
    if dlt cost (se_min e) then (cost, 0, cost, Fin 0)
    else if dlt (se_cand e) cost then (se_min e, se_num e + 1, cost, Fin 0)
    else (se_min e, se_num e + 1, se_cand e, acc_cand) in
  if num =? se_max e then mkSE (se_max e) mn cost cand cand acc_cand acc_cand num
  else mkSE (se_max e) mn cost (se_ref e) cand acc_ref acc_cand num.

Section TR.
Variable E : tr_env.
Variable Op : tr_options.

(** Members of TrustRegionMinimizer that the loop reads or writes
    (trust_region_minimizer.h:86-160), the parts of Solver::Summary it fills, and
    two observers that no step reads: [s_accepted], the points at which an
    iteration was finalised as successful with the cost evaluated there, and
    [s_trace], the calls EvaluationCallback::PrepareForEvaluation receives (point,
    new_evaluation_point). *)
Record state := mkSt {
  s_x : pt E; s_xcost : dbl; s_jac : jac E; s_min : dbl;
  s_cand : pt E; s_candcost : dbl; s_mcc : dbl; s_strat : strat E; s_se : step_ev;
  s_cur : iter_summary; s_invalid : Z; s_inner_on : bool; s_inner_useful : bool;
  s_once : bool;                 (* atleast_one_successful_step *)
  s_params : pt E; s_iters : list iter_summary; s_succ : Z; s_unsucc : Z; s_term : termination;
  s_accepted : list (pt E * dbl); s_trace : list (pt E * bool) }.

(** ProgramEvaluator::Evaluate calls PrepareForEvaluation once the state has been
    copied to the parameter blocks (program_evaluator.h:137-160). *)
Definition prepare (x : pt E) (new_point : bool) (t : list (pt E * bool)) :=
  if ev_set E x then t ++ [(x, new_point)] else t.

(** trust_region_minimizer.cc:246-304 EvaluateGradientAndJacobian at [x]:
    cost, Jacobian data and gradient max norm, or failure. *)
Definition evaluate_gradient (x : pt E) : option (dbl * jac E * dbl) :=
  match ev_jac E x with
  | None => None
  | Some (c, j) =>
      match ev_plus E x (neg_gradient E j) with
      | (false, _) => None
      | (true, y) => Some (c, j, max_dist E x y)
      end
  end.

(** minimizer.cc:57-89 RunCallbacks. *)
Fixpoint run_callbacks (cbs : list (list iter_summary -> pt E -> cb_status))
    (its : list iter_summary) (p : pt E) : cb_status :=
  match cbs with
  | [] => SOLVER_CONTINUE
  | c :: r => match c its p with SOLVER_CONTINUE => run_callbacks r its p | st => st end
  end.

(** trust_region_minimizer.cc:688-704 GradientToleranceReached. *)
Definition gradient_tolerance_reached (i : iter_summary) : bool :=
  negb (negb (is_successful i) || dlt (o_gtol Op) (is_gmax i)).
(** trust_region_minimizer.cc:707-723 MinTrustRegionRadiusReached. *)
Definition min_radius_reached (i : iter_summary) : bool := negb (dlt (o_min_radius Op) (is_radius i)).

Definition set_term (s : state) (t : termination) : state :=
  mkSt (s_x s) (s_xcost s) (s_jac s) (s_min s) (s_cand s) (s_candcost s) (s_mcc s) (s_strat s) (s_se s)
    (s_cur s) (s_invalid s) (s_inner_on s) (s_inner_useful s) (s_once s)
    (s_params s) (s_iters s) (s_succ s) (s_unsucc s) t (s_accepted s) (s_trace s).

(** trust_region_minimizer.cc:316-338: the bookkeeping part of
    FinalizeIterationAndCheckIfMinimizerCanContinue. *)
Definition finalize_book (s : state) : state :=
  let i := s_cur s in
  let better := dlt (s_xcost s) (s_min s) in
  let ok := is_successful i in
  let i' := mkIS (is_iteration i) (is_valid i) (if ok then negb better else is_nonmonotonic i) ok (is_cost i)
              (is_cost_change i) (is_gmax i) (is_step_norm i) (is_rel i) (st_radius E (s_strat s)) in
  mkSt (s_x s) (s_xcost s) (s_jac s) (if ok && better then s_xcost s else s_min s)
    (s_cand s) (s_candcost s) (s_mcc s) (s_strat s) (s_se s)
    i' (s_invalid s) (s_inner_on s) (s_inner_useful s) (s_once s)
    (if ok && better then s_x s else s_params s) (s_iters s ++ [i'])
    (if ok then s_succ s + 1 else s_succ s) (if ok then s_unsucc s else s_unsucc s + 1)
    (s_term s) (if ok then s_accepted s ++ [(s_x s, s_xcost s)] else s_accepted s) (s_trace s).

(** trust_region_minimizer.cc:340-361: callbacks and termination tests. *)
Definition finalize (s0 : state) : state * bool :=
  let s := finalize_book s0 in
  let i := s_cur s in
  match run_callbacks (callbacks E) (s_iters s) (s_params s) with
  | SOLVER_TERMINATE_SUCCESSFULLY => (set_term s USER_SUCCESS, false)
  | SOLVER_ABORT => (set_term s USER_FAILURE, false)
  | SOLVER_CONTINUE =>
      if time_up E (is_iteration i) then (set_term s NO_CONVERGENCE, false)
      else if negb (is_iteration i <? o_max_iter Op) then (set_term s NO_CONVERGENCE, false)
      else if gradient_tolerance_reached i then (set_term s CONVERGENCE, false)
      else if min_radius_reached i then (set_term s CONVERGENCE, false)
      else (s, true)
  end.

(** trust_region_minimizer.cc:781-799 ComputeCandidatePointAndEvaluateCost:
    candidate point, candidate cost, and the evaluation calls made. *)
Definition compute_candidate (x : pt E) (d : dlta E) (t : list (pt E * bool)) :
    pt E * dbl * list (pt E * bool) :=
  match ev_plus E x d with
  | (false, y) => (y, DBL_MAX, t)
  | (true, y) =>
      (y, match ev_cost E y with Some c => c | None => DBL_MAX end, prepare y true t)
  end.

(** trust_region_minimizer.cc:509-587 DoInnerIterationsIfNeeded:
    candidate, cost, model_cost_change_, enabled, useful.  The inner minimizer's
    own evaluations use other evaluators and are not in the trace (a problem with
    an EvaluationCallback and inner iterations is refused,
    trust_region_preprocessor.cc:298-301). *)
Definition do_inner (k : Z) (xcost : dbl) (on : bool) (y : pt E) (c mcc : dbl) (t : list (pt E * bool)) :
    pt E * dbl * dbl * bool * bool * list (pt E * bool) :=
  if negb on || dle DBL_MAX c then (y, c, mcc, on, false, t)
  else
    let z := inner E k y in
    match ev_cost E z with
    | None => (y, c, mcc, on, false, prepare z true t)
    | Some ic =>
        (z, ic, dadd mcc (dsub c ic),
         dlt (o_inner_tol Op) (dsub (dz 1) (ddiv ic c)),
         dlt ic (dmin xcost c), prepare z true t)
    end.

(** trust_region_minimizer.cc:726-748 ParameterToleranceReached. *)
Definition parameter_tolerance_reached (x y : pt E) : bool :=
  negb (dlt (dmul (o_ptol Op) (dadd (norm E x) (o_ptol Op))) (dist E x y)).
(** trust_region_minimizer.cc:751-770 FunctionToleranceReached. *)
Definition function_tolerance_reached (xcost c : dbl) : bool :=
  negb (dlt (dmul (o_ftol Op) xcost) (dabs (dsub xcost c))).

(** trust_region_minimizer.cc:87-135, one pass of the loop body; the flag is
    false when Minimize returns. *)
Definition body (s : state) : state * bool :=
  let prev := s_cur s in
  let k := is_iteration (last (s_iters s) prev) + 1 in
  let '(st1, r) := st_step E k (s_jac s) (s_strat s) in
  let invalid_step (mcc : dbl) :=
    (* HandleInvalidStep, trust_region_minimizer.cc:467-500 *)
    let n := s_invalid s + 1 in
    let fail := o_max_invalid Op <=? n in
    let i := mkIS k false false false
               (if fail then Fin 0 else dadd (s_xcost s) (o_fixed Op)) (Fin 0)
               (if fail then Fin 0 else is_gmax (last (s_iters s) prev)) (Fin 0) (Fin 0) (Fin 0) in
    (mkSt (s_x s) (s_xcost s) (s_jac s) (s_min s) (s_cand s) (s_candcost s) mcc
       (if fail then st1 else st_invalid E st1) (s_se s) i n (s_inner_on s) (s_inner_useful s) (s_once s)
       (s_params s) (s_iters s) (s_succ s) (s_unsucc s)
       (if fail then FAILURE else s_term s) (s_accepted s) (s_trace s), negb fail) in
  match r with
  | StepFatal =>
      (mkSt (s_x s) (s_xcost s) (s_jac s) (s_min s) (s_cand s) (s_candcost s) (s_mcc s) st1 (s_se s)
         (new_summary k) (s_invalid s) (s_inner_on s) (s_inner_useful s) (s_once s)
         (s_params s) (s_iters s) (s_succ s) (s_unsucc s) FAILURE (s_accepted s) (s_trace s), false)
  | StepFailure => invalid_step (s_mcc s)
  | Step mcc d =>
      if negb (dlt (Fin 0) mcc) then invalid_step mcc
      else
        let '(visited, d) :=
          if o_constrained Op && o_line_search Op
          then line_search E k (s_x s) (s_jac s) (s_xcost s) d else ([], d) in
        let t0 := fold_left (fun t z => prepare z true t) visited (s_trace s) in
        let '(y, c, t1) := compute_candidate (s_x s) d t0 in
        let '(y, c, mcc, on, useful, t2) := do_inner k (s_xcost s) (s_inner_on s) y c mcc t1 in
        let mk x xc j cc st se i once term t :=
          mkSt x xc j (s_min s) y cc mcc st se i 0 on useful once
            (s_params s) (s_iters s) (s_succ s) (s_unsucc s) term (s_accepted s) t in
        let summary ok cost gmax sn rel :=
          mkIS k true false ok cost (dsub (s_xcost s) c) gmax sn rel (Fin 0) in
        let sn := if s_once s then dist E (s_x s) y else Fin 0 in
        if s_once s && parameter_tolerance_reached (s_x s) y then
          (mk (s_x s) (s_xcost s) (s_jac s) c st1 (s_se s) (summary false (Fin 0) (Fin 0) sn (Fin 0))
              (s_once s) CONVERGENCE t2, false)
        else if function_tolerance_reached (s_xcost s) c then
          (mk (s_x s) (s_xcost s) (s_jac s) c st1 (s_se s) (summary false (Fin 0) (Fin 0) sn (Fin 0))
              (s_once s) CONVERGENCE t2, false)
        else
          let q := step_quality (s_se s) c mcc in
          if useful || dlt (o_min_rel Op) q then
            (* HandleSuccessfulStep, trust_region_minimizer.cc:832-845 *)
            match evaluate_gradient y with
            | None =>
                (mk y (s_xcost s) (s_jac s) c st1 (s_se s) (summary false (Fin 0) (Fin 0) sn q)
                    true FAILURE (prepare y false t2), false)
            | Some (xc, j, g) =>
                (mk y xc j c (st_accepted E q st1) (se_accept (s_se s) c mcc)
                    (summary true (dadd xc (o_fixed Op)) g sn q) true (s_term s) (prepare y false t2), true)
            end
          else
            (mk (s_x s) (s_xcost s) (s_jac s) c (st_rejected E q st1) (s_se s)
                (summary false (dadd c (o_fixed Op)) (is_gmax prev) sn q) (s_once s) (s_term s) t2, true)
  end.

(** trust_region_minimizer.cc:86-136, the loop; None = out of fuel. *)
Fixpoint loop (fuel : nat) (s : state) : option state :=
  let '(s1, go) := finalize s in
  if go then
    match fuel with
    | O => None
    | S f => let '(s2, go2) := body s1 in if go2 then loop f s2 else Some s2
    end
  else Some s1.

(** Everything a caller of Minimize can observe. *)
Record result := mkRes {
  r_params : pt E; r_term : termination; r_iters : list iter_summary;
  r_succ : Z; r_unsucc : Z; r_initial_cost : option dbl;
  r_accepted : list (pt E * dbl); r_trace : list (pt E * bool) }.

Definition of_state (ic : dbl) (s : state) : result :=
  mkRes (s_params s) (s_term s) (s_iters s) (s_succ s) (s_unsucc s) (Some ic) (s_accepted s) (s_trace s).

(** trust_region_minimizer.cc:196-232 IterationZero, from the state set up by
    Init (141-190): the starting point (projected if constrained) and its
    evaluation, or the reason to stop. *)
Definition start_point (p0 : pt E) : option (pt E) :=
  if o_constrained Op then
    match ev_plus E p0 (zero_delta E) with (true, y) => Some y | (false, _) => None end
  else Some p0.

Definition start_state (st : strat E) (p0 x : pt E) (c : dbl) (j : jac E) (g : dbl) : state :=
  mkSt x c j DBL_MAX x (Fin 0) (Fin 0) st
    (se_new c (if o_nonmono Op then o_max_nonmono Op else 0))
    (mkIS 0 true false true (dadd c (o_fixed Op)) (Fin 0) g (Fin 0) (Fin 0) (Fin 0))
    0 (o_inner Op) false false p0 [] 0 0 NO_CONVERGENCE [] (prepare x true []).

(** trust_region_minimizer.cc:68-137 Minimize.  [fuel] bounds the number of
    passes of the loop; [minimize] below gives it max_num_iterations, which is
    proved to be enough. *)
Definition minimize_fuel (fuel : nat) (st : strat E) (p0 : pt E) : option result :=
  match start_point p0 with
  | None => Some (mkRes p0 FAILURE [] 0 0 None [] [])
  | Some x =>
      match evaluate_gradient x with
      | None => Some (mkRes p0 FAILURE [] 0 0 None [] (prepare x true []))
      | Some (c, j, g) =>
          match loop fuel (start_state st p0 x c j g) with
          | None => None
          | Some s => Some (of_state (dadd c (o_fixed Op)) s)
          end
      end
  end.

Definition minimize (st : strat E) (p0 : pt E) : option result :=
  minimize_fuel (Z.to_nat (o_max_iter Op)) st p0.

End TR.

(** solver_utils.h:44-49 IsSolutionUsable. *)
Definition usable (t : termination) : bool :=
  match t with CONVERGENCE | NO_CONVERGENCE | USER_SUCCESS => true | _ => false end.

(** solver_utils.h:51-60 SetSummaryFinalCost. *)
Definition final_cost (initial : dbl) (its : list iter_summary) : dbl :=
  fold_left (fun acc i => dmin (is_cost i) acc) its initial.

(** solver.cc:664-672: what is written back to the user. *)
Definition solve_params {E} (p0 : pt E) (r : result E) : pt E :=
  if usable (r_term E r) then r_params E r else p0.
