(** The user's parameter blocks during a trust region solve.
    Source: internal/ceres/callbacks.cc 43-53 (StateUpdatingCallback), preprocessor.cc 76-107, minimizer.cc 57-89,
    trust_region_minimizer.cc 309-361, program_evaluator.h 137-160, solver.cc 646-673.

    The passes of the loop are those of TrustRegionModel.v ([body], [finalize_book]).  Here the memory of the user is
    added: the state updating callback writes it, evaluations write it if the problem has an EvaluationCallback, the user's
    iteration callbacks read it.  Callbacks that write to the parameter blocks are not modelled.  If a manifold rejects a
    state (PlusJacobian returns false) the blocks hold a mixture, which is the arbitrary function [garble]. *)
Require Import List ZArith Bool.
From Verif Require Import Dbl DblArith TrustRegionModel.
Import ListNotations.
Open Scope Z_scope.

Section M.
Variable E : tr_env.
Variable Op : tr_options.
Variable update : bool.        (* Solver::Options::update_state_every_iteration *)
Variable ecb : bool.           (* the problem has an EvaluationCallback *)
Variable users : list (list iter_summary -> pt E -> cb_status).   (* Solver::Options::callbacks: summaries so far, parameter blocks *)
Variable garble : pt E -> pt E -> pt E.

(** what happens: an evaluation (the point, new_evaluation_point), or a round of callbacks (the summaries, the parameter blocks and
    the number of user callbacks called) *)
Inductive event := Evaluated (x : pt E) (new_point : bool) | Called (its : list iter_summary) (p : pt E) (n : nat).
(** the parameter blocks, and what has happened *)
Record smem := mkMem { user : pt E; events : list event }.

(** minimizer.cc 60-66; preprocessor.cc puts the logging and the state updating callback, which always continue, in front *)
Fixpoint call_users (us : list (list iter_summary -> pt E -> cb_status)) (its : list iter_summary) (p : pt E) : cb_status * nat :=
  match us with
  | [] => (SOLVER_CONTINUE, 0%nat)
  | u :: rest =>
      match u its p with
      | SOLVER_CONTINUE => let '(st, n) := call_users rest its p in (st, S n)
      | st => (st, 1%nat)
      end
  end.

(** StateVectorToParameterBlocks and CopyParameterBlockStateToUserState (callbacks.cc 50-51, solver.cc 669-672) *)
Definition write_state (p : pt E) (u : pt E) : pt E := if ev_set E p then p else garble p u.
(** preprocessor.cc 99-106 *)
Definition StateUpdatingCallback (p : pt E) (u : pt E) : pt E := if update then write_state p u else u.
Definition RunCallbacks (its : list iter_summary) (p : pt E) (m : smem) : cb_status * smem :=
  let u := StateUpdatingCallback p (user m) in
  let '(st, n) := call_users users its u in
  (st, mkMem u (events m ++ [Called its u n])).

(** program_evaluator.h 150-160: every evaluation that gets that far copies its state to the user before the
    EvaluationCallback is called; [old], [new]: the evaluations before and after *)
Definition evaluations (old new : list (pt E * bool)) (m : smem) : smem :=
  let l := skipn (length old) new in
  mkMem (if ecb then fold_left (fun _ e => fst e) l (user m) else user m)
    (events m ++ map (fun e => Evaluated (fst e) (snd e)) l).

(** trust_region_minimizer.cc 316-361 FinalizeIterationAndCheckIfMinimizerCanContinue *)
Definition mfinalize (s0 : state E) (m0 : smem) : state E * smem * bool :=
  let s := finalize_book E s0 in
  let i := s_cur E s in
  let '(st, m) := RunCallbacks (s_iters E s) (s_params E s) m0 in
  match st with
  | SOLVER_TERMINATE_SUCCESSFULLY => (set_term E s USER_SUCCESS, m, false)
  | SOLVER_ABORT => (set_term E s USER_FAILURE, m, false)
  | SOLVER_CONTINUE =>
      if time_up E (is_iteration i) then (set_term E s NO_CONVERGENCE, m, false)
      else if negb (is_iteration i <? o_max_iter Op) then (set_term E s NO_CONVERGENCE, m, false)
      else if gradient_tolerance_reached Op i then (set_term E s CONVERGENCE, m, false)
      else if min_radius_reached Op i then (set_term E s CONVERGENCE, m, false)
      else (s, m, true)
  end.
(** 86-136 *)
Fixpoint mloop (fuel : nat) (s : state E) (m : smem) : option (state E * smem) :=
  let '(s1, m1, go) := mfinalize s m in
  if go then
    match fuel with
    | O => None
    | S f =>
        let '(s2, go2) := body E Op s1 in
        let m2 := evaluations (s_trace E s1) (s_trace E s2) m1 in
        if go2 then mloop f s2 m2 else Some (s2, m2)
    end
  else Some (s1, m1).
(** 68-137 Minimize *)
Definition Minimize (fuel : nat) (st : strat E) (p0 : pt E) (m : smem) : option (result E * smem) :=
  match start_point E Op p0 with
  | None => Some (mkRes E p0 FAILURE [] 0 0 None [] [], m)
  | Some x =>
      let t := prepare E x true [] in
      let m := evaluations [] t m in
      match evaluate_gradient E x with
      | None => Some (mkRes E p0 FAILURE [] 0 0 None [] t, m)
      | Some (c, j, g) =>
          match mloop fuel (start_state E Op st p0 x c j g) m with
          | None => None
          | Some (s, m) => Some (of_state E (dadd c (o_fixed Op)) s, m)
          end
      end
  end.
(** solver.cc 664-672, for a problem with variable parameter blocks; the parameter blocks hold [p0] before *)
Definition Solve (fuel : nat) (st : strat E) (p0 : pt E) : option (result E * smem) :=
  match Minimize fuel st p0 (mkMem p0 []) with
  | None => None
  | Some (r, m) => Some (r, mkMem (write_state (if usable (r_term E r) then r_params E r else p0) (user m)) (events m))
  end.
End M.
Arguments Evaluated {E}. Arguments Called {E}.
