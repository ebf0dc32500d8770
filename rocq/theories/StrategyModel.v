(** The two trust region strategies: how they react to accepted, rejected and
    invalid steps, and what they keep from one step computation to the next.
    Source: internal/ceres/levenberg_marquardt_strategy.{h,cc},
    internal/ceres/dogleg_strategy.{h,cc}.
    Doubles follow IEEE arithmetic operation by operation (DblArith.v).  Sums over
    vectors (column norms, dot products) and the linear solver are arbitrary
    functions.  std::pow(x, 3) is an arbitrary function [pow3]; what a theorem
    needs of it is a hypothesis there.  Not modelled: dumping of problems, logs. *)
Require Import List ZArith Bool.
From Verif Require Import Dbl DblArith TrustRegionModel.
Import ListNotations.
Open Scope Z_scope.

(** linear_solver.h:51-77 LinearSolverTerminationType. *)
Inductive ls_status := LS_SUCCESS | LS_NO_CONVERGENCE | LS_FAILURE | LS_FATAL_ERROR.

(** ** Levenberg-Marquardt *)

(** levenberg_marquardt_strategy.h:74-85, the mutable members.
    [lm_diag] is diagonal_ (diag(J'J), clamped). *)
Record lm := mkLM { lm_radius : dbl; lm_factor : dbl; lm_reuse : bool; lm_diag : list dbl }.

(** TrustRegionStrategy::Options the strategy reads (trust_region_strategy.h:57-78). *)
Record lm_opts := mkLMO { lo_initial : dbl; lo_max : dbl; lo_min_diag : dbl; lo_max_diag : dbl }.

(** levenberg_marquardt_strategy.cc:50-65 constructor; None = a CHECK fails. *)
Definition lm_new (o : lm_opts) : option lm :=
  if dlt (Fin 0) (lo_min_diag o) && dle (lo_min_diag o) (lo_max_diag o) && dlt (Fin 0) (lo_max o)
  then Some (mkLM (lo_initial o) (dz 2) false []) else None.

(** levenberg_marquardt_strategy.cc:84-88: diagonal_ from the squared column
    norms, max(min_diagonal_) then min(max_diagonal_). *)
Definition clamp_diag (o : lm_opts) (n : list dbl) : list dbl :=
  map (fun a => dmin (dmax a (lo_min_diag o)) (lo_max_diag o)) n.

Section LM.
Variable pow3 : dbl -> dbl.

(** levenberg_marquardt_strategy.cc:158-165 StepAccepted; None = the CHECK_GT fails. *)
Definition lm_accepted (o : lm_opts) (q : dbl) (s : lm) : option lm :=
  if dlt (Fin 0) q then
    let r := ddiv (lm_radius s)
               (dmax (dq 1 3) (dsub (dz 1) (pow3 (dsub (dmul (dz 2) q) (dz 1))))) in
    Some (mkLM (dmin (lo_max o) r) (dz 2) false (lm_diag s))
  else None.

(** levenberg_marquardt_strategy.cc:167-171 StepRejected. *)
Definition lm_rejected (s : lm) : lm :=
  mkLM (ddiv (lm_radius s) (lm_factor s)) (dmul (lm_factor s) (dz 2)) true (lm_diag s).

(** levenberg_marquardt_strategy.h:63-69 StepIsInvalid. *)
Definition lm_invalid (s : lm) : lm := lm_rejected s.

(** levenberg_marquardt_strategy.cc:69-156 ComputeStep up to the linear solve:
    the new members and the squares of lm_diagonal_ handed to the linear solver
    (cwiseSqrt is not applied). [colnorm] is J's squared column norms. *)
Definition lm_compute (o : lm_opts) (colnorm : list dbl) (s : lm) : lm * list dbl :=
  let d := if lm_reuse s then lm_diag s else clamp_diag o colnorm in
  (mkLM (lm_radius s) (lm_factor s) true d, map (fun a => ddiv a (lm_radius s)) d).

(** The notifications a minimizer sends. *)
Inductive note := Accepted (q : dbl) | Rejected (q : dbl) | Invalid.

Definition lm_note (o : lm_opts) (e : note) (s : lm) : option lm :=
  match e with
  | Accepted q => lm_accepted o q s
  | Rejected _ => Some (lm_rejected s)
  | Invalid => Some (lm_invalid s)
  end.

(** A history of notifications; None = the process aborted. *)
Fixpoint lm_run (o : lm_opts) (l : list note) (s : lm) : option lm :=
  match l with
  | [] => Some s
  | e :: r => match lm_note o e s with None => None | Some s' => lm_run o r s' end
  end.

(** The minimizer of TrustRegionModel.v running with this strategy.  [colnorm]
    reads the squared column norms off the Jacobian; [solve] is the linear solver
    (with the model cost computation of trust_region_minimizer.cc:398-453): it sees the
    iteration, the Jacobian and the squared regulariser.  The strategy state is
    None once a CHECK has aborted the process.  The calls to ComputeStep are
    observed: Jacobian and regulariser of each, latest first. *)
Record lm_log (J : Type) := mkLog { log_state : option lm; log_calls : list (J * lm * list dbl) }.
Arguments mkLog {J}. Arguments log_state {J}. Arguments log_calls {J}.

Definition with_lm (E : tr_env) (o : lm_opts) (colnorm : jac E -> list dbl)
    (solve : Z -> jac E -> list dbl -> step_result (dlta E)) : tr_env :=
  mkEnv (pt E) (dlta E) (jac E) (lm_log (jac E))
    (ev_set E) (ev_cost E) (ev_jac E) (ev_plus E) (zero_delta E) (neg_gradient E)
    (max_dist E) (dist E) (norm E)
    (fun k j s => match log_state s with
      | None => (s, StepFatal)
      | Some l => let '(l', d) := lm_compute o (colnorm j) l in
          (mkLog (Some l') ((j, l, d) :: log_calls s), solve k j d) end)
    (fun q s => mkLog (match log_state s with None => None | Some l => lm_accepted o q l end) (log_calls s))
    (fun q s => mkLog (match log_state s with None => None | Some l => Some (lm_rejected l) end) (log_calls s))
    (fun s => mkLog (match log_state s with None => None | Some l => Some (lm_invalid l) end) (log_calls s))
    (fun s => match log_state s with None => NaN | Some l => lm_radius l end)
    (line_search E) (inner E) (callbacks E) (time_up E).

End LM.
Arguments mkLog {J}. Arguments log_state {J}. Arguments log_calls {J}.

(** ** Dogleg: the scalar state *)

(** dogleg_strategy.h:99-160 the mutable scalar members. *)
Record dl := mkDL { dl_radius : dbl; dl_mu : dbl; dl_norm : dbl; dl_reuse : bool }.

(** dogleg_strategy.cc:50-51 kMaxMu, kMinMu; 63-65 mu_increase_factor_,
    increase_threshold_, decrease_threshold_. *)
Definition MAX_MU : dbl := dz 1.
Definition MIN_MU : dbl := dq 1 100000000.
Definition MU_FACTOR : dbl := dz 10.
Definition INC_THRESHOLD : dbl := dq 3 4.
Definition DEC_THRESHOLD : dbl := dq 1 4.

(** dogleg_strategy.cc:54-73 constructor. *)
Definition dl_new (o : lm_opts) : option dl :=
  if dlt (Fin 0) (lo_min_diag o) && dle (lo_min_diag o) (lo_max_diag o) && dlt (Fin 0) (lo_max o)
  then Some (mkDL (lo_initial o) MIN_MU (Fin 0) false) else None.

(** dogleg_strategy.cc:618-634 StepAccepted; None = the CHECK_GT fails. *)
Definition dl_accepted (q : dbl) (s : dl) : option dl :=
  if dlt (Fin 0) q then
    let r := if dlt q DEC_THRESHOLD then dmul (dl_radius s) (dq 1 2) else dl_radius s in
    let r := if dlt INC_THRESHOLD q then dmax r (dmul (dz 3) (dl_norm s)) else r in
    Some (mkDL r (dmax MIN_MU (ddiv (dmul (dz 2) (dl_mu s)) MU_FACTOR)) (dl_norm s) false)
  else None.

(** dogleg_strategy.cc:636-639 StepRejected. *)
Definition dl_rejected (s : dl) : dl := mkDL (dmul (dl_radius s) (dq 1 2)) (dl_mu s) (dl_norm s) true.

(** dogleg_strategy.cc:641-644 StepIsInvalid. *)
Definition dl_invalid (s : dl) : dl := mkDL (dl_radius s) (dmul (dl_mu s) MU_FACTOR) (dl_norm s) false.

(** dogleg_strategy.cc:516-616 ComputeGaussNewtonStep, the loop over mu_:
    [try_solve mu] is the outcome of the linear solve with that regularisation,
    a non finite step counting as LS_FAILURE (592-600).  Result: final mu_,
    termination type, the values of mu_ tried.  None = out of fuel. *)
Fixpoint gauss_newton (fuel : nat) (try_solve : dbl -> ls_status) (mu : dbl) (st : ls_status) :
    option (dbl * ls_status * list dbl) :=
  if dlt mu MAX_MU then
    match fuel with
    | O => None
    | S f =>
        match try_solve mu with
        | LS_FAILURE =>
            match gauss_newton f try_solve (dmul mu MU_FACTOR) LS_FAILURE with
            | Some (m, r, l) => Some (m, r, mu :: l)
            | None => None
            end
        | r => Some (mu, r, [mu])
        end
    end
  else Some (mu, st, []).

(** What the traditional dogleg step is, as far as the scalar state sees it
    (dogleg_strategy.cc:201-255): the norm of the Gauss-Newton step, the gradient
    norm times alpha_, and the norm of the interpolated step. *)
Definition dl_step_norm (gn cauchy interp : dbl) (s : dl) : dbl :=
  if dle gn (dl_radius s) then gn
  else if dle (dl_radius s) cauchy then dl_radius s
  else interp.

(** dogleg_strategy.cc:79-167 ComputeStep with TRADITIONAL_DOGLEG, the scalar
    part.  Result: new state, status, the values of mu_ the linear solver was called
    with.  The fuel 20 covers every mu_ >= kMinMu, which always holds (proved). *)
Definition dl_compute (try_solve : dbl -> ls_status) (gn cauchy interp : dbl) (s : dl) :
    option (dl * ls_status * list dbl) :=
  if dl_reuse s then
    Some (mkDL (dl_radius s) (dl_mu s) (dl_step_norm gn cauchy interp s) true, LS_SUCCESS, [])
  else
    match gauss_newton 20 try_solve (dl_mu s) LS_FAILURE with
    | None => None
    | Some (mu, st, tried) =>
        let n := match st with
                 | LS_FATAL_ERROR | LS_FAILURE => dl_norm s
                 | _ => dl_step_norm gn cauchy interp s
                 end in
        Some (mkDL (dl_radius s) mu n true, st, tried)
    end.

(** A history of a dogleg strategy: step computations (with what the linear solver
    and the vector norms turn out to be) and notifications. *)
Inductive dl_op := DCompute (try_solve : dbl -> ls_status) (gn cauchy interp : dbl) | DNote (e : note).

Definition dl_apply (e : dl_op) (s : dl) : option dl :=
  match e with
  | DCompute t gn ca ip => match dl_compute t gn ca ip s with Some (s', _, _) => Some s' | None => None end
  | DNote (Accepted q) => dl_accepted q s
  | DNote (Rejected _) => Some (dl_rejected s)
  | DNote Invalid => Some (dl_invalid s)
  end.

Fixpoint dl_run (l : list dl_op) (s : dl) : option dl :=
  match l with
  | [] => Some s
  | e :: r => match dl_apply e s with None => None | Some s' => dl_run r s' end
  end.
