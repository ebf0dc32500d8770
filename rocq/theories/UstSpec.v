(** Vocabulary for what callbacks find in the parameter blocks (C78). *)
Require Import List ZArith Bool.
From Verif Require Import Dbl DblArith TrustRegionModel UstModel.
Import ListNotations.

Section Spec.
Variable E : tr_env.
(** the manifolds accept the initial values and all points that can be evaluated *)
Definition accepting (p0 : pt E) : Prop := ev_set E p0 = true /\ forall x c j, ev_jac E x = Some (c, j) -> ev_set E x = true.

(** the iterations reported so far that were successful *)
Definition num_successful (its : list iter_summary) : nat := length (filter is_successful its).
(** [p] is the best of the accepted points [acc]: the first one of least cost *)
Definition best_of (p0 : pt E) (acc : list (pt E * dbl)) (p : pt E) : Prop :=
  (p = p0 /\ forall y d, In (y, d) acc -> dlt d DBL_MAX = false) \/
  exists a1 c a2, acc = a1 ++ (p, c) :: a2 /\ dlt c DBL_MAX = true /\
    (forall y d, In (y, d) acc -> dlt d c = false) /\
    (forall y d, In (y, d) a1 -> dlt d DBL_MAX = true -> dlt c d = true).

(** the rounds of callbacks: one per iteration, with all summaries so far *)
Definition rounds (l : list (event E)) : list (list iter_summary) :=
  flat_map (fun e => match e with Called its _ _ => [its] | _ => [] end) l.
Definition evaluated_points (l : list (event E)) : list (pt E * bool) :=
  flat_map (fun e => match e with Evaluated x b => [(x, b)] | _ => [] end) l.
Definition one_per_iteration (its : list iter_summary) (l : list (event E)) : Prop :=
  rounds l = map (fun k => firstn (S k) its) (seq 0 (length its)).
(** [n] callbacks are called: all that come before continue, and it is all of them or the last one does not continue *)
Definition called (users : list (list iter_summary -> pt E -> cb_status)) (its : list iter_summary) (p : pt E) (n : nat) : Prop :=
  (forall k u, (S k < n)%nat -> nth_error users k = Some u -> u its p = SOLVER_CONTINUE) /\
  (n = length users \/ exists k u, n = S k /\ nth_error users k = Some u /\ u its p <> SOLVER_CONTINUE) /\ (n <= length users)%nat.
(** the solution is usable, or not (include/ceres/types.h) *)
Definition went_well (t : termination) : Prop := t = CONVERGENCE \/ t = NO_CONVERGENCE \/ t = USER_SUCCESS.
Definition went_wrong (t : termination) : Prop := t = FAILURE \/ t = USER_FAILURE.
(** the point evaluated last in [l] *)
Definition evaluated_last (l : list (event E)) (p : pt E) : Prop := exists t b, evaluated_points l = t ++ [(p, b)].
End Spec.
