(** Vocabulary for the statements about the line search minimizer. *)
Require Import List ZArith Bool.
From Verif Require Import Dbl DblArith DblArithProofs2 LineSearchModel LineSearchSpec LsMinimizerModel.
Import ListNotations.
Open Scope Z_scope.

Section Spec.
Variable M : lm_env.
Variable Op : lm_options.
Notation E := (lm_ls M).

(** costs are IEEE doubles and do not depend on whether the gradient is asked for *)
Definition sane_costs : Prop :=
  (forall y g v gr, eval E y g = Some (v, gr) -> dvalid v) /\
  (forall y v gr v' gr', eval E y true = Some (v, gr) -> eval E y false = Some (v', gr') -> v = v').

(** every search direction is a descent direction (or orthogonal to the gradient) with a finite slope *)
Definition descent_slope (a : dbl) : Prop := is_fin a = true /\ dvalid a /\ dle a (Fin 0) = true.
Definition descent_directions : Prop :=
  forall y v g, eval E y true = Some (v, g) -> is_fin v = true ->
    descent_slope (dot E g (neg M g)) /\
    forall k d, next_direction M k g = Some d -> descent_slope (dot E g d).

(** a direction the minimizer can search along: minus a gradient, or what NextDirection made of one *)
Definition usable_direction (d : vec E) : Prop :=
  exists y v g, eval E y true = Some (v, g) /\ is_fin v = true /\
    (d = neg M g \/ exists k, next_direction M k g = Some d).

(** what the line searches need *)
Definition searchable : Prop :=
  good_options (mo_ls Op) /\ poly_min_nonneg E /\
  (forall x d, usable_direction d -> finite_steps_only E x d) /\
  (mo_type Op = WOLFE -> forall d, usable_direction d -> finite_slopes E d).

(** the options Solver::Options::IsValid lets through (solver.cc:337-420) *)
Definition accepted_options : Prop :=
  dlt (Fin 0) (lo_decrease (mo_ls Op)) = true /\ dlt (lo_decrease (mo_ls Op)) (dz 1) = true /\
  0 < lo_max_iter (mo_ls Op) /\
  (mo_type Op = WOLFE -> dlt (lo_decrease (mo_ls Op)) (lo_curvature (mo_ls Op)) = true /\
     dlt (lo_curvature (mo_ls Op)) (dz 1) = true /\ dlt (dz 1) (lo_expansion (mo_ls Op)) = true).

(** the last iteration reports the cost at x *)
Definition reports (its : list iter) (x : pt E) : Prop :=
  exists l it c g, its = l ++ [it] /\ eval E x true = Some (c, g) /\ it_cost it = dadd c (mo_fixed Op).

(** costs never go up from one iteration to the next *)
Definition non_increasing (its : list iter) : Prop :=
  forall l1 a b l2, its = l1 ++ a :: b :: l2 -> dle (it_cost b) (it_cost a) = true.

(** iterations are numbered 0, 1, 2, ... *)
Definition numbered (its : list iter) : Prop :=
  forall i it, nth_error its i = Some it -> it_number it = Z.of_nat i.

(** EvaluationCallback's contract: new_evaluation_point = false only at the point evaluated last *)
Definition callback_contract (tr : list (pt E * bool)) : Prop :=
  forall l1 y l2, tr = l1 ++ (y, false) :: l2 -> exists l0 b, l1 = l0 ++ [(y, b)].
End Spec.
