(** GradientProblem::Evaluate with real numbers, on top of the manifolds of ManifoldModel.v.
    Source: internal/ceres/gradient_problem.cc 40-86.  Null pointers are not modelled. *)
From Coq Require Import Reals Arith.
From Verif Require Import ManifoldModel RotationModel.
Open Scope R_scope.

(** first_order_function.h: NumParameters and Evaluate, with or without gradient; None = false *)
Record first_order_function := mkFOF { NumParameters : nat; fo_evaluate : arr -> bool -> option (R * option arr) }.

Record gradient_problem := mkGPR { function_ : first_order_function; manifold_ : manifold }.

(** gradient_problem.cc 40-46: without manifold *)
Definition NewEuclidean (f : first_order_function) : gradient_problem := mkGPR f (EuclideanManifold (NumParameters f)).
(** 48-56: with a manifold; None = the CHECK of the sizes fails *)
Definition NewOnManifold (f : first_order_function) (m : manifold) : option gradient_problem :=
  if Nat.eqb (NumParameters f) (AmbientSize m) then Some (mkGPR f m) else None.

(** 58-64 *)
Definition GNumParameters (p : gradient_problem) : nat := NumParameters (function_ p).
Definition NumTangentParameters (p : gradient_problem) : nat := TangentSize (manifold_ p).

(** 66-79 Evaluate: cost and gradient; the scratch array is a matrix of one row.  A function that is
    asked for a gradient and returns true without writing it is not modelled (it gives None here). *)
Definition GEvaluate (p : gradient_problem) (parameters : arr) (gradient : bool) : option (R * option arr) :=
  if negb gradient then
    match fo_evaluate (function_ p) parameters false with
    | Some (cost, _) => Some (cost, None)
    | None => None
    end
  else
    match fo_evaluate (function_ p) parameters true with
    | Some (cost, Some scratch) =>
        match RightMultiplyByPlusJacobian (manifold_ p) parameters (fun _ => scratch) with
        | Some g => Some (cost, Some (g 0%nat))
        | None => None
        end
    | _ => None
    end.

(** 81-86 Plus *)
Definition GPlus (p : gradient_problem) (x delta : arr) : option arr := Plus (manifold_ p) x delta.
