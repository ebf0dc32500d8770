(** Vocabulary for the gradient of a GradientProblem (C76). *)
From Coq Require Import Reals Arith.
From Verif Require Import ManifoldModel RotationModel.
Open Scope R_scope.

(** g is the gradient at x of the function f of n variables *)
Definition gradient_at (n : nat) (f : arr -> R) (x g : arr) : Prop :=
  forall eps, 0 < eps -> exists del, 0 < del /\
    forall y, norm n (fun i => y i - x i) < del ->
      Rabs (f y - f x - sumn n (fun i => g i * (y i - x i))) <= eps * norm n (fun i => y i - x i).

(** g is the gradient at 0 of the function of k variables that takes delta to f(plus delta) *)
Definition tangent_gradient (k : nat) (f : arr -> R) (plus : arr -> option arr) (x g : arr) : Prop :=
  forall eps, 0 < eps -> exists del, 0 < del /\
    forall h, norm k h < del -> exists z, plus h = Some z /\
      Rabs (f z - f x - sumn k (fun j => g j * h j)) <= eps * norm k h.
