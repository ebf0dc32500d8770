(** Specification for TinySolver, independent of the solver's own helpers. *)
From Coq Require Import Reals List Arith Bool.
From Verif Require Import SchurModel TinyModel.
Import ListNotations.
Open Scope R_scope.

(** Half the squared norm of the residuals of [f] at [x]. *)
Definition cost_at (m : nat) (f : Function) (x : vec) : R := / 2 * sumn m (fun i => f_res f x i ^ 2).

(** Entry j of the gradient J(x)' f(x). *)
Definition gradient_at (m : nat) (f : Function) (x : vec) (j : nat) : R :=
  sumn m (fun i => f_jac f x i j * f_res f x i).

(** The Jacobi scaling of parameter j, fixed by the Jacobian at the start. *)
Definition scale_at (m : nat) (f : Function) (x0 : vec) (j : nat) : R :=
  / (1 + sqrt (sumn m (fun i => f_jac f x0 i j ^ 2))).

(** [v] is the largest of |h 0|, ..., |h (n-1)|. *)
Definition max_abs (n : nat) (h : nat -> R) (v : R) : Prop :=
  (exists j, (j < n)%nat /\ v = Rabs (h j)) /\ forall j, (j < n)%nat -> Rabs (h j) <= v.

(** A linear solver that is right on every symmetric positive definite matrix. *)
Definition symmetric (n : nat) (A : mat) : Prop := forall i j, (i < n)%nat -> (j < n)%nat -> A i j = A j i.
Definition positive_definite (n : nat) (A : mat) : Prop :=
  forall w, (exists i, (i < n)%nat /\ w i <> 0) -> 0 < sumn n (fun i => sumn n (fun j => w i * A i j * w j)).
Definition exact_solver (n : nat) (solve : mat -> vec -> vec) : Prop :=
  forall A b, symmetric n A -> positive_definite n A ->
  forall i, (i < n)%nat -> sumn n (fun j => A i j * solve A b j) = b i.

(** The residuals depend on the n parameters only. *)
Definition reads (m n : nat) (f : Function) : Prop :=
  forall x y, (forall i, (i < n)%nat -> x i = y i) -> forall i, (i < m)%nat -> f_res f x i = f_res f y i.

(** The function evaluates everywhere. *)
Definition never_fails (f : Function) : Prop := forall x, ok f x = true.

(** A descent from x0: a list of trials (from, to); a trial is moved to exactly
    when its cost is strictly smaller. *)
Inductive Descent (c : vec -> R) (x0 : vec) : list (vec * vec) -> vec -> Prop :=
| D_start : Descent c x0 [] x0
| D_accept tr x y : Descent c x0 tr x -> c y < c x -> Descent c x0 (tr ++ [(x, y)]) y
| D_reject tr x y : Descent c x0 tr x -> c x <= c y -> Descent c x0 (tr ++ [(x, y)]) x.

(** The step the linear solver proposes at x, in the caller's variables, has
    Euclidean length below the tolerance. *)
Definition small_step (n : nat) (x dx : vec) (ptol : R) : Prop :=
  sqrt (sumn n (fun i => dx i ^ 2)) < ptol * (sqrt (sumn n (fun i => x i ^ 2)) + ptol).

(** [dx] is a damped Gauss-Newton step at x: with h = dx/scale,
    (S J'J S + w) h = - S J'f for some positive damping w. *)
Definition damped_step (m n : nat) (f : Function) (x0 x dx : vec) : Prop :=
  exists w h : vec, (forall i, (i < n)%nat -> 0 < w i /\ dx i = scale_at m f x0 i * h i) /\
  forall i, (i < n)%nat ->
    scale_at m f x0 i * sumn m (fun k => f_jac f x k i * sumn n (fun j => f_jac f x k j * dx j)) + w i * h i
    = - (scale_at m f x0 i * gradient_at m f x i).
