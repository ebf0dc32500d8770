(* Specification of C48: what a manifold has to satisfy. *)
From Coq Require Import Reals List Arith.
From Verif Require Import RotationModel RotationSpec ManifoldModel.
Import ListNotations.
Open Scope R_scope.

(* equality of the first n entries, of an r x c corner *)
Definition eqn (n : nat) (a b : arr) : Prop := forall i, (i < n)%nat -> a i = b i.
Definition eqo (n : nat) (a b : option arr) : Prop :=
  match a, b with Some x, Some y => eqn n x y | None, None => True | _, _ => False end.
Definition eqm (r c : nat) (a b : mat) : Prop := forall i j, (i < r)%nat -> (j < c)%nat -> a i j = b i j.
(* product of an r x n and an n x c matrix; of a matrix and a vector *)
Definition mmul (n : nat) (a b : mat) : mat := fun i j => sumn n (fun k => a i k * b k j).
Definition mvec (n : nat) (a : mat) (x : arr) : arr := fun i => sumn n (fun k => a i k * x k).

(* J (rows x cols) is the derivative at 0 of f, with f(0) = y: f(h) = y + J h + o(|h|) *)
Definition derivative_at_zero (rows cols : nat) (f : arr -> option arr) (y : arr) (J : mat) : Prop :=
  forall eps, 0 < eps -> exists del, 0 < del /\
    forall h, norm cols h < del -> exists z, f h = Some z /\
      forall i, (i < rows)%nat -> Rabs (z i - y i - mvec cols J h i) <= eps * norm cols h.

(* m is a manifold structure on the points [on]; the points of [regular] are those where
   the implementation is exact; Minus(y, x) is defined where [reach y x]; Plus is
   injective on the deltas of [small] *)
Record is_manifold (m : manifold) (on regular : arr -> Prop) (reach : arr -> arr -> Prop) (small : arr -> Prop) : Prop := {
  im_on_reads : forall x x', eqn (AmbientSize m) x x' -> on x -> on x';
  im_plus_on : forall x d, on x -> regular x -> exists z, Plus m x d = Some z /\ on z;
  im_plus_zero : forall x d, on x -> regular x -> eqn (TangentSize m) d zeros -> eqo (AmbientSize m) (Plus m x d) (Some x);
  im_plus_minus : forall x y, on x -> regular x -> on y -> reach y x ->
    exists d, Minus m y x = Some d /\ eqo (AmbientSize m) (Plus m x d) (Some y);
  im_minus_plus : forall x d, on x -> regular x -> small d ->
    exists z, Plus m x d = Some z /\ eqo (TangentSize m) (Minus m z x) (Some d);
  im_plus_jacobian : forall x, on x -> regular x -> exists J, PlusJacobian m x = Some J /\
    derivative_at_zero (AmbientSize m) (TangentSize m) (fun d => Plus m x d) x J;
  im_minus_jacobian : forall x, on x -> regular x -> exists J, MinusJacobian m x = Some J /\
    derivative_at_zero (TangentSize m) (AmbientSize m) (fun h => Minus m (fun i => x i + h i) x) zeros J;
  im_inverse : forall x, on x -> regular x -> exists J K, PlusJacobian m x = Some J /\ MinusJacobian m x = Some K /\
    eqm (TangentSize m) (TangentSize m) (mmul (AmbientSize m) K J) identity;
  im_right : forall x a rows, on x -> regular x -> exists J b, PlusJacobian m x = Some J /\
    RightMultiplyByPlusJacobian m x a = Some b /\ eqm rows (TangentSize m) b (mmul (AmbientSize m) a J);
  (* only the stated numbers of entries are read *)
  im_plus_reads : forall x x' d d', eqn (AmbientSize m) x x' -> eqn (TangentSize m) d d' ->
    eqo (AmbientSize m) (Plus m x d) (Plus m x' d');
  im_minus_reads : forall x x' y y', eqn (AmbientSize m) x x' -> eqn (AmbientSize m) y y' ->
    eqo (TangentSize m) (Minus m y x) (Minus m y' x')
}.

Definition always : arr -> Prop := fun _ => True.
Definition always2 : arr -> arr -> Prop := fun _ _ => True.

(* the sphere of radius rho in R^n; the implementation is exact where the vector is on
   the last axis or further away from it than the square root of epsilon *)
Definition on_sphere (n : nat) (rho : R) (x : arr) : Prop := norm n x = rho.
Definition off_threshold (n : nat) (x : arr) : Prop := dot (n - 1) x x = 0 \/ epsilon < dot (n - 1) x x.
Definition shorter (n : nat) (r : R) (d : arr) : Prop := norm n d < r.

(* unit quaternions *)
Definition unit_quaternion (o : order) (x : arr) : Prop := qnorm2 (quat_of o x) = 1.
Definition not_opposite (o : order) (y x : arr) : Prop := quat_of o y <> qneg (quat_of o x).

(* subset: the indices in [constant] do not move *)
Definition constant_equal (n : nat) (constant : list Z) (y x : arr) : Prop :=
  forall i, (i < n)%nat -> In (Z.of_nat i) constant -> y i = x i.

(* lines: a point and a direction of unit length *)
Definition on_lines (n : nat) (x : arr) : Prop := norm n (shift n x) = 1.
Definition line_regular (n : nat) (x : arr) : Prop := off_threshold n (shift n x).
Definition perpendicular_offset (n : nat) (y x : arr) : Prop :=
  sumn n (fun i => (y i - x i) * shift n x i) = 0.

(* products: blocks one after the other *)
Record factor : Type := mkfactor {
  f_m : manifold; f_on : arr -> Prop; f_regular : arr -> Prop; f_reach : arr -> arr -> Prop; f_small : arr -> Prop }.
Fixpoint prod_pred (p : factor -> arr -> Prop) (size : manifold -> nat) (fs : list factor) (x : arr) : Prop :=
  match fs with [] => True | f :: r => p f x /\ prod_pred p size r (shift (size (f_m f)) x) end.
Fixpoint prod_pred2 (p : factor -> arr -> arr -> Prop) (fs : list factor) (y x : arr) : Prop :=
  match fs with [] => True | f :: r => p f y x /\ prod_pred2 p r (shift (AmbientSize (f_m f)) y) (shift (AmbientSize (f_m f)) x) end.
Definition is_factor (f : factor) : Prop := is_manifold (f_m f) (f_on f) (f_regular f) (f_reach f) (f_small f).
