(* Specification of C61: what a cost function built from a templated functor returns. *)

From Coq Require Import Reals List ZArith Bool.
From Verif Require Import JetModel JetSpec AutoDiffModel.
Import ListNotations.

(* the functor reads its parameters only *)
Definition functor_uses (N : nat) (f : functor) : Prop :=
  Forall (uses_below N) (f_out f) /\
  Forall (fun g => match g with (_, a, b) => uses_below N a /\ uses_below N b end) (f_guards f).

(* the real functor: it returns true *)
Definition accepts (f : functor) (x : nat -> R) : Prop :=
  Forall (fun g => match g with (c, a, b) => holds c (val a x) (val b x) end) (f_guards f).
(* every operation it executes is differentiable at x *)
Definition functor_regular (f : functor) (x : nat -> R) : Prop :=
  Forall (fun e => regular e x) (f_out f) /\
  Forall (fun g => match g with (_, a, b) => regular a x /\ regular b x end) (f_guards f).

(* index of the first parameter of block b *)
Definition offset (sizes : list nat) (b : nat) : nat := fold_right Nat.add 0%nat (firstn b sizes).
Definition total (sizes : list nat) : nat := fold_right Nat.add 0%nat sizes.

(* [new] are the Jacobians after the call, [old] before.  A null pointer stays one; the
   buffer of block b, which has n parameters, receives D r p, the derivative of residual r
   with respect to parameter p, in row major order; nothing behind it is written. *)
Definition fills (sizes : list nat) (M : nat) (D : nat -> nat -> num) (old new : list jacobian) : Prop :=
  length new = length old /\
  forall b n, nth_error sizes b = Some n ->
    match nth_error old b with
    | None => True
    | Some None => nth_error new b = Some None
    | Some (Some d) =>
        exists d', nth_error new b = Some (Some d') /\
          (forall r c, (r < M)%nat -> (c < n)%nat -> d' (r * n + c)%nat = D r (offset sizes b + c)%nat) /\
          (forall i, (M * n <= i)%nat -> d' i = d i)
    end.

(* the same result: the buffers have the same contents *)
Definition same_jacobian (a b : jacobian) : Prop :=
  match a, b with
  | None, None => True
  | Some d, Some d' => forall i, d i = d' i
  | _, _ => False
  end.
Definition same_outcome (a b : outcome) : Prop :=
  match a, b with
  | Aborts, Aborts => True
  | ReturnsFalse, ReturnsFalse => True
  | ReturnsTrue r js, ReturnsTrue r' js' => r = r' /\ Forall2 same_jacobian js js'
  | _, _ => False
  end.

(* number of parameters whose Jacobian is wanted *)
Fixpoint wanted (sizes : list nat) (js : list jacobian) : nat :=
  match sizes, js with
  | n :: rest, Some _ :: js => (n + wanted rest js)%nat
  | _ :: rest, None :: js => wanted rest js
  | _, _ => 0%nat
  end.
