(* Specification for C85. *)
From Coq Require Import Reals List Arith.
From Verif Require Import SchurModel LsqSpec.
Open Scope R_scope.

(* the first scalar row of row block start *)
Definition first_row (bs : Structure) (start : nat) : nat := list_sum (map (fun row => size (block row)) (firstn start (rows bs))).
(* Q'Q + D'D for the rows of A, of which there are m, from row r0 on *)
Definition part (m r0 : nat) (A : nat -> nat -> R) (D : option (nat -> R)) (i j : nat) : R :=
  sumn m (fun k => if (r0 <=? k)%nat then A k i * A k j else 0) + if (i =? j)%nat then weight D i * weight D i else 0.
(* is there a diagonal? *)
Definition present (D : option (nat -> R)) : bool := match D with Some _ => true | None => false end.
