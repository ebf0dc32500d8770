(** Specification of the small matrix products: the textbook entry, by
    recursion on the inner dimension, over uninterpreted arithmetic. *)
From Coq Require Import List Arith ZArith.
Import ListNotations.

Section Spec.
Variable T : Type.
Variables (zero : T) (add sub mul : T -> T -> T).

(** ((0 + x0 y0) + x1 y1) + ... + x_{n-1} y_{n-1}. *)
Fixpoint inner (n : nat) (x y : nat -> T) : T :=
  match n with O => zero | S k => add (inner k x y) (mul (x k) (y k)) end.

(** Entry (i, j) of a row-major matrix with the given number of columns. *)
Definition entry (M : list T) (cols i j : nat) : T := nth (i * cols + j) M zero.

(** =, += or -= according to the sign of the operation. *)
Definition apply_op (op : Z) (old v : T) : T :=
  match op with Z0 => v | Zpos _ => add old v | Zneg _ => sub old v end.

(** C' is C with the block of nr x nc entries placed at (sr, sc) of a row-major
    matrix with cs columns replaced, entry by entry, by op with v; all other
    entries and the length are as before. *)
Definition block_updated (op : Z) (v : nat -> nat -> T) (nr nc sr sc cs : nat) (C C' : list T) : Prop :=
  length C' = length C
  /\ (forall i j, i < nr -> j < nc ->
        nth_error C' ((i + sr) * cs + (j + sc)) = Some (apply_op op (entry C cs (i + sr) (j + sc)) (v i j)))
  /\ (forall p, (forall i j, i < nr -> j < nc -> p <> (i + sr) * cs + (j + sc)) -> nth_error C' p = nth_error C p).
End Spec.

(** A template argument is Eigen::Dynamic or states the actual size. *)
Definition agrees (k : option nat) (num : nat) : Prop := k = None \/ k = Some num.
