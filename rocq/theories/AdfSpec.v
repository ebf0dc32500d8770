(* Vocabulary of C79. *)
From Coq Require Import Reals List ZArith Bool.
From Coquelicot Require Import Coquelicot.
From Verif Require Import JetModel JetSpec AutoDiffModel AutoDiffSpec AdfModel.
Import ListNotations.
Local Open Scope R_scope.

(* two arguments of a function, the first with n numbers, as one *)
Definition joined (n : nat) (x y : nat -> R) : nat -> R := fun i => if (i <? n)%nat then x i else y (i - n)%nat.
(* t times the c-th unit vector *)
Definition along_axis (c : nat) (t : R) : nat -> R := fun i => if (i =? c)%nat then t else 0.
(* component r of a functor *)
Definition component (f : functor) (r : nat) : (nat -> R) -> R := val (nth r (f_out f) (Const 0)).
(* Plus and Minus as real functions *)
Definition real_plus (A : nat) (plus : functor) (x delta : nat -> R) : nat -> R := fun r => component plus r (joined A x delta).
Definition real_minus (A : nat) (minus : functor) (y x : nat -> R) : nat -> R := fun r => component minus r (joined A y x).

(* the value an evaluation returned *)
Definition value_of (e : evaluated) : option (list num) := match e with EvalFalse => None | EvalTrue v _ => Some v end.
(* entry (r, c) of a matrix with R rows stored column major *)
Definition col_major (R r c : nat) : nat := (c * R + r)%nat.
(* entry (r, c) of a matrix with C columns stored row major *)
Definition row_major (C r c : nat) : nat := (r * C + c)%nat.
(* product of the matrices M (.. x n) and P (n x T), both row major *)
Fixpoint dot_range (n : nat) (f : nat -> R) : R := match n with O => 0 | S k => dot_range k f + f k end.
