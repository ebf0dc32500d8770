(* Specification for C89. *)
From Coq Require Import ZArith Reals.
Open Scope R_scope.

(* f 0 + ... + f (n - 1) *)
Fixpoint first_terms (n : nat) (f : Z -> R) : R := match n with O => 0 | S k => first_terms k f + f (Z.of_nat k) end.
Definition inner (n : Z) (x y : Z -> R) : R := first_terms (Z.to_nat n) (fun i => x i * y i).
