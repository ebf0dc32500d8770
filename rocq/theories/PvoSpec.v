(* Specification for C88. *)
From Coq Require Import ZArith.
Open Scope Z_scope.

(* element i of the expression depends on the vector only through its element i *)
Definition elementwise {E} (rhs : (Z -> E) -> Z -> E) : Prop := forall v v' i, v i = v' i -> rhs v i = rhs v' i.
Definition inside (n i : Z) : Prop := 0 <= i < n.
