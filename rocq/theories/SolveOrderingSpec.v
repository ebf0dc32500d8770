(* Specification for C53, in terms of the public interface of the orderings:
   GroupId (-1 when absent) and IsMember. *)

From Coq Require Import ZArith List.
From Verif Require Import OrderedGroupsModel EnumModel SolveOrderingModel.
Import ListNotations.
Local Open Scope Z_scope.

Definition same_ordering (s t : og) : Prop := forall e, group_id e s = group_id e t.

(* the caller sees no difference in any ordering *)
Definition unchanged (h h' : store) : Prop := forall j, same_ordering (h j) (h' j).

Definition has (s : og) (e : Z) : Prop := is_member e s = true.

(* the blocks the reduction removed (constant or not used by any residual),
   and those it kept *)
Definition removed_blocks (a : answers) : list Z :=
  match an_reduced a with Some (r, _) => r | None => [] end.
Definition kept_blocks (a : answers) : list Z :=
  match an_reduced a with Some (_, k) => k | None => [] end.

(* the orderings the caller passed *)
Definition passed (q : request) (i : nat) : Prop :=
  rq_linear_ordering q = Some i \/ rq_inner_ordering q = Some i.

Definition schur_solver (q : request) : Prop :=
  rq_solver q = SPARSE_SCHUR \/ rq_solver q = DENSE_SCHUR \/ rq_solver q = ITERATIVE_SCHUR.

(* the ordering was built by calls to its interface *)
Definition built (s : og) : Prop := exists os rs, run os og_empty = Some (s, rs).
