(** What an undirected graph is, by its history of edits (latest first), and
    what the orderings should deliver. *)
Require Import List Arith Permutation.
From Verif Require Import GraphModel.
Import ListNotations.

(** [v] is a vertex / {x, y} is an edge after the edits [h]. *)
Fixpoint has_v (h : list gop) (v : nat) : Prop :=
  match h with
  | [] => False
  | AddV u :: h' => v = u \/ has_v h' v
  | RemV u :: h' => v <> u /\ has_v h' v
  | AddE _ _ :: h' => has_v h' v
  end.
Fixpoint has_e (h : list gop) (x y : nat) : Prop :=
  match h with
  | [] => False
  | AddV _ :: h' => has_e h' x y
  | RemV u :: h' => x <> u /\ y <> u /\ has_e h' x y
  | AddE a b :: h' => (x = a /\ y = b) \/ (x = b /\ y = a) \/ has_e h' x y
  end.
(** Edits allowed by the interface: edges between existing vertices, removal
    of a vertex without self loop. *)
Fixpoint allowed (h : list gop) : Prop :=
  match h with
  | [] => True
  | AddV _ :: h' => allowed h'
  | RemV u :: h' => ~ has_e h' u u /\ allowed h'
  | AddE a b :: h' => has_v h' a /\ has_v h' b /\ allowed h'
  end.

(** [first_k_independent V E ordering k]: a permutation of the vertices whose
    first [k] are pairwise not joined, every other one joined to one of them. *)
Definition first_k_independent (V : nat -> Prop) (E : nat -> nat -> Prop) (ordering : list nat) (k : nat) : Prop :=
  NoDup ordering /\ (forall v, In v ordering <-> V v) /\ k <= length ordering /\
  (forall a b, In a (firstn k ordering) -> In b (firstn k ordering) -> ~ E a b) /\
  (forall b, In b (skipn k ordering) -> exists a, In a (firstn k ordering) /\ E a b).

(** Well formed programs. *)
Definition valid_prog (p : prog) : Prop :=
  NoDup (p_blocks p) /\
  forall r, In r (p_res p) -> NoDup r /\ forall b, In b r -> In b (p_blocks p).
Definition var_block (p : prog) (b : nat) : Prop := In b (p_blocks p) /\ p_const p b = false.
(** Some residual block depends on both. *)
Definition together (p : prog) (a b : nat) : Prop := exists r, In r (p_res p) /\ In a r /\ In b r.
