(** What a weighted graph is, by its history of edits (latest first), and what
    a degree two spanning forest is. *)
Require Import List Arith ZArith.
From Verif Require Import GraphModel GraphSpec ForestModel.
Import ListNotations.

(** The edit without its weight. *)
Definition plain (o : wop) : gop :=
  match o with WAddV v _ => AddV v | WRemV v => RemV v | WAddE a b _ => AddE a b end.

(** Weight of a vertex / an edge after the edits [h]. *)
Fixpoint vweight_of (h : list wop) (v : nat) : option Z :=
  match h with
  | [] => None
  | WAddV u x :: h' => if Nat.eq_dec v u then Some x else vweight_of h' v
  | WRemV u :: h' => if Nat.eq_dec v u then None else vweight_of h' v
  | WAddE _ _ _ :: h' => vweight_of h' v
  end.
Fixpoint eweight_of (h : list wop) (a b : nat) : option Z :=
  match h with
  | [] => None
  | WAddV _ _ :: h' => eweight_of h' a b
  | WRemV u :: h' => if Nat.eq_dec a u then None else if Nat.eq_dec b u then None else eweight_of h' a b
  | WAddE c d x :: h' =>
      if Nat.eq_dec a c then (if Nat.eq_dec b d then Some x
                              else if Nat.eq_dec a d then (if Nat.eq_dec b c then Some x else eweight_of h' a b)
                              else eweight_of h' a b)
      else if Nat.eq_dec a d then (if Nat.eq_dec b c then Some x else eweight_of h' a b)
      else eweight_of h' a b
  end.

(** There is a path of [E] edges from the first to the second vertex. *)
Inductive path (E : nat -> nat -> Prop) : nat -> nat -> Prop :=
  | path_nil : forall a, path E a a
  | path_cons : forall a b c, E a b -> path E b c -> path E a c.

(** [E] with the edge {a, b} taken out. *)
Definition minus (E : nat -> nat -> Prop) (a b : nat) : nat -> nat -> Prop :=
  fun x y => E x y /\ ~ (x = a /\ y = b) /\ ~ (x = b /\ y = a).
(** No cycles: removing any edge disconnects its ends. *)
Definition acyclic (E : nat -> nat -> Prop) : Prop := forall a b, E a b -> ~ path (minus E a b) a b.
(** No vertex has three neighbours. *)
Definition at_most_two (E : nat -> nat -> Prop) : Prop :=
  forall v a b c, E v a -> E v b -> E v c -> a = b \/ a = c \/ b = c.
