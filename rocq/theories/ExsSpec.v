(* Specification for C87: number and total duration of the scopes of a name, in a tree of scopes. *)
From Coq Require Import List Arith ZArith.
From Verif Require Import ExsModel.
Import ListNotations.
Open Scope Z_scope.

Definition sum (l : list Z) : Z := fold_right Z.add 0 l.
Fixpoint count (n : nat) (s : Scope) : Z :=
  match s with scope name _ _ body => (if (name =? n)%nat then 1 else 0) + sum (map (count n) body) end.
Fixpoint duration (n : nat) (s : Scope) : Z :=
  match s with scope name start stop body => (if (name =? n)%nat then stop - start else 0) + sum (map (duration n) body) end.
Definition all_count (n : nat) (work : list (list Scope)) : Z := sum (map (fun l => sum (map (count n) l)) work).
Definition all_duration (n : nat) (work : list (list Scope)) : Z := sum (map (fun l => sum (map (duration n) l)) work).
