(* Specification for C83. *)
From Coq Require Import List Arith Bool.
From Verif Require Import StbModel.
Import ListNotations.
Open Scope nat_scope.

(* executions of a given number of steps *)
Inductive steps {A} (from : nat -> A) : nat -> State A -> State A -> Prop :=
| steps_0 s : steps from 0 s s
| steps_S n s s' s'' : steps from n s s' -> step from s' s'' -> steps from (S n) s s''.
(* what the kernels saw *)
Fixpoint seen {A} (l : list (Event A)) : list (nat * A) := match l with [] => [] | Saw p v :: l' => (p, v) :: seen l' | Ran _ :: l' => seen l' end.
(* before a call: the default stream may be busy with earlier work, everything else is finished *)
Definition ready {A} (s : State A) : Prop :=
  (forall op, In op (queue s 0) -> exists k, op = Earlier k) /\ (forall i, 0 < i -> queue s i = []) /\ (forall e, recorded s e = finished s e) /\ log s = [].
Definition idle {A} (s : State A) : Prop := (forall i, queue s i = []) /\ forall e, recorded s e = finished s e.
(* earlier work that is not finished *)
Definition waiting {A} (s : State A) : list nat := flat_map (fun op => match op with Earlier k => [k] | _ => [] end) (queue s 0).
