(** Vocabulary for contiguous partitions of [start, end) and their costs. *)
Require Import ZArith List Lia.
Import ListNotations.
Open Scope Z_scope.

(** Sum of [w i] for [i] in [a, a+n). *)
Fixpoint zsum (w : Z -> Z) (a : Z) (n : nat) : Z :=
  match n with O => 0 | S n' => w a + zsum w (a + 1) n' end.

(** Total cost of the indices in [a, b). *)
Definition range_cost (w : Z -> Z) (a b : Z) : Z := zsum w a (Z.to_nat (b - a)).

(** Boundaries [p0 <= p1 <= ... <= pk] of at most [m] consecutive intervals
    covering exactly [start, end). *)
Fixpoint nondecreasing (p : list Z) : Prop :=
  match p with
  | a :: ((b :: _) as q) => a <= b /\ nondecreasing q
  | _ => True
  end.

Fixpoint increasing (p : list Z) : Prop :=
  match p with
  | a :: ((b :: _) as q) => a < b /\ increasing q
  | _ => True
  end.

Definition is_partition (start end_ m : Z) (p : list Z) : Prop :=
  hd_error p = Some start /\ last p 0 = end_ /\
  (2 <= length p)%nat /\ Z.of_nat (length p) <= m + 1 /\ nondecreasing p.

(** Every interval of the partition costs at most [C]. *)
Fixpoint costs_at_most (w : Z -> Z) (C : Z) (p : list Z) : Prop :=
  match p with
  | a :: ((b :: _) as q) => range_cost w a b <= C /\ costs_at_most w C q
  | _ => True
  end.
