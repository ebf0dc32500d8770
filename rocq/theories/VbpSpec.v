(* Specification for C72. *)
From Coq Require Import Reals List Arith Bool.
From Verif Require Import VisSpec.
Import ListNotations.
Open Scope nat_scope.

(* the cells of the Schur complement that can be different from zero: the two f-blocks share an
   e-block, or a row block without e-block *)
Definition interact (E : nat) (rows : list (list nat)) (i j : nat) : Prop :=
  (exists p, sees E rows i p /\ sees E rows j p) \/
  (exists row, In row rows /\ (forall c, In c row -> E <= c) /\ In (E + i) row /\ In (E + j) row).
(* row blocks have cells, in the matrix; an e-block comes first and is the only one; the rows of an
   e-block are contiguous and precede the rows without *)
Definition head (row : list nat) : nat := nth 0 row 0.
Record rows_fine (num_cols E : nat) (rows : list (list nat)) : Prop := {
  fine_cells : forall row, In row rows -> row <> [] /\ (forall c, In c row -> c < num_cols) /\ (forall c, In c (tl row) -> E <= c);
  fine_order : forall i j k, i < j -> j < k -> k < length rows -> head (nth k rows []) < E -> head (nth i rows []) = head (nth k rows []) -> head (nth j rows []) = head (nth k rows []);
  fine_tail : forall i k, i < k -> k < length rows -> head (nth k rows []) < E -> head (nth i rows []) < E }.

(* block matrices: A i j r c is the entry (r, c) of block (i, j); sz: the sizes of the blocks *)
Definition block_matrix := nat -> nat -> nat -> nat -> R.
Definition form (n : nat) (sz : nat -> nat) (A : block_matrix) (x : nat -> nat -> R) : R :=
  total (seq 0 n) (fun i => total (seq 0 n) (fun j => total (seq 0 (sz i)) (fun r => total (seq 0 (sz j)) (fun c => x i r * A i j r c * x j c)%R))).
Definition symmetric (A : block_matrix) : Prop := forall i j r c, A i j r c = A j i c r.
Definition positive_definite (n : nat) (sz : nat -> nat) (A : block_matrix) : Prop :=
  forall x, (exists i r, i < n /\ r < sz i /\ x i r <> 0%R) -> (0 < form n sz A x)%R.
(* the symmetric matrix given by the cells (i, j), i <= j, that are stored *)
Definition stored (block_pairs : list (nat * nat)) (m : block_matrix) : block_matrix :=
  fun i j r c => if in_dec (fun p q : nat * nat => ltac:(decide equality; apply Nat.eq_dec)) (i, j) block_pairs then m i j r c
                 else if in_dec (fun p q : nat * nat => ltac:(decide equality; apply Nat.eq_dec)) (j, i) block_pairs then m j i c r else 0%R.
(* the two clusters of a pair, in order, are in the set *)
Definition pair_in (cluster_pairs : list (nat * nat)) (c d : nat) : Prop := In (Nat.min c d, Nat.max c d) cluster_pairs.
