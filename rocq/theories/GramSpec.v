(* Specification for C69. *)
From Coq Require Import Reals List Arith Bool Sorted.
From Verif Require Import SchurModel BlockSparseModel BlockSparseSpec.
Import ListNotations.
Open Scope R_scope.

(* the inner product of columns p and q over the scalar rows of the row blocks s .. e - 1 *)
Definition gram (bs : Structure) (values : vec) (s e p q : nat) : R :=
  suml (firstn (e - s) (skipn s (rows bs))) (fun row =>
    sumn (size (block row)) (fun k => dense bs values (position (block row) + k)%nat p * dense bs values (position (block row) + k)%nat q)).

(* entry (p, q) of a compressed row matrix *)
Definition crs_entry (row_pointers : list nat) (columns : nat -> nat) (values : vec) (p q : nat) : R :=
  suml (seq (nth p row_pointers 0%nat) (nth (S p) row_pointers 0%nat - nth p row_pointers 0%nat))
       (fun t => if (columns t =? q)%nat then values t else 0).

(* every row block lists its cells in increasing column block order; no empty column block *)
Definition ordered_cells (bs : Structure) : Prop :=
  (forall row, In row (rows bs) -> StronglySorted Peano.lt (map block_id (cells row))) /\
  forall b, (b < length (cols bs))%nat -> (0 < size (col bs b))%nat.

(* block q is in the requested triangle of block row p *)
Definition in_triangle (lower : bool) (r c : nat) : bool := if lower then (c <=? r)%nat else (r <=? c)%nat.
