(* Specification for C82: the matrix a CRS matrix stands for. *)
From Coq Require Import Reals List Arith Bool.
From Verif Require Import SchurModel BlockSparseModel BlockSparseSpec GpuModel.
Import ListNotations.
Open Scope nat_scope.

(* entry (p, q): the values stored in row p under column q *)
Definition crs_entry (m : Crs) (v : nat -> R) (p q : nat) : R :=
  suml (seq (c_rows m p) (c_rows m (S p) - c_rows m p)) (fun k => if c_cols m k =? q then v k else 0%R).
(* m with values v is a CRS matrix with h rows, w columns and n values, and it is A *)
Definition represents (h w n : nat) (m : Crs) (v : nat -> R) (A : nat -> nat -> R) : Prop :=
  c_rows m 0 = 0 /\ (forall p, p < h -> c_rows m p <= c_rows m (S p)) /\ c_rows m h = n /\
  (forall k, k < n -> c_cols m k < w) /\
  forall p q, p < h -> q < w -> crs_entry m v p q = A p q.

(* the values of the cells of E and of F *)
Definition extent (bs : Structure) (row : Row) (c : Cell) : nat * nat := (cell_position c, size (block row) * size (col bs (block_id c))).
Definition extents_of (keep : nat -> bool) (bs : Structure) : list (nat * nat) :=
  flat_map (fun row => map (extent bs row) (filter (fun c => keep (block_id c)) (cells row))) (rows bs).
Definition e_extents (nelim : nat) (bs : Structure) : list (nat * nat) := extents_of (fun k => k <? nelim) bs.
Definition f_extents (nelim : nat) (bs : Structure) : list (nat * nat) := extents_of (fun k => negb (k <? nelim)) bs.
Definition count (l : list (nat * nat)) : nat := fold_right (fun r n => snd r + n) 0 l.
(* E first, then F, each stored one cell after the other *)
Definition stored_partitioned (nelim : nat) (bs : Structure) : Prop :=
  sequential 0 (e_extents nelim bs) /\ sequential (count (e_extents nelim bs)) (f_extents nelim bs).
(* row block i has no cell of F *)
Definition no_f (nelim : nat) (row : Row) : Prop := forall c, In c (cells row) -> block_id c < nelim.
Definition no_e (nelim : nat) (row : Row) : Prop := forall c, In c (cells row) -> nelim <= block_id c.
(* a row block without a cell of F just before one with cells of F only *)
Definition gap (nelim : nat) (bs : Structure) : Prop :=
  exists l1 r1 r2 l2, rows bs = l1 ++ r1 :: r2 :: l2 /\ no_f nelim r1 /\ no_e nelim r2 /\ cells r2 <> [].
(* every row block of F is one row or one cell, so that the values are in CRS order *)
Definition in_order (nelim : nat) (bs : Structure) : Prop :=
  forall row, In row (rows bs) -> size (block row) <= 1 \/ length (filter (fun c => negb (block_id c <? nelim)) (cells row)) <= 1.
