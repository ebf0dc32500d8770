(* Specification for C63: the matrix that a block sparse matrix stands for. *)
From Coq Require Import Reals List Arith Bool.
From Verif Require Import SchurModel BlockSparseModel.
Import ListNotations.
Open Scope R_scope.

Fixpoint suml {A} (l : list A) (f : A -> R) : R := match l with [] => 0 | x :: l' => f x + suml l' f end.
Definition within (b : Block) (p : nat) : Prop := (position b <= p < position b + size b)%nat.
Definition holds (b : Block) (p : nat) : bool := (position b <=? p)%nat && (p <? position b + size b)%nat.
(* entry (p, q); blocks at the same place add up *)
Definition dense (bs : Structure) (values : vec) (p q : nat) : R :=
  suml (rows bs) (fun row => suml (cells row) (fun c => let b := col bs (block_id c) in
    if holds (block row) p && holds b q then values (cell_position c + (p - position (block row)) * size b + (q - position b))%nat else 0)).
Definition total (bl : list Block) : nat := fold_right (fun b n => size b + n)%nat 0%nat bl.
Definition height (bs : Structure) : nat := total (map block (rows bs)).
Definition breadth (bs : Structure) : nat := total (cols bs).

Fixpoint laid_out (p : nat) (bl : list Block) : Prop :=
  match bl with [] => True | b :: bl' => position b = p /\ laid_out (p + size b) bl' end.
(* rows and columns are laid out one after the other; the cells of a row are in different
   columns *)
Record valid (bs : Structure) : Prop := {
  v_cols : laid_out 0 (cols bs);
  v_rows : laid_out 0 (map block (rows bs));
  v_cells : forall row, In row (rows bs) -> NoDup (map block_id (cells row)) /\ forall c, In c (cells row) -> (block_id c < length (cols bs))%nat }.
(* the values of the cells: [pos, pos + area), one range for every cell, in the order of the
   structure *)
Definition extents (bs : Structure) : list (nat * nat) :=
  flat_map (fun row => map (fun c => (cell_position c, (size (block row) * size (col bs (block_id c)))%nat)) (cells row)) (rows bs).
Definition apart (r r' : nat * nat) : Prop := (fst r + snd r <= fst r' \/ fst r' + snd r' <= fst r \/ snd r = 0 \/ snd r' = 0)%nat.
Definition disjoint (bs : Structure) : Prop := ForallOrdPairs apart (extents bs).
(* all inside the first n values *)
Definition contained (bs : Structure) (n : nat) : Prop := Forall (fun r => (fst r + snd r <= n)%nat) (extents bs).
(* one after the other *)
Fixpoint sequential (p : nat) (l : list (nat * nat)) : Prop := match l with [] => True | r :: l' => fst r = p /\ sequential (p + snd r) l' end.
Definition area (bs : Structure) : nat := fold_right (fun r n => snd r + n)%nat 0%nat (extents bs).

(* A x and A' x *)
Definition times (bs : Structure) (values x : vec) (p : nat) : R := sumn (breadth bs) (fun q => dense bs values p q * x q).
Definition transpose_times (bs : Structure) (values x : vec) (q : nat) : R := sumn (height bs) (fun p => dense bs values p q * x p).

(* two concurrent iterations write to different places *)
Definition overlap (u v : Update) : Prop := exists p, inside (u_pos u) (u_len u) p = true /\ inside (u_pos v) (u_len v) p = true.
Definition race_free (tasks : list (list Update)) : Prop :=
  forall l1 t l2 t' l3 u v, tasks = l1 ++ t :: l2 ++ t' :: l3 -> In u t -> In v t' -> ~ overlap u v.
(* the same for ScaleColumns *)
Definition extent_of (s : Scaling) : nat * nat := (s_pos s, (s_rows s * s_cols s)%nat).
Definition scale_race_free (tasks : list (list Scaling)) : Prop :=
  forall l1 t l2 t' l3 s s', tasks = l1 ++ t :: l2 ++ t' :: l3 -> In s t -> In s' t' -> apart (extent_of s) (extent_of s').

(* the bookkeeping of a matrix is right: the counts, the transposed structure, and the cells
   within the values, apart from one another *)
Record good (b : BlockSparse) : Prop := {
  g_valid : valid (structure b);
  g_transposed : transposed b = CreateTranspose (structure b);
  g_nnz : nnz b = area (structure b);
  g_rows : num_rows b = height (structure b);
  g_columns : num_columns b = breadth (structure b);
  g_max : (nnz b <= max_nnz b)%nat;
  g_contained : contained (structure b) (nnz b);
  g_disjoint : disjoint (structure b) }.
(* the matrix *)
Definition entries (b : BlockSparse) : nat -> nat -> R := dense (structure b) (values b).
(* the values of the cells follow one another from 0 *)
Definition packed (bs : Structure) : Prop := sequential 0 (extents bs).
(* the first n row blocks *)
Definition top (n : nat) (bs : Structure) : Structure := mkStructure (cols bs) (firstn n (rows bs)).

(* the first nelim block columns are E, the others F: the rows with an e block, which is
   their first cell and the only one, come first *)
Record partitioned (nelim : nat) (bs : Structure) : Prop := {
  pt_nelim : (nelim <= length (cols bs))%nat;
  pt_rows : exists es fs, rows bs = es ++ fs /\
    (forall row, In row es -> exists c cs, cells row = c :: cs /\ (block_id c < nelim)%nat /\ forall c', In c' cs -> (nelim <= block_id c')%nat) /\
    (forall row, In row fs -> cells row <> [] /\ forall c, In c (cells row) -> (nelim <= block_id c)%nat) }.
Definition e_columns (nelim : nat) (bs : Structure) : nat := total (firstn nelim (cols bs)).
Definition f_columns (nelim : nat) (bs : Structure) : nat := total (skipn nelim (cols bs)).
(* A = [E F] *)
Definition E_of (bs : Structure) (values : vec) (p q : nat) : R := dense bs values p q.
Definition F_of (nelim : nat) (bs : Structure) (values : vec) (p q : nat) : R := dense bs values p (e_columns nelim bs + q).

(* the cells as (row block, column block, position) *)
Definition places (bs : Structure) : list (nat * nat * nat) :=
  flat_map (fun p => map (fun c => (fst p, block_id c, cell_position c)) (cells (snd p))) (combine (seq 0 (length (rows bs))) (rows bs)).
Definition flip (t : nat * nat * nat) : nat * nat * nat := let '(i, k, pos) := t in (k, i, pos).
(* B below A, which has h rows *)
Definition stacked (h : nat) (A B : nat -> nat -> R) (p q : nat) : R := if (p <? h)%nat then A p q else B (p - h)%nat q.
