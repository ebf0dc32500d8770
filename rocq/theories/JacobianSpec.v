(* Specification for C66: the Jacobian of a program. *)
From Coq Require Import Reals ZArith List Arith Bool Sorted.
From Verif Require Import SchurModel SparseModel SparseSpec BlockSparseModel BlockSparseSpec JacobianModel.
Import ListNotations.
Open Scope R_scope.

(* the rows in front of residual block i, and the columns in front of parameter block v *)
Definition rows_before (p : Program) (i : nat) : nat := list_sum (map r_num (firstn i (p_blocks p))).
Definition column (p : Program) (v : nat) : nat := list_sum (firstn v (p_tangents p)).
Definition num_rows_of (p : Program) : nat := list_sum (map r_num (p_blocks p)).
Definition num_columns_of (p : Program) : nat := list_sum (p_tangents p).
(* the varying arguments are blocks of the program, every one different *)
Fixpoint indices (l : list Arg) : list nat := match l with [] => [] | Constant _ :: l' => indices l' | Varying v :: l' => v :: indices l' end.
Definition well_formed (p : Program) : Prop := forall b, In b (p_blocks p) -> NoDup (indices (r_args b)) /\ forall v, In v (indices (r_args b)) -> (v < length (p_tangents p))%nat.

(* jac i j: the derivative of residual block i by its argument j, by rows.  M is the Jacobian: *)
Definition is_jacobian (p : Program) (jac : nat -> nat -> vec) (M : nat -> nat -> R) : Prop :=
  forall i b k, nth_error (p_blocks p) i = Some b -> (k < r_num b)%nat ->
    (forall j v u, nth_error (r_args b) j = Some (Varying v) -> (u < tangent p v)%nat -> M (rows_before p i + k)%nat (column p v + u)%nat = jac i j (k * tangent p v + u)%nat) /\
    (forall c, (forall v, In v (indices (r_args b)) -> ~ (column p v <= c < column p v + tangent p v)%nat) -> M (rows_before p i + k)%nat c = 0).
(* two such matrices are the same in all rows *)

(* the number of entries in the blocks of a residual block, and of all of them *)
Definition width_of (p : Program) (b : RBlock) : nat := list_sum (map (tangent p) (indices (r_args b))).
Definition entries_of (p : Program) (bs : list RBlock) : nat := list_sum (map (fun b => (r_num b * width_of p b)%nat) bs).
Definition num_entries (p : Program) : nat := entries_of p (p_blocks p).
(* no single block has more than INT_MAX entries *)
Definition small_blocks (p : Program) : Prop := forall b v, In b (p_blocks p) -> In v (indices (r_args b)) -> (Z.of_nat (r_num b) * Z.of_nat (tangent p v) <= INT_MAX)%Z.

(* the columns increase in every row *)
Definition increasing_rows (m : crs) : Prop := forall r, (r < m_num_rows m)%nat -> StronglySorted Peano.lt (map fst (row_entries m r)).
(* the stores of the concurrent bodies are to different places below n *)
Definition separate (tasks : list (list Store)) (n : nat) : Prop := NoDup (map fst (concat tasks)) /\ forall s, In s (concat tasks) -> (fst s < n)%nat.

(* the values of the cells with (e = true) or without e blocks, row by row *)
Definition class_extents (nelim : nat) (e : bool) (bs : Structure) : list (nat * nat) :=
  flat_map (fun row => map (fun c => (cell_position c, (size (block row) * size (col bs (block_id c)))%nat))
    (filter (fun c => Bool.eqb (block_id c <? nelim)%nat e) (cells row))) (rows bs).
Definition increasing_cells (bs : Structure) : Prop := forall row, In row (rows bs) -> StronglySorted Peano.lt (map block_id (cells row)).

(* the entries in e blocks and the number of blocks *)
Definition e_width (p : Program) (nelim : nat) (b : RBlock) : nat := list_sum (map (tangent p) (filter (fun v => (v <? nelim)%nat) (indices (r_args b)))).
Definition e_entries (p : Program) (nelim : nat) : nat := list_sum (map (fun b => (r_num b * e_width p nelim b)%nat) (p_blocks p)).
Definition num_blocks (p : Program) : nat := list_sum (map (fun b => length (indices (r_args b))) (p_blocks p)).
