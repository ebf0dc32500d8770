(* C45: what the sparse matrix operations should do, in terms of the matrix
   (a function of row and column) that a sparse matrix stands for. *)

From Coq Require Import List Arith Bool Reals Permutation Sorted.
From Verif Require Import SparseModel.
Import ListNotations.
Local Open Scope R_scope.

(* sum_{i < n} f i *)
Fixpoint sum_below (n : nat) (f : nat -> R) : R :=
  match n with
  | O => 0
  | S n' => sum_below n' f + f n'
  end.

(* the matrix with the given nonzeros; repeated positions add up *)
Fixpoint matrix_of (es : list cell) (r c : nat) : R :=
  match es with
  | [] => 0
  | e :: es' =>
      (if Nat.eqb (c_row e) r && Nat.eqb (c_col e) c then c_val e else 0) + matrix_of es' r c
  end.

(* every position at most once *)
Definition no_duplicates (es : list cell) : Prop := NoDup (map fst es).

Definition in_matrix (nr nc : nat) (e : cell) : Prop :=
  (c_row e < nr)%nat /\ (c_col e < nc)%nat.

(* ---- triplets ---- *)

Definition t_entries (t : triplet) : list cell := firstn (t_nnz t) (t_data t).
Definition t_matrix (t : triplet) : nat -> nat -> R := matrix_of (t_entries t).

Definition t_valid (t : triplet) : Prop :=
  (t_nnz t <= length (t_data t))%nat /\
  Forall (in_matrix (t_num_rows t) (t_num_cols t)) (t_entries t).

(* ---- compressed rows ---- *)

Definition row_entries (m : crs) (r : nat) : list (nat * R) :=
  map (fun idx => (col_at m idx, val_at m idx)) (row_range m r).

Definition m_entries (m : crs) : list cell :=
  flat_map (fun r => map (fun cv => (r, fst cv, snd cv)) (row_entries m r))
    (seq 0 (m_num_rows m)).

(* the matrix of the stored entries *)
Definition m_matrix (m : crs) : nat -> nat -> R := matrix_of (m_entries m).

Record m_valid (m : crs) : Prop := mkvalid {
  v_len : length (m_rows m) = S (m_num_rows m);
  v_zero : row_at m 0 = 0%nat;
  v_mono : forall r, (r < m_num_rows m)%nat -> (row_at m r <= row_at m (S r))%nat;
  v_cols : (num_nonzeros m <= length (m_cols m))%nat;
  v_same : length (m_values m) = length (m_cols m);
  v_bound : forall i, (i < num_nonzeros m)%nat -> (col_at m i < m_num_cols m)%nat
}.

(* columns do not decrease within a row *)
Definition sorted_rows (m : crs) : Prop :=
  forall r, (r < m_num_rows m)%nat -> StronglySorted le (map fst (row_entries m r)).

(* the matrix that multiplication uses: with triangular storage the other
   triangle is implied *)
Definition full_matrix (m : crs) (r c : nat) : R :=
  match m_storage m with
  | Unsymmetric => m_matrix m r c
  | Upper => if (r <=? c)%nat then m_matrix m r c else m_matrix m c r
  | Lower => if (c <=? r)%nat then m_matrix m r c else m_matrix m c r
  end.

(* what std::sort(index, RowColLessThan(rows, cols)) may return *)
Definition before (a b : cell) : Prop :=
  (c_row a < c_row b)%nat \/ (c_row a = c_row b /\ (c_col a <= c_col b)%nat).

Definition sorts (tr : bool) (t : triplet) (index : list nat) : Prop :=
  Permutation index (seq 0 (t_nnz t)) /\
  StronglySorted before (map (fun i => swap_cell tr (t_cell t i)) index).

(* consecutive blocks starting at [pos] *)
Fixpoint consecutive (pos : nat) (blocks : list (nat * nat)) : Prop :=
  match blocks with
  | [] => True
  | b :: rest => snd b = pos /\ consecutive (pos + fst b) rest
  end.

Definition total_size (blocks : list (nat * nat)) : nat := list_sum (map fst blocks).

(* r and c lie in the same block *)
Definition same_block (blocks : list (nat * nat)) (r c : nat) : Prop :=
  exists b, In b blocks /\ (snd b <= r < snd b + fst b)%nat /\ (snd b <= c < snd b + fst b)%nat.
