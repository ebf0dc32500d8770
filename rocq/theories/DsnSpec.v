(* Specification for C86. *)
From Coq Require Import Reals List Arith.
From Verif Require Import SparseModel SparseSpec SchurModel LsqModel LsqSpec DsnModel.
Import ListNotations.
Open Scope R_scope.

(* what is asked of a library in exact arithmetic: if everything succeeds, the vector solves the system;
   a failed factorization is not reported as a success; it succeeds for positive definite matrices *)
Definition exact_library (l : Library) : Prop :=
  (forall n M f rhs x, symmetric_matrix n M -> symbolic l n M = true -> numeric l n M = inl f -> back l n f rhs = (true, x) -> same n (row_times n M x) rhs) /\
  (forall n M t, numeric l n M = inr t -> t <> SUCCESS).
Definition complete_library (l : Library) : Prop :=
  forall n M, positive_definite n M -> symbolic l n M = true /\ exists f, numeric l n M = inl f /\ forall rhs, fst (back l n f rhs) = true.
(* a library that fails before the back substitution *)
Definition fails_early (l : Library) : Prop := forall n M, symbolic l n M = false \/ exists t, numeric l n M = inr t.
(* blocks that cover 0..n *)
Definition tiles (blocks : list (nat * nat)) (n : nat) : Prop :=
  consecutive 0 blocks /\ total_size blocks = n /\ Forall (fun b => (0 < fst b)%nat) blocks.
(* a Jacobian as the evaluator makes it: with the blocks of rows and columns or without any blocks *)
Definition jacobian (A : crs) : Prop :=
  m_valid A /\ m_storage A = Unsymmetric /\
  (m_row_blocks A = [] /\ m_col_blocks A = [] \/
   m_row_blocks A <> [] /\ m_col_blocks A <> [] /\ tiles (m_row_blocks A) (m_num_rows A) /\ tiles (m_col_blocks A) (m_num_cols A)).
(* the same matrix, entry by entry as stored, with the same blocks *)
Definition unchanged (A A' : crs) : Prop :=
  m_num_rows A' = m_num_rows A /\ m_num_cols A' = m_num_cols A /\ m_row_blocks A' = m_row_blocks A /\ m_col_blocks A' = m_col_blocks A /\
  (forall r, (r < m_num_rows A)%nat -> row_entries A' r = row_entries A r) /\ forall r c, m_matrix A' r c = m_matrix A r c.
