(* Model for C86: dynamic_sparse_normal_cholesky_solver.cc.  Scalars are real; the sparse libraries are
   oracles. *)
From Coq Require Import Reals List Arith Bool.
From Verif Require Import SparseModel SchurModel BlockSparseModel LsqModel.
Import ListNotations.
Open Scope R_scope.

(* dynamic_sparse_normal_cholesky_solver.cc 87-103; the other types are LOG(FATAL) *)
Inductive LibraryType : Type := SUITE_SPARSE | EIGEN_SPARSE | CUDA_SPARSE.
(* what the code calls of a library: symbolic analysis; numeric factorization, which returns a factor
   or how it failed; back substitution, which returns whether it succeeded and a vector *)
Record Library : Type := mkLibrary { LFactor : Type; symbolic : nat -> matrix -> bool; numeric : nat -> matrix -> LFactor + Termination; back : nat -> LFactor -> vec -> bool * vec }.

(* dynamic_sparse_normal_cholesky_solver.cc 129-137 and 261-269: the product a.transpose() * a of the matrix whose arrays are mapped, entry i j;
   207: CreateSparseMatrixTransposeView (suitesparse.cc 113-140) has the entry (i, r) for the entry
   (r, i) of A, and CHOLMOD factors the view times its transpose *)
Definition Product (A : crs) : matrix := fun i j => sumn (m_num_rows A) (fun r => stored_entry A r i * stored_entry A r j).
(* Eigen::SimplicialLDLT reads the lower triangle (its default); the matrix for cuDSS is the lower
   triangle (269-276) *)
Definition ReadLower (P : matrix) : matrix := fun i j => P (Nat.max i j) (Nat.min i j).

(* dynamic_sparse_normal_cholesky_solver.cc 111-178 SolveImplUsingEigen: termination type and x, which holds the right hand side at first *)
Definition SolveImplUsingEigen (l : Library) (A : crs) (x : vec) : Termination * vec :=
  let n := m_num_cols A in let lhs := ReadLower (Product A) in
  if negb (symbolic l n lhs) then (FATAL_ERROR, x)
  else match numeric l n lhs with
    | inr _ => (FAILURE, x)
    | inl f => let '(ok, y) := back l n f x in ((if ok then SUCCESS else FAILURE), y)
    end.
(* dynamic_sparse_normal_cholesky_solver.cc 180-238 SolveImplUsingSuiteSparse *)
Definition SolveImplUsingSuiteSparse (l : Library) (A : crs) (x : vec) : Termination * vec :=
  let n := m_num_cols A in let lhs := Product A in
  if negb (symbolic l n lhs) then (FATAL_ERROR, x)
  else match numeric l n lhs with
    | inr t => (t, x)
    | inl f => let '(ok, y) := back l n f x in if ok then (SUCCESS, y) else (FAILURE, x)
    end.
(* dynamic_sparse_normal_cholesky_solver.cc 240-297 SolveImplUsingCuda: Factorize analyses and factors; Solve may have written to x when it
   fails *)
Definition SolveImplUsingCuda (l : Library) (A : crs) (x : vec) : Termination * vec :=
  let n := m_num_cols A in let lhs := ReadLower (Product A) in
  if negb (symbolic l n lhs) then (FATAL_ERROR, x)
  else match numeric l n lhs with
    | inr t => (t, x)
    | inl f => let '(ok, y) := back l n f x in ((if ok then SUCCESS else FATAL_ERROR), y)
    end.
(* dynamic_sparse_normal_cholesky_solver.cc 63-109 SolveImpl, 73-85 the regularizer; None: a CHECK fails.  Result: termination type, x, A *)
Definition Regularizer (A : crs) (D : vec) : option crs :=
  if negb (is_nil (m_col_blocks A)) then block_diagonal (Some D) (m_col_blocks A) else crs_diagonal D (m_num_cols A).
Definition SolveImpl (t : LibraryType) (l : Library) (A : crs) (b : vec) (D : option vec) : option (Termination * vec * crs) :=
  let x := left_multiply A b (fun _ => 0) in
  match (match D with
         | Some d => match Regularizer A d with None => None | Some r => append_rows A r end
         | None => Some A end) with
  | None => None
  | Some A1 =>
    let '(s, y) := match t with
      | SUITE_SPARSE => SolveImplUsingSuiteSparse l A1 x
      | EIGEN_SPARSE => SolveImplUsingEigen l A1 x
      | CUDA_SPARSE => SolveImplUsingCuda l A1 x end in
    match (match D with Some _ => delete_rows A1 (m_num_cols A) | None => Some A1 end) with
    | None => None
    | Some A2 => Some (s, y, A2)
    end
  end.
(* linear_solver.h, Solve calls SolveImpl (dynamic_sparse_normal_cholesky_solver.cc 63): a sequence of calls on one matrix object *)
Fixpoint Solves (t : LibraryType) (l : Library) (A : crs) (calls : list (vec * option vec)) : option (list (Termination * vec * crs)) :=
  match calls with
  | [] => Some []
  | (b, D) :: rest =>
    match SolveImpl t l A b D with
    | None => None
    | Some (s, x, A') => match Solves t l A' rest with None => None | Some r => Some ((s, x, A') :: r) end
    end
  end.
