(* Model for C73: the direct linear solvers DENSE_NORMAL_CHOLESKY, DENSE_QR and
   SPARSE_NORMAL_CHOLESKY, FactorAndSolve and the iterative refiners.  Scalars are real; the
   factorizations of Eigen, LAPACK, SuiteSparse are oracles (fields of the records below).
   num_iterations and the messages of the summaries are left out. *)
From Coq Require Import Reals List Arith Bool.
From Verif Require Import SchurModel BlockSparseModel GramModel SparseModel.
Import ListNotations.
Open Scope R_scope.

(* linear_solver.h 54-71 LinearSolverTerminationType *)
Inductive Termination : Type := SUCCESS | NO_CONVERGENCE | FAILURE | FATAL_ERROR.

(* dense_cholesky.h 56-118, sparse_cholesky.h 66-112: a Cholesky factorization.  factorize n m is
   given the symmetric matrix that the library reads (from one triangle) and returns the factor
   and what Solve needs, or fails; solve: two triangular solves.  in_place: the factor is
   written over the matrix (EigenDenseCholesky, whose LLT is that of a Ref, and
   LAPACKDenseCholesky), otherwise a copy is factored (the float variants) *)
Record Cholesky : Type := mkCholesky {
  Factor : Type;
  in_place : bool;
  factorize : nat -> matrix -> option Factor;
  lower_factor : Factor -> matrix;
  solve : nat -> Factor -> vec -> vec }.

(* iterative_refiner.cc 51-70, 82-99: residual = rhs - lhs * solution; solution += lhs^-1 residual.
   multiply: the product with lhs; cholesky->Solve: what it returns is not looked at *)
Fixpoint Refine (multiply backsolve : vec -> vec) (rhs : vec) (iterations : nat) (solution : vec) : vec :=
  match iterations with
  | O => solution
  | S k => Refine multiply backsolve rhs k (fun i => solution i + backsolve (fun j => rhs j - multiply solution j) i)
  end.

(* ------------------------------------------------------------------ dense *)
(* the matrix that a factorization with uplo = 'L' reads from a column-major array of n columns:
   dense_cholesky.cc 153-155, 195-203, LLT<..., Eigen::Lower> *)
Definition read_lower (n : nat) (array : vec) : matrix := fun i j => array (Nat.min i j * n + Nat.max i j)%nat.
(* the array after a factorization in place: the lower triangle is overwritten *)
Definition write_lower (n : nat) (l : matrix) (array : vec) : vec := fun p =>
  if (p <? n * n)%nat && (p / n <=? p mod n)%nat then l (p mod n)%nat (p / n)%nat else array p.
(* a row-major array of n columns as a matrix: ConstMatrixRef *)
Definition row_major (n : nat) (array : vec) : matrix := fun i j => array (i * n + j)%nat.

(* dense_cholesky.cc 138-151 FactorAndSolve, 153-236 Factorize, Solve; 331-350
   RefinedDenseCholesky (91-96: used if there are iterations); iterative_refiner.cc 82-99.
   x: what solution held before; it is not written if the factorization fails *)
Definition DenseFactorAndSolve (c : Cholesky) (iterations n : nat) (lhs rhs x : vec) : Termination * vec :=
  match factorize c n (read_lower n lhs) with
  | None => (FAILURE, x)
  | Some f =>
    let lhs' := if in_place c then write_lower n (lower_factor c f) lhs else lhs in
    let solution := solve c n f rhs in
    (SUCCESS, Refine (mv n (row_major n lhs')) (solve c n f) rhs iterations solution)
  end.

(* dense_normal_cholesky_solver.cc 54-66: lhs.setZero(); the upper triangle += A'A; the
   diagonal += D^2.  lhs is row major *)
Definition DenseLhs (num_rows num_cols : nat) (A : matrix) (D : option vec) : vec := fun p =>
  let r := (p / num_cols)%nat in let c := (p mod num_cols)%nat in
  (if (r <=? c)%nat then 0 + sumn num_rows (fun k => A k r * A k c) else 0) +
  match D with Some d => if (r =? c)%nat then d r * d r else 0 | None => 0 end.
(* 69 rhs = A'b *)
Definition DenseRhs (num_rows : nat) (A : matrix) (b : vec) : vec := fun q => sumn num_rows (fun p => A p q * b p).
(* 46-83 SolveImpl *)
Definition DenseNormalCholesky (c : Cholesky) (iterations num_rows num_cols : nat) (A : matrix) (b : vec) (D : option vec) (x : vec) : Termination * vec :=
  DenseFactorAndSolve c iterations num_cols (DenseLhs num_rows num_cols A D) (DenseRhs num_rows A b) x.

(* dense_qr.h 44-110: a QR factorization; dense_qr.cc 169-189 (Eigen: always a solution),
   191-299 (LAPACK: fails if R has a zero on the diagonal).  overwrite: what the factorization in
   place leaves in the array *)
Record QR : Type := mkQR {
  QRFactor : Type;
  qr_factorize : nat -> nat -> matrix -> QRFactor;
  overwrite : nat -> nat -> matrix -> matrix;
  qr_solve : nat -> nat -> QRFactor -> vec -> option vec }.
(* dense_qr_solver.h 105-107: lhs_ and rhs_, kept between calls *)
Record QRState : Type := mkQRState { q_rows : nat; q_cols : nat; q_lhs : matrix; q_rhs : vec }.
(* dense_qr_solver.cc 48-81 SolveImpl; junk: what resized arrays hold *)
Definition DenseQR (q : QR) (st : QRState) (junk : matrix) (junk' : vec) (num_rows num_cols : nat) (A : matrix) (b : vec) (D : option vec) (x : vec) : Termination * vec * QRState :=
  let num_augmented_rows := (num_rows + match D with Some _ => num_cols | None => 0 end)%nat in
  let '(lhs, rhs) := if negb (q_rows st =? num_augmented_rows)%nat || negb (q_cols st =? num_cols)%nat then (junk, junk') else (q_lhs st, q_rhs st) in
  let lhs := fun i j => if (i <? num_rows)%nat then A i j else lhs i j in
  let rhs := fun i => if (i <? num_rows)%nat then b i else rhs i in
  let lhs := if negb (num_rows =? num_augmented_rows)%nat then
      fun i j => if (num_augmented_rows - num_cols <=? i)%nat then
        match D with Some d => if (i - (num_augmented_rows - num_cols) =? j)%nat then d j else 0 | None => 0 end else lhs i j else lhs in
  let rhs := if negb (num_rows =? num_augmented_rows)%nat then
      fun i => if (num_augmented_rows - num_cols <=? i)%nat then 0 else rhs i else rhs in
  let st' := mkQRState num_augmented_rows num_cols (overwrite q num_augmented_rows num_cols lhs) rhs in
  match qr_solve q num_augmented_rows num_cols (qr_factorize q num_augmented_rows num_cols lhs) rhs with
  | Some s => (SUCCESS, s, st')
  | None => (FAILURE, x, st')
  end.

(* ------------------------------------------------------------------ sparse *)
(* the matrix that a sparse factorization reads from triangular storage: eigensparse.cc 60-64
   (LOWER_TRIANGULAR), suitesparse.cc (UPPER_TRIANGULAR) *)
Definition stored_entry (m : crs) (r c : nat) : R :=
  fold_right (fun t s => (if (col_at m t =? c)%nat then val_at m t else 0) + s) 0 (row_range m r).
Definition read_triangle (m : crs) : matrix := fun i j =>
  match m_storage m with
  | Lower => stored_entry m (Nat.max i j) (Nat.min i j)
  | _ => stored_entry m (Nat.min i j) (Nat.max i j)
  end.
(* sparse_cholesky.cc 112-123 FactorAndSolve, 138-164 RefinedSparseCholesky; iterative_refiner.cc
   51-70, where the product starts from zero *)
Definition SparseFactorAndSolve (c : Cholesky) (iterations : nat) (lhs : crs) (rhs x : vec) : Termination * vec :=
  let n := m_num_cols lhs in
  match factorize c n (read_triangle lhs) with
  | None => (FAILURE, x)
  | Some f => (SUCCESS, Refine (fun s => right_multiply lhs (range 0 (m_num_rows lhs)) s (fun _ => 0)) (solve c n f) rhs iterations (solve c n f rhs))
  end.

(* the compressed row matrix of an inner product computer: inner_product_computer.cc 87-97 *)
Definition result_matrix (lower : bool) (n : nat) (r : Inner) (v : vec) : crs :=
  mkcrs n n (i_rows r) (map (columns r (fun _ => 0%nat)) (seq 0 (i_nonzeros r))) (map v (seq 0 (i_nonzeros r)))
    (if lower then Lower else Upper) [] [].

(* what the solver keeps: the computer with its number of row blocks, and the values of its result *)
Definition SparseState : Type := option (Inner * nat * vec).
(* sparse_normal_cholesky_solver.cc 57-110 SolveImpl.  None: a CHECK fails.  A failed symbolic
   analysis (FATAL_ERROR) is not told apart from a failed factorization.  With more row blocks
   at the first call than now the code would read beyond the structure; the model stops at its end.  junk, junk': what
   freshly allocated memory holds.  Result: termination, x, A and the state *)
Definition SparseNormalCholesky (c : Cholesky) (iterations : nat) (lower : bool) (st : SparseState) (junk junk' : vec)
    (A : BlockSparse) (b : vec) (D : option vec) : option (Termination * vec * BlockSparse * SparseState) :=
  let x := fun _ => 0 in
  let rhs := Serial (LeftTasks (structure A) (values A) b) (fun _ => 0) in
  match (match D with Some d => AppendRows A (CreateDiagonalMatrix d (SchurModel.cols (structure A)) junk) junk | None => Some A end) with
  | None => None
  | Some A1 =>
    let '(r, e, v0) := match st with
      | Some s => s
      | None => let e := length (SchurModel.rows (structure A1)) in (Create (structure A1) 0 e lower, e, junk')
      end in
    match Compute (structure A1) (values A1) 0 e lower r v0 with
    | None => None
    | Some v =>
      match (match D with Some _ => DeleteRowBlocks A1 (length (SchurModel.cols (structure A1))) | None => Some A1 end) with
      | None => None
      | Some A2 =>
        let '(t, s) := SparseFactorAndSolve c iterations (result_matrix lower (num_columns A1) r v) rhs x in
        Some (t, s, A2, Some (r, e, v))
      end
    end
  end.
(* a sequence of calls with one solver and one matrix object, whose values may change from call to
   call (with_new values), as the evaluator does *)
Record Call : Type := mkCall { c_values : vec; c_b : vec; c_D : option vec; c_junk : vec; c_junk' : vec }.
Definition with_new (A : BlockSparse) (v : vec) : BlockSparse :=
  mkBlockSparse (structure A) (transposed A) (fun p => if (p <? nnz A)%nat then v p else values A p) (nnz A) (max_nnz A) (num_rows A) (num_columns A).
Fixpoint SparseCalls (c : Cholesky) (iterations : nat) (lower : bool) (st : SparseState) (A : BlockSparse) (calls : list Call) : option (list (Termination * vec * BlockSparse)) :=
  match calls with
  | [] => Some []
  | k :: calls' =>
    match SparseNormalCholesky c iterations lower st (c_junk k) (c_junk' k) (with_new A (c_values k)) (c_b k) (c_D k) with
    | None => None
    | Some (t, x, A', st') => match SparseCalls c iterations lower st' A' calls' with None => None | Some l => Some ((t, x, A') :: l) end
    end
  end.
