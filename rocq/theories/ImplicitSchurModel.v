(* The iterative linear solvers: internal/ceres/implicit_schur_complement.cc,
   power_series_expansion_preconditioner.cc, iterative_schur_complement_solver.cc,
   cgnr_solver.cc, block_jacobi_preconditioner.cc.

   double is modelled by R.  Matrices and their updates: BlockSparseModel.v; conjugate
   gradients: CGModel.v.  The scratch vectors are values: each is set to zero or assigned
   before it is used.  None: a failed CHECK or LOG(FATAL). *)
From Coq Require Import Reals ZArith List Arith Bool.
From Verif Require Import SchurModel BlockSparseModel CGModel.
Import ListNotations.
Open Scope R_scope.

(* partitioned_matrix_view.h 66-150: what the solvers use of a PartitionedMatrixView.  Each
   product takes x and y and returns the new y; block k of the diagonals *)
Record View : Type := mkView { right_e : Operator; right_f : Operator; left_e : Operator; left_f : Operator; ete : nat -> matrix; ftf : nat -> matrix }.
(* the view of a matrix whose parallel loops were interleaved in some way; with one thread or
   without the transposed structure the left products and the diagonals are serial *)
Definition performs (nelim : nat) (a : BlockSparse) (v : View) : Prop :=
  (forall x y, Parallel (RightE nelim (structure a) (values a) x) y (right_e v x y)) /\
  (forall x y, exists y1, Parallel (RightF1 nelim (structure a) (values a) x) y y1 /\ Parallel (RightF2 nelim (structure a) (values a) x) y1 (right_f v x y)) /\
  (forall x y, left_e v x y = Serial (LeftE nelim (structure a) (values a) x) y \/
    Parallel (LeftETranspose nelim (num_row_blocks_e nelim (structure a)) (transposed a) (values a) x) y (left_e v x y)) /\
  (forall x y, left_f v x y = Serial (LeftF nelim (structure a) (values a) x) y \/
    Parallel (LeftFTranspose nelim (num_cols_e nelim (structure a)) (transposed a) (values a) x) y (left_f v x y)) /\
  (forall k, ete v k = DiagonalE nelim (structure a) (values a) k \/ ete v k = DiagonalTranspose (transposed a) (values a) k) /\
  (forall k, ftf v k = DiagonalF nelim (structure a) (values a) k \/ ftf v k = DiagonalTranspose (transposed a) (values a) (nelim + k)).

(* partitioned_matrix_view_impl.h 390-413 the blocks of a block diagonal matrix, laid out
   from p.  Its values are kept by block: where the blocks lie in memory is not modelled *)
Fixpoint DiagonalLayout (p : nat) (bl : list Block) : list Block :=
  match bl with [] => [] | b :: bl' => mkBlock (size b) p :: DiagonalLayout (p + size b) bl' end.
(* the product with a block diagonal matrix: block_sparse_matrix.cc 239-273 for one cell in
   every row; block_random_access_diagonal_matrix.cc 102-116 *)
Definition DiagonalTasks (bl : list Block) (m : nat -> matrix) (x : vec) : list (list Update) :=
  map (fun kb => [mkUpdate (position (snd kb)) (size (snd kb)) (mv (size (snd kb)) (m (fst kb)) (shift x (position (snd kb))))]) (combine (seq 0 (length bl)) bl).

(* what the threads made of the parallel loops: the views of matrices, the products of block
   diagonal matrices, the products of matrices *)
Record Threads : Type := mkThreads {
  view_of : nat -> BlockSparse -> View;
  block_times : list Block -> (nat -> matrix) -> Operator;
  right_times : BlockSparse -> Operator;
  left_times : BlockSparse -> Operator }.
Definition scheduled (t : Threads) : Prop :=
  (forall nelim a, performs nelim a (view_of t nelim a)) /\
  (forall bl m x y, Parallel (DiagonalTasks bl m x) y (block_times t bl m x y)) /\
  (forall a x y, Parallel (RightTasks (structure a) (values a) x) y (right_times t a x y)) /\
  (forall a x y, left_times t a x y = Serial (LeftTasks (structure a) (values a) x) y \/
    Parallel (LeftTransposeTasks (transposed a) (values a) x) y (left_times t a x y)).

(* m.selfadjointView<Eigen::Upper>() *)
Definition upper (m : matrix) : matrix := fun i j => if (i <=? j)%nat then m i j else m j i.
(* implicit_schur_complement.cc 179-204 AddDiagonalAndInvert.  llt n m: m.llt().solve(identity) *)
Definition AddDiagonalAndInvert (llt : nat -> matrix -> matrix) (bl : list Block) (D : option vec) (m : nat -> matrix) : nat -> matrix :=
  fun k => let b := nth k bl (mkBlock 0 0) in
    llt (size b) (upper (fun i j => m k i j + match D with Some d => if (i =? j)%nat then d (position b + i)%nat * d (position b + i)%nat else 0 | None => 0 end)).

(* ImplicitSchurComplement after Init *)
Record Schur : Type := mkSchur { s_view : View; s_e : nat; s_f : nat; s_D : option vec; s_b : vec;
  e_blocks : list Block; f_blocks : list Block; ete_inverse : nat -> matrix; ftf_inverse : option (nat -> matrix); s_rhs : vec }.
(* 251-276 UpdateRhs *)
Definition Rhs (t : Threads) (v : View) (bl : list Block) (inverse : nat -> matrix) (b : vec) : vec :=
  let y1 := left_e v b Zero in
  let y2 := block_times t bl inverse y1 Zero in
  let y3 := right_e v y2 Zero in
  left_f v (fun p => b p - y3 p) Zero.
(* 49-97 Init; a: the matrix of the view *)
Definition InitSchur (t : Threads) (llt : nat -> matrix -> matrix) (nelim : nat) (compute_ftf_inverse : bool) (a : BlockSparse) (D : option vec) (b : vec) : Schur :=
  let v := view_of t nelim a in
  let ne := num_cols_e nelim (structure a) in
  let eb := DiagonalLayout 0 (firstn nelim (cols (structure a))) in
  let fb := DiagonalLayout 0 (skipn nelim (cols (structure a))) in
  let ei := AddDiagonalAndInvert llt eb D (ete v) in
  let fi := if compute_ftf_inverse then Some (AddDiagonalAndInvert llt fb (option_map (fun d => shift d ne) D) (ftf v)) else None in
  mkSchur v ne (num_cols_f nelim (structure a)) D b eb fb ei fi (Rhs t v eb ei b).
(* 106-144 RightMultiplyAndAccumulate *)
Definition SchurTimes (t : Threads) (s : Schur) : Operator := fun x y =>
  let y1 := right_f (s_view s) x Zero in
  let y2 := left_e (s_view s) y1 Zero in
  let y3 := block_times t (e_blocks s) (ete_inverse s) y2 Zero in
  let y1 := right_e (s_view s) (fun i => - y3 i) y1 in
  let y5 := fun i => if (i <? s_f s)%nat then match s_D s with Some d => d (s_e s + i)%nat * d (s_e s + i)%nat * x i | None => 0 end else y i in
  left_f (s_view s) y1 y5.
(* 146-174 InversePowerSeriesOperatorRightMultiplyAccumulate; inverse: block_diagonal_FtF_inverse_ *)
Definition PowerTimes (t : Threads) (s : Schur) (inverse : nat -> matrix) : Operator := fun x y =>
  let y1 := right_f (s_view s) x Zero in
  let y2 := left_e (s_view s) y1 Zero in
  let y3 := block_times t (e_blocks s) (ete_inverse s) y2 Zero in
  let y1 := right_e (s_view s) y3 Zero in
  let y4 := left_f (s_view s) y1 Zero in
  block_times t (f_blocks s) inverse y4 y.
(* 208-243 BackSubstitute *)
Definition BackSubstitute (t : Threads) (s : Schur) (x y : vec) : vec :=
  let y1 := right_f (s_view s) x Zero in
  let y2 := fun p => s_b s p - y1 p in
  let y3 := left_e (s_view s) y2 Zero in
  let y := block_times t (e_blocks s) (ete_inverse s) y3 (fun i => if (i <? s_e s + s_f s)%nat then 0 else y i) in
  fun i => if (s_e s <=? i)%nat && (i <? s_e s + s_f s)%nat then x (i - s_e s)%nat else y i.

(* power_series_expansion_preconditioner.cc 71-81, term i *)
Fixpoint SeriesLoop (fuel : nat) (n : nat) (op : Operator) (max : Z) (threshold : R) (i : Z) (previous y : vec) : vec :=
  let term := op previous Zero in
  let y := fun p => y p + term p in
  match fuel with
  | O => y
  | S fuel' => if (max <=? i)%Z || lt (Norm n term) threshold then y else SeriesLoop fuel' n op max threshold (i + 1) term y
  end.
(* 57-82 RightMultiplyAndAccumulate; the entries of y from n on are not touched *)
Definition PowerSeries (t : Threads) (s : Schur) (inverse : nat -> matrix) (max : Z) (tolerance : R) : Operator := fun x y =>
  let y := block_times t (f_blocks s) inverse x (fun i => if (i <? s_f s)%nat then 0 else y i) in
  let out := SeriesLoop (Z.to_nat max) (s_f s) (PowerTimes t s inverse) max (tolerance * Norm (s_f s) y) 1 y y in
  fun i => if (i <? s_f s)%nat then out i else y i.

(* include/ceres/types.h 93 *)
Inductive PreconditionerType : Type := IDENTITY | JACOBI | SCHUR_JACOBI | SCHUR_POWER_SERIES_EXPANSION | CLUSTER_JACOBI | CLUSTER_TRIDIAGONAL | SUBSET.
(* linear_solver.h: the options that matter here *)
Record LinearOptions : Type := mkLinear { cg : CGModel.Options; preconditioner_type : PreconditionerType; use_spse_initialization : bool; max_num_spse_iterations : Z; spse_tolerance : R }.
(* implicit_schur_complement.cc 61-64 *)
Definition wants_ftf (o : LinearOptions) : bool :=
  use_spse_initialization o || match preconditioner_type o with JACOBI | SCHUR_POWER_SERIES_EXPANSION => true | _ => false end.
(* preconditioner.h 160-176 *)
Definition Identity (n : nat) : Operator := fun x y i => if (i <? n)%nat then y i + x i else y i.
Inductive Made : Type := Fatal | UpdateFailed | Usable (op : Operator).
(* iterative_schur_complement_solver.cc 159-199 CreatePreconditioner and the Update of 113-121.
   other: Update of a SchurJacobiPreconditioner or VisibilityBasedPreconditioner, None when
   it fails, else the operator it leaves *)
Definition MakePreconditioner (t : Threads) (o : LinearOptions) (s : Schur) (other : option Operator) : Made :=
  match preconditioner_type o with
  | IDENTITY => Usable (Identity (s_f s))
  | JACOBI => match ftf_inverse s with Some m => Usable (block_times t (f_blocks s) m) | None => Fatal end
  | SCHUR_POWER_SERIES_EXPANSION => match ftf_inverse s with Some m => Usable (PowerSeries t s m (max_num_spse_iterations o) 0) | None => Fatal end
  | SCHUR_JACOBI | CLUSTER_JACOBI | CLUSTER_TRIDIAGONAL => match other with Some op => Usable op | None => UpdateFailed end
  | SUBSET => Fatal
  end.

(* the summary: that of conjugate gradients, or one of the two made at 89-94 and 115-120 *)
Inductive Outcome : Type := NothingToReduce | PreconditionerFailed | Iterated (s : CGModel.Summary).
Definition termination (r : Outcome) : Termination := match r with NothingToReduce => SUCCESS | PreconditionerFailed => FAILURE | Iterated s => termination_type s end.
(* 64-157 SolveImpl.  cached: the matrix that schur_complement_ was made for by an earlier
   call; matrices are objects, heap gives their contents.  junk: what the scratch vectors
   hold.  A->block_structure() and A->transpose_block_structure() are taken as present.
   BackSubstitute(nullptr, x) at 93: with no columns left the pointer is not followed *)
Definition SolveSchur (t : Threads) (llt : nat -> matrix -> matrix) (heap : nat -> BlockSparse) (nelim : nat) (o : LinearOptions) (cached : option nat) (A : nat) (D : option vec) (b : vec)
    (other : option Operator) (junk x : vec) : option (Outcome * vec * option nat) :=
  let a := match cached with Some a => a | None => A end in
  let s := InitSchur t llt nelim (wants_ftf o) (heap a) D b in
  if (length (cols (structure (heap A))) - nelim =? 0)%nat then Some (NothingToReduce, BackSubstitute t s junk x, Some a)
  else
    let x0 := if use_spse_initialization o then
                match ftf_inverse s with Some m => Some (PowerSeries t s m (max_num_spse_iterations o) (spse_tolerance o) (s_rhs s) Zero) | None => None end
              else Some Zero in
    match x0 with
    | None => None
    | Some x0 =>
      match MakePreconditioner t o s other with
      | Fatal => None
      | UpdateFailed => Some (PreconditionerFailed, x, Some a)
      | Usable op =>
        match ConjugateGradientsSolver (s_f s) (cg o) (SchurTimes t s) (s_rhs s) op junk x0 with
        | None => None
        | Some (sum, z) => Some (Iterated sum, match termination_type sum with FAILURE => x | _ => BackSubstitute t s z x end, Some a)
        end
      end
    end.

(* cgnr_solver.cc 98-114 CgnrLinearOperator; n: num_cols *)
Definition CgnrTimes (t : Threads) (a : BlockSparse) (D : option vec) : Operator := fun x y =>
  let z := right_times t a x Zero in
  let y := left_times t a z y in
  match D with
  | None => y
  | Some d => fun i => if (i <? num_columns a)%nat then y i + d i * d i * x i else y i
  end.
(* block_jacobi_preconditioner.cc 59-92: block k of the block diagonal of A'A.  The lock
   makes the order of the additions the only freedom; they are made in the order of the rows *)
Definition JacobiBlock (bs : Structure) (values : vec) (k : nat) : matrix :=
  fold_left (fun m row => fold_left (fun m c => if (block_id c =? k)%nat then
      let w := size (col bs (block_id c)) in let A := block_at values (cell_position c) w in (fun i j => m i j + mtm (size (block row)) A A i j) else m) (cells row) m)
    (rows bs) (fun _ _ => 0).
(* 59-115 UpdateImpl: the diagonal is added and the blocks inverted as in AddDiagonalAndInvert
   (block_random_access_diagonal_matrix.cc 90-100) *)
Definition JacobiInverse (llt : nat -> matrix -> matrix) (a : BlockSparse) (D : option vec) : nat -> matrix :=
  AddDiagonalAndInvert llt (cols (structure a)) D (JacobiBlock (structure a) (values a)).
(* cgnr_solver.cc 125-135 the constructor, 146-207 SolveImpl.  subset: the operator that the
   SubsetPreconditioner is after its Update, whose result is not looked at *)
Definition SolveCgnr (t : Threads) (llt : nat -> matrix -> matrix) (o : LinearOptions) (a : BlockSparse) (D : option vec) (b : vec) (subset : Operator) (junk x : vec) : option (CGModel.Summary * vec) :=
  match match preconditioner_type o with
        | JACOBI => Some (block_times t (cols (structure a)) (JacobiInverse llt a D))
        | SUBSET => Some subset
        | IDENTITY => Some (Identity (num_columns a))
        | _ => None
        end with
  | None => None
  | Some op =>
    match ConjugateGradientsSolver (num_columns a) (cg o) (CgnrTimes t a D) (left_times t a b Zero) op junk Zero with
    | None => None
    | Some (sum, z) => Some (sum, fun i => if (i <? num_columns a)%nat then z i else x i)
    end
  end.
