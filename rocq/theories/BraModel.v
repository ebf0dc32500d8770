(* Block random access matrices: internal/ceres/block_random_access_matrix.h,
   block_random_access_dense_matrix.cc, block_random_access_sparse_matrix.cc,
   block_random_access_diagonal_matrix.cc, and their use by schur_complement_solver.cc,
   schur_jacobi_preconditioner.cc and schur_eliminator_impl.h.

   double is modelled by R, memory by a list; int by nat, with None for results out of its
   range.  None also stands for other undefined behaviour and for failed CHECKs. *)
From Coq Require Import Reals List Arith ZArith Bool.
From Verif Require Import SchurModel.
Import ListNotations.
Close Scope R_scope.
Open Scope nat_scope.

Definition INT_MAX : Z := 2147483647.
Definition fits (z : Z) : bool := (z <=? INT_MAX)%Z.
(* block_structure.h 184-191 *)
Definition NumScalarEntries (blocks : list Block) : nat :=
  match rev blocks with [] => 0 | b :: _ => position b + size b end.
(* block_structure.cc 46-60 Tail; 52-57 the loop *)
Fixpoint rebase (p : nat) (blocks : list Block) : list Block :=
  match blocks with [] => [] | b :: bs => mkBlock (size b) p :: rebase (p + size b) bs end.
Definition Tail (blocks : list Block) (n : nat) : option (list Block) :=
  if n <=? length blocks then Some (rebase 0 (skipn (length blocks - n) blocks)) else None.

(* block_random_access_matrix.h 84-90 CellInfo: which mutex, and where in the values of the
   matrix the pointer points; with it the results row, col, row_stride, col_stride of GetCell *)
Record Window : Type := mkWindow { lock : Z; start_of : nat; row_in : nat; col_in : nat; row_stride : nat; col_stride : nat }.
(* MatrixRef(values, row_stride, col_stride).block(row, col, ., .)(r, c), row major *)
Definition address (w : Window) (r c : nat) : nat := start_of w + (row_in w + r) * col_stride w + (col_in w + c).

Inductive Storage : Type :=
(* block_random_access_dense_matrix.h: num_rows_ *)
| Dense (num_rows : nat)
(* block_random_access_sparse_matrix.h: the rows of the block structure of bsm_, and layout_
   (an unordered_map: emplace does not overwrite, so the first entry of a key counts) *)
| Sparse (cells_of_row : list (list Cell)) (layout : list (Z * nat))
(* block_random_access_diagonal_matrix.h: rows and cols of m_, and layout_ *)
| Diagonal (crs_rows crs_cols : list nat) (layout : list nat).
Record Bram : Type := mkBram { blocks : list Block; storage : Storage; values : list R }.

(* ------------------------------------------------------------------ constructors *)
(* block_random_access_dense_matrix.cc 40-52 *)
Definition NewDense (bl : list Block) : option Bram :=
  let n := NumScalarEntries bl in
  if fits (Z.of_nat n * Z.of_nat n) && fits (Z.of_nat (length bl) * Z.of_nat (length bl)) then
    Some (mkBram bl (Dense n) (repeat 0%R (n * n)))
  else None.

(* absl::btree_set<std::pair<int, int>>: an ordered list without duplicates *)
Definition pair_lt (p q : nat * nat) : bool := (fst p <? fst q) || ((fst p =? fst q) && (snd p <? snd q)).
Fixpoint emplace (p : nat * nat) (s : list (nat * nat)) : list (nat * nat) :=
  match s with
  | [] => [p]
  | q :: s' => if pair_lt p q then p :: s else if pair_lt q p then q :: emplace p s' else s
  end.
Definition btree_set (ps : list (nat * nat)) : list (nat * nat) := fold_left (fun s p => emplace p s) ps [].
(* block_random_access_sparse_matrix.cc 79-83: the pairs of a row block; result: its cells,
   num_nonzeros and the pairs that are left *)
Fixpoint row_cells (bl : list Block) (row_block_id row_block_size : nat) (p : list (nat * nat)) (num_nonzeros : nat) : option (list Cell * nat * list (nat * nat)) :=
  match p with
  | (i, j) :: p' =>
    if row_block_id =? i then
      match nth_error bl j with
      | None => None
      | Some b =>
        if fits (Z.of_nat num_nonzeros + Z.of_nat row_block_size * Z.of_nat (size b)) then
          match row_cells bl row_block_id row_block_size p' (num_nonzeros + row_block_size * size b) with
          | None => None
          | Some (cs, n, rest) => Some (mkCell j num_nonzeros :: cs, n, rest)
          end
        else None
      end
    else Some ([], num_nonzeros, p)
  | [] => Some ([], num_nonzeros, [])
  end.
(* 71-84: todo is what is left of blocks *)
Fixpoint all_cells (bl todo : list Block) (row_block_id : nat) (p : list (nat * nat)) (num_nonzeros : nat) : option (list (list Cell)) :=
  match todo with
  | [] => Some []
  | b :: todo' =>
    match row_cells bl row_block_id (size b) p num_nonzeros with
    | None => None
    | Some (cs, n, rest) =>
      match all_cells bl todo' (S row_block_id) rest n with Some css => Some (cs :: css) | None => None end
    end
  end.
(* block_sparse_matrix.cc 192-204: the size of the values *)
Definition bsm_nonzeros (bl : list Block) (css : list (list Cell)) : nat :=
  fold_left (fun n rc => fold_left (fun n c => n + size (nth (block_id c) bl (mkBlock 0 0)) * size (fst rc)) (snd rc) n) (combine bl css) 0.
(* block_random_access_sparse_matrix.h 99-101, 108 *)
Definition IntPairToInt64 (row col : nat) : Z := (Z.of_nat row * 2 ^ 32 + Z.of_nat col)%Z.
(* 88-96 *)
Fixpoint make_layout (row_block_id : nat) (css : list (list Cell)) : list (Z * nat) :=
  match css with
  | [] => []
  | cs :: css' => map (fun c => (IntPairToInt64 row_block_id (block_id c), cell_position c)) cs ++ make_layout (S row_block_id) css'
  end.
(* 46-97.  The values are not initialised: junk. *)
Definition NewSparse (junk : nat -> R) (bl : list Block) (block_pairs : list (nat * nat)) : option Bram :=
  let p := btree_set block_pairs in
  if fits (Z.of_nat (length bl)) (* CHECK_LE *) && forallb (fun q => fst q <? length bl) p (* num_cells_at_row[p.first] *) then
    match all_cells bl bl 0 p 0 with
    | None => None
    | Some css => Some (mkBram bl (Sparse css (make_layout 0 css)) (map junk (seq 0 (bsm_nonzeros bl css))))
    end
  else None.

(* compressed_row_sparse_matrix.cc 562-600 CreateBlockDiagonalMatrix with diagonal null.
   566-568; the entries of cols and rows of 580-591 *)
Fixpoint count_nonzeros (bl : list Block) (n : nat) : option nat :=
  match bl with
  | [] => Some n
  | b :: bl' => if fits (Z.of_nat n + Z.of_nat (size b) * Z.of_nat (size b)) then count_nonzeros bl' (n + size b * size b) else None
  end.
Fixpoint diagonal_rows (bl : list Block) (idx_cursor : nat) : list nat :=
  match bl with
  | [] => [idx_cursor]
  | b :: bl' => map (fun r => idx_cursor + r * size b) (seq 0 (size b)) ++ diagonal_rows bl' (idx_cursor + size b * size b)
  end.
Fixpoint diagonal_cols (bl : list Block) (col_cursor : nat) : list nat :=
  match bl with
  | [] => []
  | b :: bl' => concat (repeat (map (fun c => col_cursor + c) (seq 0 (size b))) (size b)) ++ diagonal_cols bl' (col_cursor + size b)
  end.
Definition sum_sizes (bl : list Block) : nat := fold_left (fun n b => n + size b) bl 0.
(* block_random_access_diagonal_matrix.cc 51-55 *)
Fixpoint diagonal_layout (bl : list Block) (v : nat) : list nat :=
  match bl with [] => [] | b :: bl' => v :: diagonal_layout bl' (v + size b * size b) end.
(* 47-56; 598 CHECK_EQ(col_cursor, num_rows) *)
Definition NewDiagonal (bl : list Block) : option Bram :=
  match count_nonzeros bl 0 with
  | None => None
  | Some n =>
    if sum_sizes bl =? NumScalarEntries bl then
      Some (mkBram bl (Diagonal (diagonal_rows bl 0) (diagonal_cols bl 0) (diagonal_layout bl 0)) (repeat 0%R n))
    else None
  end.

(* ------------------------------------------------------------------ GetCell and SetZero *)
Definition find_layout (l : list (Z * nat)) (k : Z) : option nat :=
  match find (fun e => Z.eqb (fst e) k) l with Some e => Some (snd e) | None => None end.
(* Some None: nullptr.  Dense 54-65, Sparse 99-117, Diagonal 58-77 *)
Definition GetCell (m : Bram) (i j : nat) : option (option Window) :=
  match storage m with
  | Dense n =>
    match nth_error (blocks m) i, nth_error (blocks m) j with
    | Some bi, Some bj => Some (Some (mkWindow (Z.of_nat i * Z.of_nat (length (blocks m)) + Z.of_nat j) 0 (position bi) (position bj) n n))
    | _, _ => None
    end
  | Sparse _ layout =>
    match find_layout layout (IntPairToInt64 i j) with
    | None => Some None
    | Some v =>
      match nth_error (blocks m) i, nth_error (blocks m) j with
      | Some bi, Some bj => Some (Some (mkWindow (IntPairToInt64 i j) v 0 0 (size bi) (size bj)))
      | _, _ => None
      end
    end
  | Diagonal _ _ layout =>
    if i =? j then
      match nth_error (blocks m) i, nth_error layout i with
      | Some b, Some v => Some (Some (mkWindow (Z.of_nat i) v 0 0 (size b) (size b)))
      | _, _ => None
      end
    else Some None
  end.
(* how many values SetZero clears: Dense 69-71, Sparse 121-123 (num_nonzeros_ of bsm_),
   Diagonal 81-84 (num_nonzeros() is the last entry of rows).  The threads of
   ParallelSetZero clear disjoint ranges that cover it (C10). *)
Definition to_clear (m : Bram) : nat :=
  match storage m with
  | Dense n => n * n
  | Sparse css _ => bsm_nonzeros (blocks m) css
  | Diagonal rows _ _ => last rows 0
  end.
Definition with_values (m : Bram) (v : list R) : Bram := mkBram (blocks m) (storage m) v.
Definition SetZero (m : Bram) : option Bram :=
  if to_clear m <=? length (values m) then
    Some (with_values m (repeat 0%R (to_clear m) ++ skipn (to_clear m) (values m)))
  else None.

(* ------------------------------------------------------------------ writing a block *)
Fixpoint write (v : list R) (p : nat) (f : R -> R) : option (list R) :=
  match v, p with
  | [], _ => None
  | x :: v', O => Some (f x :: v')
  | x :: v', S p' => match write v' p' f with Some v'' => Some (x :: v'') | None => None end
  end.
Fixpoint write_all (v : list R) (ws : list (nat * (R -> R))) : option (list R) :=
  match ws with
  | [] => Some v
  | (p, f) :: ws' => match write v p f with Some v' => write_all v' ws' | None => None end
  end.
Definition positions (n k : nat) : list (nat * nat) := flat_map (fun r => map (fun c => (r, c)) (seq 0 k)) (seq 0 n).
(* the block(row, col, n, k) of the window, entry (r, c) x becoming f r c x; Eigen's block
   must lie in the matrix *)
Definition write_block (v : list R) (w : Window) (n k : nat) (f : nat -> nat -> R -> R) : option (list R) :=
  if (row_in w + n <=? row_stride w) && (col_in w + k <=? col_stride w) then
    write_all v (map (fun rc => (address w (fst rc) (snd rc), f (fst rc) (snd rc))) (positions n k))
  else None.
(* what users of GetCell do, e.g. schur_eliminator_impl.h 552-572: nothing if there is no
   such cell, else change the block under its lock *)
Definition change (m : Bram) (i j n k : nat) (f : nat -> nat -> R -> R) : option Bram :=
  match GetCell m i j with
  | None => None
  | Some None => Some m
  | Some (Some w) => match write_block (values m) w n k f with Some v => Some (with_values m v) | None => None end
  end.
Inductive op : Type :=
| Clear
| Add (i j n k : nat) (M : matrix)
| Assign (i j n k : nat) (M : matrix).
Definition step (m : Bram) (o : op) : option Bram :=
  match o with
  | Clear => SetZero m
  | Add i j n k M => change m i j n k (fun r c x => (x + M r c)%R)
  | Assign i j n k M => change m i j n k (fun r c _ => M r c)
  end.
Fixpoint run (m : Bram) (os : list op) : option Bram :=
  match os with [] => Some m | o :: os' => match step m o with Some m' => run m' os' | None => None end end.
(* what Eliminate does to lhs: 191 SetZero, then the updates of C46 *)
Definition lhs_ops (us : list Update) : list op :=
  Clear :: flat_map (fun u => match u with AddLhs b1 b2 n k M => [Add b1 b2 n k M] | AddRhs _ _ _ => [] end) us.

(* ------------------------------------------------------------------ multiplication *)
Definition memory (m : Bram) : nat -> R := fun p => nth p (values m) 0%R.
(* small_blas.h MatrixVectorMultiply<., ., 1> and MatrixTransposeVectorMultiply<., ., 1> *)
Definition add_mv (A : matrix) (nr nc : nat) (x : nat -> R) (xp : nat) (y : nat -> R) (yp : nat) : nat -> R :=
  fun p => if (yp <=? p) && (p <? yp + nr) then (y p + sumn nc (fun k => A (p - yp)%nat k * x (xp + k)%nat))%R else y p.
Definition transpose (A : matrix) : matrix := fun r c => A c r.
(* block_random_access_sparse_matrix.cc 125-166 *)
Definition sym_cell (m : Bram) (row_block_id : nat) (row_block : Block) (x y : nat -> R) (c : Cell) : nat -> R :=
  let cb := nth (block_id c) (blocks m) (mkBlock 0 0) in
  let A := block_at (memory m) (cell_position c) (size cb) in
  let y1 := add_mv A (size row_block) (size cb) x (position cb) y (position row_block) in
  if block_id c =? row_block_id then y1
  else add_mv (transpose A) (size cb) (size row_block) x (position row_block) y1 (position cb).
Fixpoint sym_rows (m : Bram) (row_block_id : nat) (rs : list (Block * list Cell)) (x y : nat -> R) : nat -> R :=
  match rs with
  | [] => y
  | (b, cs) :: rs' => sym_rows m (S row_block_id) rs' x (fold_left (fun y c => sym_cell m row_block_id b x y c) cs y)
  end.
Definition SymmetricRightMultiplyAndAccumulate (m : Bram) (x y : nat -> R) : option (nat -> R) :=
  match storage m with
  | Sparse css _ => Some (sym_rows m 0 (combine (blocks m) css) x y)
  | _ => None
  end.

(* block_random_access_diagonal_matrix.cc 86-97 Invert: the blocks in any order, llt is
   b.selfadjointView<Upper>().llt().solve(Identity), which sees the upper triangle only *)
Definition from_upper (A : matrix) : matrix := fun r c => if r <=? c then A r c else A c r.
Definition invert_block (llt : nat -> matrix -> matrix) (m : Bram) (i : nat) : option Bram :=
  match storage m, nth_error (blocks m) i with
  | Diagonal _ _ layout, Some b =>
    match nth_error layout i with
    | None => None
    | Some v =>
      let A := block_at (memory m) v (size b) in
      match write_block (values m) (mkWindow 0 v 0 0 (size b) (size b)) (size b) (size b) (fun r c _ => llt (size b) (from_upper A) r c) with
      | Some v' => Some (with_values m v')
      | None => None
      end
    end
  | _, _ => None
  end.
Fixpoint Invert (llt : nat -> matrix -> matrix) (m : Bram) (order : list nat) : option Bram :=
  match order with
  | [] => Some m
  | i :: order' => match invert_block llt m i with Some m' => Invert llt m' order' | None => None end
  end.
(* 99-114 *)
Fixpoint RightMultiplyAndAccumulate (m : Bram) (order : list nat) (x y : nat -> R) : option (nat -> R) :=
  match order with
  | [] => Some y
  | i :: order' =>
    match storage m, nth_error (blocks m) i with
    | Diagonal _ _ layout, Some b =>
      match nth_error layout i with
      | None => None
      | Some v => RightMultiplyAndAccumulate m order' x (add_mv (block_at (memory m) v (size b)) (size b) (size b) x (position b) y (position b))
      end
    | _, _ => None
    end
  end.

(* schur_complement_solver.cc 364-384: the diagonal blocks of the Schur complement sc become
   those of the preconditioner *)
Fixpoint extract_diagonal (sc pre : Bram) (bl : list Block) (i : nat) : option Bram :=
  match bl with
  | [] => Some pre
  | b :: bl' =>
    match GetCell sc i i with
    | Some (Some w) =>
      if (row_in w + size b <=? row_stride w) && (col_in w + size b <=? col_stride w) then
        match GetCell pre i i with
        | Some (Some w') =>
          match write_block (values pre) w' (size b) (size b) (fun r c _ => memory sc (address w r c)) with
          | Some v => extract_diagonal sc (with_values pre v) bl' (S i)
          | None => None
          end
        | _ => None
        end
      else None
    | _ => None
    end
  end.
(* schur_jacobi_preconditioner.cc 45-64: CHECK_GT(elimination_groups[0], 0),
   CHECK_GT(num_blocks, 0), the blocks and the matrix *)
Definition NewSchurJacobi (nelim : nat) (bs : Structure) : option Bram :=
  if (0 <? nelim) && (nelim <? length (cols bs)) then NewDiagonal (rebase 0 (skipn nelim (cols bs))) else None.
