(* BlockSparseMatrix and PartitionedMatrixView: internal/ceres/block_sparse_matrix.cc,
   internal/ceres/partitioned_matrix_view_impl.h.

   double is modelled by R.  Memory is a function of the address.  The products of
   small_blas.h are sums (SchurModel.v); each of their accumulating calls is one update
   y[pos, pos + len) += v.  A ParallelFor gives every iteration's list of updates, performed
   in any interleaving. *)
From Coq Require Import Reals List Arith Bool.
From Verif Require Import SchurModel.
Import ListNotations.
Open Scope R_scope.

Definition vec : Type := nat -> R.
Record Update : Type := mkUpdate { u_pos : nat; u_len : nat; u_val : vec }.
Definition inside (pos len p : nat) : bool := (pos <=? p)%nat && (p <? pos + len)%nat.
Definition add (y : vec) (u : Update) : vec := fun p => if inside (u_pos u) (u_len u) p then y p + u_val u (p - u_pos u)%nat else y p.
Definition perform (us : list Update) (y : vec) : vec := fold_left add us y.
(* the loop over the iterations in order, and ParallelFor *)
Definition Serial (tasks : list (list Update)) (y : vec) : vec := perform (concat tasks) y.
Definition Parallel (tasks : list (list Update)) (y y' : vec) : Prop := exists us, interleaving tasks us /\ forall p, y' p = perform us y p.
Definition shift (x : vec) (k : nat) : vec := fun i => x (k + i)%nat.

(* MatrixVectorMultiply of a cell: y + ypos += cell * (x + xpos); nr x nc *)
Definition cell_mv (values : vec) (pos nr nc : nat) (x : vec) (xpos ypos : nat) : Update :=
  mkUpdate ypos nr (mv nc (block_at values pos nc) (shift x xpos)).
(* MatrixTransposeVectorMultiply: y + ypos += cell' * (x + xpos) *)
Definition cell_mtv (values : vec) (pos nr nc : nat) (x : vec) (xpos ypos : nat) : Update :=
  mkUpdate ypos nc (mtv nr (block_at values pos nc) (shift x xpos)).

(* block_sparse_matrix.cc 239-273 RightMultiplyAndAccumulate *)
Definition RightTasks (bs : Structure) (values x : vec) : list (list Update) :=
  map (fun row => map (fun c => cell_mv values (cell_position c) (size (block row)) (size (col bs (block_id c))) x
    (position (col bs (block_id c))) (position (block row))) (cells row)) (rows bs).
(* 327-349 LeftMultiplyAndAccumulate, one thread *)
Definition LeftTasks (bs : Structure) (values x : vec) : list (list Update) :=
  map (fun row => map (fun c => cell_mtv values (cell_position c) (size (block row)) (size (col bs (block_id c))) x
    (position (block row)) (position (col bs (block_id c)))) (cells row)) (rows bs).
(* 278-325 LeftMultiplyAndAccumulate with the transposed structure *)
Definition LeftTransposeTasks (ts : Structure) (values x : vec) : list (list Update) :=
  map (fun row => map (fun c => cell_mtv values (cell_position c) (size (col ts (block_id c))) (size (block row)) x
    (position (col ts (block_id c))) (position (block row))) (cells row)) (rows ts).
(* m.colwise().squaredNorm() of a cell added to x + xpos *)
Definition cell_norm (values : vec) (pos nr nc xpos : nat) : Update :=
  mkUpdate xpos nc (fun j => sumn nr (fun k => block_at values pos nc k j * block_at values pos nc k j)).
(* 351-366 SquaredColumnNorm after the zeroing; 370-401 with the transposed structure *)
Definition NormTasks (bs : Structure) (values : vec) : list (list Update) :=
  map (fun row => map (fun c => cell_norm values (cell_position c) (size (block row)) (size (col bs (block_id c))) (position (col bs (block_id c)))) (cells row)) (rows bs).
Definition NormTransposeTasks (ts : Structure) (values : vec) : list (list Update) :=
  map (fun row => map (fun c => cell_norm values (cell_position c) (size (col ts (block_id c))) (size (block row)) (position (block row))) (cells row)) (rows ts).

(* m *= scale.asDiagonal() for a cell: the values of [pos, pos + nr * nc) *)
Definition scale_cell (scale : vec) (pos nr nc xpos : nat) (values : vec) : vec :=
  fun p => if inside pos (nr * nc) p then values p * scale (xpos + (p - pos) mod nc)%nat else values p.
Record Scaling : Type := mkScaling { s_pos : nat; s_rows : nat; s_cols : nat; s_col : nat }.
Definition rescale (scale : vec) (values : vec) (s : Scaling) : vec := scale_cell scale (s_pos s) (s_rows s) (s_cols s) (s_col s) values.
(* 403-417 ScaleColumns; 421-449 with the transposed structure *)
Definition ScaleTasks (bs : Structure) : list (list Scaling) :=
  map (fun row => map (fun c => mkScaling (cell_position c) (size (block row)) (size (col bs (block_id c))) (position (col bs (block_id c)))) (cells row)) (rows bs).
Definition ScaleTransposeTasks (ts : Structure) : list (list Scaling) :=
  map (fun row => map (fun c => mkScaling (cell_position c) (size (col ts (block_id c))) (size (block row)) (position (block row))) (cells row)) (rows ts).
Definition SerialScale (tasks : list (list Scaling)) (scale values : vec) : vec := fold_left (rescale scale) (concat tasks) values.
Definition ParallelScale (tasks : list (list Scaling)) (scale values values' : vec) : Prop :=
  exists ss, interleaving tasks ss /\ forall p, values' p = fold_left (rescale scale) ss values p.

(* 494-514 ToDenseMatrix: m.block(...) += cell *)
Definition add_block (m : matrix) (rpos cpos nr nc : nat) (v : matrix) : matrix :=
  fun p q => if inside rpos nr p && inside cpos nc q then m p q + v (p - rpos)%nat (q - cpos)%nat else m p q.
Definition ToDenseMatrix (bs : Structure) (values : vec) : matrix :=
  fold_left (fun m row => fold_left (fun m c => let w := size (col bs (block_id c)) in
    add_block m (position (block row)) (position (col bs (block_id c))) (size (block row)) w (block_at values (cell_position c) w)) (cells row) m)
  (rows bs) (fun _ _ => 0).

(* ---------------------------------------------------------- the transposed structure *)
(* rows[i].cells.emplace_back(c) *)
Fixpoint push_cell (rs : list Row) (i : nat) (c : Cell) : list Row :=
  match rs, i with
  | [], _ => []
  | r :: rs', O => mkRow (block r) (cells r ++ [c]) :: rs'
  | r :: rs', S i' => r :: push_cell rs' i' c
  end.
(* 794-805 the row i; n: its number *)
Definition push_row (rs : list Row) (i : nat) (row : Row) : list Row :=
  fold_left (fun rs c => push_cell rs (block_id c) (mkCell i (cell_position c))) (cells row) rs.
(* 784-808 CreateTranspose; the nonzero counts, which only steer the partitioning into
   tasks, are left out *)
Definition CreateTranspose (bs : Structure) : Structure :=
  mkStructure (map block (rows bs))
    (fst (fold_left (fun '(rs, i) row => (push_row rs i row, S i)) (rows bs) (map (fun b => mkRow b []) (cols bs), 0%nat))).

(* ---------------------------------------------------------- rows added and removed *)
Record BlockSparse : Type := mkBlockSparse { structure : Structure; transposed : Structure; values : vec; nnz : nat; max_nnz : nat; num_rows : nat; num_columns : nat }.
(* 178-216 the constructor; values_ is not initialised *)
Definition Construct (bs : Structure) (junk : vec) : BlockSparse :=
  let n := fold_left (fun n row => fold_left (fun n c => (n + size (col bs (block_id c)) * size (block row))%nat) (cells row) n) (rows bs) 0%nat in
  mkBlockSparse bs (CreateTranspose bs) junk n n
    (fold_left (fun n row => (n + size (block row))%nat) (rows bs) 0%nat) (fold_left (fun n b => (n + size b)%nat) (cols bs) 0%nat).

(* 582-615 CreateDiagonalMatrix *)
Fixpoint DiagonalRows (bl : list Block) (i pos : nat) : list Row :=
  match bl with [] => [] | b :: bl' => mkRow b [mkCell i pos] :: DiagonalRows bl' (S i) (pos + size b * size b) end.
Fixpoint FillDiagonal (bl : list Block) (d v : nat) (diagonal : vec) (m : vec) : vec :=
  match bl with
  | [] => m
  | b :: bl' => FillDiagonal bl' (d + size b) (v + size b * size b) diagonal
      (fold_left (fun m j => fun p => if (p =? v + j * (size b + 1))%nat then diagonal (d + j)%nat else m p) (seq 0 (size b)) m)
  end.
Definition CreateDiagonalMatrix (diagonal : vec) (bl : list Block) (junk : vec) : BlockSparse :=
  let m := Construct (mkStructure bl (DiagonalRows bl 0 0)) junk in
  let zeroed := fun p => if (p <? nnz m)%nat then 0 else junk p in
  mkBlockSparse (structure m) (transposed m) (FillDiagonal bl 0 0 diagonal zeroed) (nnz m) (max_nnz m) (num_rows m) (num_columns m).

(* 634-648 the cells of an appended row; id: row_block_id *)
Fixpoint AppendCells (m_cols : list Block) (nrows id : nat) (cs : list Cell) (n : nat) (trows : list Row) : list Cell * nat * list Row :=
  match cs with
  | [] => ([], n, trows)
  | c :: cs' =>
    let '(rest, n', trows') := AppendCells m_cols nrows id cs' (n + nrows * size (nth (block_id c) m_cols (mkBlock 0 0))) (push_cell trows (block_id c) (mkCell id n)) in
    (mkCell (block_id c) n :: rest, n', trows')
  end.
(* 624-649 *)
Fixpoint AppendAll (m_cols : list Block) (m_rows : list Row) (id nr n : nat) (trows : list Row) : list Row * nat * nat * list Row :=
  match m_rows with
  | [] => ([], nr, n, trows)
  | row :: m_rows' =>
    let '(cs, n1, trows1) := AppendCells m_cols (size (block row)) id (cells row) n trows in
    let '(rest, nr', n', trows') := AppendAll m_cols m_rows' (S id) (nr + size (block row)) n1 trows1 in
    (mkRow (mkBlock (size (block row)) nr) cs :: rest, nr', n', trows')
  end.
(* 617-668 AppendRows.  None: CHECK failure.  junk: what freshly allocated memory holds *)
Definition AppendRows (a m : BlockSparse) (junk : vec) : option BlockSparse :=
  if negb (num_columns m =? num_columns a)%nat || negb (length (cols (structure m)) =? length (cols (structure a)))%nat then None
  else
    let '(new_rows, nr, n, trows) := AppendAll (cols (structure m)) (rows (structure m)) (length (rows (structure a))) (num_rows a) (nnz a) (rows (transposed a)) in
    let old := if (max_nnz a <? n)%nat then (fun p => if (p <? nnz a)%nat then values a p else junk p) else values a in
    Some (mkBlockSparse (mkStructure (cols (structure a)) (rows (structure a) ++ new_rows))
      (mkStructure (cols (transposed a) ++ map block new_rows) trows)
      (fun p => if inside (nnz a) (nnz m) p then values m (p - nnz a)%nat else old p) n (Nat.max (max_nnz a) n) nr (num_columns a)).

(* 683-694 while (back().block_id >= new_num_row_blocks) pop_back() *)
Fixpoint drop_back (new_rows : nat) (rev_cells : list Cell) : list Cell :=
  match rev_cells with
  | [] => []
  | c :: rest => if (new_rows <=? block_id c)%nat then drop_back new_rows rest else rev_cells
  end.
Fixpoint trim (rs : list Row) (i new_rows : nat) : list Row :=
  match rs, i with
  | [], _ => []
  | r :: rs', O => mkRow (block r) (rev (drop_back new_rows (rev (cells r)))) :: rs'
  | r :: rs', S i' => r :: trim rs' i' new_rows
  end.
(* 670-714 DeleteRowBlocks; None: more row blocks than there are *)
Definition DeleteRowBlocks (a : BlockSparse) (delta : nat) : option BlockSparse :=
  let bs := structure a in
  let n := length (rows bs) in
  if (n <? delta)%nat then None
  else
    let removed := rev (skipn (n - delta) (rows bs)) in
    let '(dnnz, drows, trows) := fold_left (fun '(dnnz, drows, trows) row =>
      let '(dnnz, trows) := fold_left (fun '(dnnz, trows) c => ((dnnz + size (block row) * size (col bs (block_id c)))%nat, trim trows (block_id c) (n - delta))) (cells row) (dnnz, trows) in
      (dnnz, (drows + size (block row))%nat, trows)) removed (0%nat, 0%nat, rows (transposed a)) in
    Some (mkBlockSparse (mkStructure (cols bs) (firstn (n - delta) (rows bs)))
      (mkStructure (firstn (length (cols (transposed a)) - delta) (cols (transposed a))) trows)
      (values a) (nnz a - dnnz) (max_nnz a) (num_rows a - drows) (num_columns a)).

(* ---------------------------------------------------------- PartitionedMatrixView *)
(* partitioned_matrix_view_impl.h 64-71 num_row_blocks_e_; every row must have a cell *)
Definition starts_in (nelim : nat) (row : Row) : bool := match cells row with c :: _ => (block_id c <? nelim)%nat | [] => false end.
Definition num_row_blocks_e (nelim : nat) (bs : Structure) : nat := length (filter (starts_in nelim) (rows bs)).
(* 73-84 *)
Definition num_cols_e (nelim : nat) (bs : Structure) : nat := fold_right (fun b n => (size b + n)%nat) 0%nat (firstn nelim (cols bs)).
Definition num_cols_f (nelim : nat) (bs : Structure) : nat := fold_right (fun b n => (size b + n)%nat) 0%nat (skipn nelim (cols bs)).
Definition e_rows (nelim : nat) (bs : Structure) : list Row := firstn (num_row_blocks_e nelim bs) (rows bs).
Definition f_rows (nelim : nat) (bs : Structure) : list Row := skipn (num_row_blocks_e nelim bs) (rows bs).
(* cells[0], which must exist; the other cells *)
Definition first_cell (row : Row) : list Cell := firstn 1 (cells row).
(* 114-138 RightMultiplyAndAccumulateE *)
Definition RightE (nelim : nat) (bs : Structure) (values x : vec) : list (list Update) :=
  map (fun row => map (fun c => cell_mv values (cell_position c) (size (block row)) (size (col bs (block_id c))) x
    (position (col bs (block_id c))) (position (block row))) (first_cell row)) (e_rows nelim bs).
(* 141-192 RightMultiplyAndAccumulateF: two loops *)
Definition RightFRow (nelim : nat) (bs : Structure) (values x : vec) (row : Row) (cs : list Cell) : list Update :=
  map (fun c => cell_mv values (cell_position c) (size (block row)) (size (col bs (block_id c))) x
    (position (col bs (block_id c)) - num_cols_e nelim bs) (position (block row))) cs.
Definition RightF1 (nelim : nat) (bs : Structure) (values x : vec) : list (list Update) := map (fun row => RightFRow nelim bs values x row (tl (cells row))) (e_rows nelim bs).
Definition RightF2 (nelim : nat) (bs : Structure) (values x : vec) : list (list Update) := map (fun row => RightFRow nelim bs values x row (cells row)) (f_rows nelim bs).
(* 208-229 LeftMultiplyAndAccumulateE, one thread *)
Definition LeftE (nelim : nat) (bs : Structure) (values x : vec) : list (list Update) :=
  map (fun row => map (fun c => cell_mtv values (cell_position c) (size (block row)) (size (col bs (block_id c))) x
    (position (block row)) (position (col bs (block_id c)))) (first_cell row)) (e_rows nelim bs).
(* 232-265 with the transposed structure; the loop is left at the first cell whose row is
   not an e row *)
Fixpoint before (n : nat) (cs : list Cell) : list Cell :=
  match cs with c :: cs' => if (n <=? block_id c)%nat then [] else c :: before n cs' | [] => [] end.
Definition LeftETranspose (nelim nrow_e : nat) (ts : Structure) (values x : vec) : list (list Update) :=
  map (fun row => map (fun c => cell_mtv values (cell_position c) (size (col ts (block_id c))) (size (block row)) x
    (position (col ts (block_id c))) (position (block row))) (before nrow_e (cells row))) (firstn nelim (rows ts)).
(* 280-323 LeftMultiplyAndAccumulateF, one thread *)
Definition LeftFRow (nelim : nat) (bs : Structure) (values x : vec) (row : Row) (cs : list Cell) : list Update :=
  map (fun c => cell_mtv values (cell_position c) (size (block row)) (size (col bs (block_id c))) x
    (position (block row)) (position (col bs (block_id c)) - num_cols_e nelim bs)) cs.
Definition LeftF (nelim : nat) (bs : Structure) (values x : vec) : list (list Update) :=
  map (fun row => LeftFRow nelim bs values x row (tl (cells row))) (e_rows nelim bs) ++ map (fun row => LeftFRow nelim bs values x row (cells row)) (f_rows nelim bs).
(* 326-376 with the transposed structure: the two loops run through all the cells; e_cols:
   num_cols_e_ *)
Definition LeftFTranspose (nelim e_cols : nat) (ts : Structure) (values x : vec) : list (list Update) :=
  map (fun row => map (fun c => cell_mtv values (cell_position c) (size (col ts (block_id c))) (size (block row)) x
    (position (col ts (block_id c))) (position (block row) - e_cols)) (cells row)) (skipn nelim (rows ts)).

(* 385-418 CreateBlockDiagonalMatrixLayout: block k of the diagonal is a matrix of its own;
   448-473 UpdateBlockDiagonalEtE, one thread: block k += cell' cell *)
Definition DiagonalE (nelim : nat) (bs : Structure) (values : vec) (k : nat) : matrix :=
  fold_left (fun m row => fold_left (fun m c => if (block_id c =? k)%nat then
      let w := size (col bs (block_id c)) in let A := block_at values (cell_position c) w in (fun i j => m i j + mtm (size (block row)) A A i j) else m) (first_cell row) m)
    (e_rows nelim bs) (fun _ _ => 0).
(* 476-513 with the transposed structure: all the cells of the column *)
Definition DiagonalTranspose (ts : Structure) (values : vec) (k : nat) : matrix :=
  match nth_error (rows ts) k with
  | None => fun _ _ => 0
  | Some row => fold_left (fun m c => let A := block_at values (cell_position c) (size (block row)) in (fun i j => m i j + mtm (size (col ts (block_id c))) A A i j)) (cells row) (fun _ _ => 0)
  end.
(* 532-581 UpdateBlockDiagonalFtF, one thread; block k is that of column nelim + k.  With
   the transposed structure (584-647): DiagonalTranspose ts values (nelim + k) *)
Definition DiagonalF (nelim : nat) (bs : Structure) (values : vec) (k : nat) : matrix :=
  let add_cells := fun row cs m => fold_left (fun m c => if (block_id c - nelim =? k)%nat then
      let w := size (col bs (block_id c)) in let A := block_at values (cell_position c) w in (fun i j => m i j + mtm (size (block row)) A A i j) else m) cs m in
  fold_left (fun m row => add_cells row (cells row) m) (f_rows nelim bs)
    (fold_left (fun m row => add_cells row (tl (cells row)) m) (e_rows nelim bs) (fun _ _ => 0)).
