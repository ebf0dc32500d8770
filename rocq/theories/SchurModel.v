(* Schur elimination: internal/ceres/schur_eliminator_impl.h, schur_eliminator.h,
   schur_complement_solver.cc.

   double is modelled by R.  A block of the matrix is a function from row and column
   numbers; the products of small_blas.h are sums.  InvertPSDMatrix is an argument.
   None: undefined behaviour, a failed CHECK or LOG(FATAL). *)

From Coq Require Import Reals List Arith Bool.
Import ListNotations.
Open Scope R_scope.

Fixpoint sumn (n : nat) (f : nat -> R) : R :=
  match n with O => 0 | S m => sumn m f + f m end.

(* block_structure.h 47-115 *)
Record Block : Type := mkBlock { size : nat; position : nat }.
Record Cell : Type := mkCell { block_id : nat; cell_position : nat }.
Record Row : Type := mkRow { block : Block; cells : list Cell }.
Record Structure : Type := mkStructure { cols : list Block; rows : list Row }.
(* bs->cols[i]; every block id is required to be in range *)
Definition col (bs : Structure) (i : nat) : Block := nth i (cols bs) (mkBlock 0 0).

Definition matrix : Type := nat -> nat -> R.
(* values + position, as a row-major matrix *)
Definition block_at (values : nat -> R) (pos ncols : nat) : matrix := fun r c => values (pos + r * ncols + c)%nat.
(* small_blas.h: A'B, AB, Ab, A'b *)
Definition mtm (nrow_a : nat) (A B : matrix) : matrix := fun i j => sumn nrow_a (fun k => A k i * B k j).
Definition mm (ncol_a : nat) (A B : matrix) : matrix := fun i j => sumn ncol_a (fun k => A i k * B k j).
Definition mv (ncol_a : nat) (A : matrix) (v : nat -> R) : nat -> R := fun i => sumn ncol_a (fun k => A i k * v k).
Definition mtv (nrow_a : nat) (A : matrix) (v : nat -> R) : nat -> R := fun i => sumn nrow_a (fun k => A k i * v k).

(* ------------------------------------------------------------------ Init *)
(* a Chunk; buffer_layout is an ordered map *)
Record Chunk : Type := mkChunk { start : nat; chunk_size : nat; buffer_layout : list (nat * nat) }.
Record Eliminator : Type := mkEliminator { num_eliminate_blocks : nat; assume_full_rank_ete : bool;
  lhs_row_layout : list nat; chunks : list Chunk; buffer_size : nat; uneliminated_row_begins : nat }.

(* map_util.h InsertIfNotPresent *)
Fixpoint InsertIfNotPresent (m : list (nat * nat)) (k v : nat) : list (nat * nat) * bool :=
  match m with
  | [] => ([(k, v)], true)
  | (k', v') :: m' =>
    if k <? k' then ((k, v) :: m, true) else if k =? k' then (m, false)
    else let '(m'', b) := InsertIfNotPresent m' k v in ((k', v') :: m'', b)
  end.
(* 147-155 the cells of a row but the first *)
Definition AddCells (bs : Structure) (e_block_size : nat) (cs : list Cell) (st : list (nat * nat) * nat) : list (nat * nat) * nat :=
  fold_left (fun st c => let '(layout, sz) := st in
    let '(layout', inserted) := InsertIfNotPresent layout (block_id c) sz in
    (layout', if inserted then (sz + e_block_size * size (col bs (block_id c)))%nat else sz)) cs st.
(* 139-159 the inner loop: rows is what is left of bs->rows.  Result: number of rows of
   the chunk, layout, buffer_size_ *)
Fixpoint GrowChunk (bs : Structure) (id e_block_size : nat) (rest : list Row) (layout : list (nat * nat)) (sz buffer_size_ : nat) : option (nat * list (nat * nat) * nat) :=
  match rest with
  | [] => Some (0%nat, layout, buffer_size_)
  | row :: rest' =>
    match cells row with
    | [] => None (* front() of an empty vector *)
    | c0 :: cs =>
      if block_id c0 =? id then
        let '(layout', sz') := AddCells bs e_block_size cs (layout, sz) in
        match GrowChunk bs id e_block_size rest' layout' sz' (Nat.max sz' buffer_size_) with
        | Some (n, l, z) => Some (S n, l, z)
        | None => None
        end
      else Some (0%nat, layout, buffer_size_)
    end
  end.
(* 122-163 the outer loop; fuel: one more than the number of rows *)
Fixpoint FindChunks (fuel : nat) (bs : Structure) (nelim r : nat) (rest : list Row) (buffer_size_ : nat) : option (list Chunk * nat) :=
  match fuel, rest with
  | _, [] => Some ([], buffer_size_)
  | O, _ => None
  | S fuel', row :: _ =>
    match cells row with
    | [] => None
    | c0 :: _ =>
      let id := block_id c0 in
      if nelim <=? id then Some ([], buffer_size_)
      else match GrowChunk bs id (size (col bs id)) rest [] 0 buffer_size_ with
        | None => None
        | Some (n, layout, z) =>
          if n =? 0 then None (* CHECK_GT(chunk.size, 0) *)
          else match FindChunks fuel' bs nelim (r + n) (skipn n rest) z with
            | Some (cs, z') => Some (mkChunk r n layout :: cs, z')
            | None => None
            end
        end
    end
  end.
(* 105-113 *)
Fixpoint RowLayout (bs : list Block) (p : nat) : list nat :=
  match bs with [] => [] | b :: bs' => p :: RowLayout bs' (p + size b) end.
(* 86-181 *)
Definition Init (nelim : nat) (full_rank : bool) (bs : Structure) : option Eliminator :=
  if nelim =? 0 then None else
  match FindChunks (S (length (rows bs))) bs nelim 0 (rows bs) 1 with
  | None => None
  | Some (cs, z) =>
    match rev cs with
    | [] => None (* chunks_.back() of an empty vector *)
    | last :: _ => Some (mkEliminator nelim full_rank (RowLayout (skipn nelim (cols bs)) 0) cs z (start last + chunk_size last))
    end
  end.

(* ------------------------------------------------------------------ Eliminate *)
(* The reduced system: for every pair of f blocks a block, and a vector. *)
Record System : Type := mkSystem { lhs : nat -> nat -> matrix; rhs : nat -> R }.
(* what a thread does to it under a lock: add to a block of lhs or of rhs *)
Inductive Update : Type :=
| AddLhs (block1 block2 nrow ncol : nat) (m : matrix)
| AddRhs (pos n : nat) (v : nat -> R).
(* stored b1 b2: lhs->GetCell(b1, b2) is not null *)
Definition apply (stored : nat -> nat -> bool) (s : System) (u : Update) : System :=
  match u with
  | AddLhs b1 b2 n m M =>
    if stored b1 b2 then
      mkSystem (fun c1 c2 i j => if (c1 =? b1) && (c2 =? b2) && (i <? n) && (j <? m) then lhs s c1 c2 i j + M i j else lhs s c1 c2 i j) (rhs s)
    else s
  | AddRhs p n v =>
    mkSystem (lhs s) (fun i => if (p <=? i) && (i <? p + n) then rhs s i + v (i - p)%nat else rhs s i)
  end.
Definition apply_all (stored : nat -> nat -> bool) (us : list Update) (s : System) : System := fold_left (apply stored) us s.

(* 671-721 EBlockRowOuterProduct and 616-666 NoEBlockRowOuterProduct: the same loop,
   from the second and from the first cell *)
Fixpoint RowOuterProduct (nelim : nat) (bs : Structure) (values : nat -> R) (nrow : nat) (cs : list Cell) : list Update :=
  match cs with
  | [] => []
  | c1 :: cs' =>
    let n1 := size (col bs (block_id c1)) in
    AddLhs (block_id c1 - nelim) (block_id c1 - nelim) n1 n1
      (mtm nrow (block_at values (cell_position c1) n1) (block_at values (cell_position c1) n1)) ::
    map (fun c2 => let n2 := size (col bs (block_id c2)) in
      AddLhs (block_id c1 - nelim) (block_id c2 - nelim) n1 n2
        (mtm nrow (block_at values (cell_position c1) n1) (block_at values (cell_position c2) n2))) cs' ++
    RowOuterProduct nelim bs values nrow cs'
  end.

(* map_util.h FindOrDie *)
Fixpoint FindOrDie (m : list (nat * nat)) (k : nat) : option nat :=
  match m with [] => None | (k', v) :: m' => if k =? k' then Some v else FindOrDie m' k end.

(* 448-512 ChunkDiagonalBlockAndGradient *)
Record ChunkState : Type := mkChunkState { ete : matrix; g : nat -> R; buffer : nat -> R; updates : list Update; b_pos : nat }.
(* buffer[offset + i * m + j] += M i j *)
Definition add_to_buffer (buf : nat -> R) (offset n m : nat) (M : matrix) : nat -> R :=
  fun p => if (offset <=? p) && (p <? offset + n * m) then buf p + M ((p - offset) / m)%nat ((p - offset) mod m)%nat else buf p.
Fixpoint BufferRow (bs : Structure) (values : nat -> R) (layout : list (nat * nat)) (nrow e_size e_pos : nat) (cs : list Cell) (buf : nat -> R) : option (nat -> R) :=
  match cs with
  | [] => Some buf
  | c :: cs' =>
    match FindOrDie layout (block_id c) with
    | None => None
    | Some off =>
      let m := size (col bs (block_id c)) in
      BufferRow bs values layout nrow e_size e_pos cs'
        (add_to_buffer buf off e_size m (mtm nrow (block_at values e_pos e_size) (block_at values (cell_position c) m)))
    end
  end.
Definition ChunkRow (nelim : nat) (bs : Structure) (values : nat -> R) (b : option (nat -> R)) (layout : list (nat * nat)) (e_size : nat) (st : ChunkState) (row : Row) : option ChunkState :=
  match cells row with
  | [] => None
  | e_cell :: cs =>
    let nrow := size (block row) in
    let E := block_at values (cell_position e_cell) e_size in
    match BufferRow bs values layout nrow e_size (cell_position e_cell) cs (buffer st) with
    | None => None
    | Some buf => Some (mkChunkState
        (fun i j => ete st i j + mtm nrow E E i j)
        (match b with Some b => fun i => g st i + mtv nrow E (fun k => b (b_pos st + k)%nat) i | None => g st end)
        buf
        (updates st ++ (if 1 <? length (cells row) then RowOuterProduct nelim bs values nrow cs else []))
        (b_pos st + nrow)%nat)
    end
  end.
Fixpoint ChunkRows (nelim : nat) (bs : Structure) (values : nat -> R) (b : option (nat -> R)) (layout : list (nat * nat)) (e_size : nat) (rs : list Row) (st : ChunkState) : option ChunkState :=
  match rs with
  | [] => Some st
  | row :: rs' => match ChunkRow nelim bs values b layout e_size st row with
    | Some st' => ChunkRows nelim bs values b layout e_size rs' st'
    | None => None
    end
  end.
(* 385-427 UpdateRhs *)
Fixpoint UpdateRhs (st : Eliminator) (bs : Structure) (values b : nat -> R) (e_size : nat) (inverse_ete_g : nat -> R) (rs : list Row) (pos : nat) : option (list Update) :=
  match rs with
  | [] => Some []
  | row :: rs' =>
    match cells row with
    | [] => None
    | e_cell :: cs =>
      let nrow := size (block row) in
      let sj k := b (pos + k)%nat - mv e_size (block_at values (cell_position e_cell) e_size) inverse_ete_g k in
      match UpdateRhs st bs values b e_size inverse_ete_g rs' (pos + nrow) with
      | None => None
      | Some us => Some (map (fun c => let m := size (col bs (block_id c)) in
          AddRhs (nth (block_id c - num_eliminate_blocks st) (lhs_row_layout st) 0%nat) m
            (mtv nrow (block_at values (cell_position c) m) sj)) cs ++ us)
      end
    end
  end.
(* 518-568 ChunkOuterProduct *)
Fixpoint ChunkOuterProduct (nelim : nat) (bs : Structure) (e_size : nat) (inverse_ete : matrix) (buf : nat -> R) (layout : list (nat * nat)) : list Update :=
  match layout with
  | [] => []
  | (id1, off1) :: layout' =>
    let n1 := size (col bs id1) in
    let b1_transpose_inverse_ete := mtm e_size (block_at buf off1 n1) inverse_ete in
    map (fun p => let '(id2, off2) := p in let n2 := size (col bs id2) in
      AddLhs (id1 - nelim) (id2 - nelim) n1 n2 (fun i j => - mm e_size b1_transpose_inverse_ete (block_at buf off2 n2) i j)) layout ++
    ChunkOuterProduct nelim bs e_size inverse_ete buf layout'
  end.
(* rows [start, start + size) *)
Definition chunk_rows (bs : Structure) (c : Chunk) : list Row := firstn (chunk_size c) (skipn (start c) (rows bs)).
(* the diagonal of D squared, or zero *)
Definition diagonal (D : option (nat -> R)) (pos : nat) : matrix :=
  fun i j => match D with Some d => if i =? j then d (pos + i)%nat * d (pos + i)%nat else 0 | None => 0 end.
(* 240-306 the body of the loop over chunks *)
Definition EliminateChunk (invert : bool -> nat -> matrix -> matrix) (st : Eliminator) (bs : Structure) (values : nat -> R)
    (b D : option (nat -> R)) (want_rhs : bool) (c : Chunk) : option (list Update) :=
  match chunk_rows bs c with
  | [] => None
  | row0 :: _ =>
    match cells row0 with
    | [] => None
    | e_cell :: _ =>
      let e_block_id := block_id e_cell in
      let e_size := size (col bs e_block_id) in
      let pos := position (block row0) in
      match ChunkRows (num_eliminate_blocks st) bs values b (buffer_layout c) e_size (chunk_rows bs c)
              (mkChunkState (diagonal D (position (col bs e_block_id))) (fun _ => 0) (fun _ => 0) [] pos) with
      | None => None
      | Some cs =>
        let inverse_ete := invert (assume_full_rank_ete st) e_size (ete cs) in
        match (if want_rhs then
                 match b with
                 | Some b => UpdateRhs st bs values b e_size (mv e_size inverse_ete (g cs)) (chunk_rows bs c) pos
                 | None => None
                 end
               else Some []) with
        | None => None
        | Some us => Some (updates cs ++ us ++ ChunkOuterProduct (num_eliminate_blocks st) bs e_size inverse_ete (buffer cs) (buffer_layout c))
        end
      end
    end
  end.
(* 573-600 NoEBlockRowsUpdate *)
Fixpoint NoEBlockRowsUpdate (st : Eliminator) (bs : Structure) (values : nat -> R) (b : option (nat -> R)) (want_rhs : bool) (rs : list Row) : option (list Update) :=
  match rs with
  | [] => Some []
  | row :: rs' =>
    let nrow := size (block row) in
    match (if want_rhs then
             match b with
             | Some b => Some (map (fun c => let m := size (col bs (block_id c)) in
                 AddRhs (nth (block_id c - num_eliminate_blocks st) (lhs_row_layout st) 0%nat) m
                   (mtv nrow (block_at values (cell_position c) m) (fun k => b (position (block row) + k)%nat))) (cells row))
             | None => match cells row with [] => Some [] | _ => None end
             end
           else Some []), NoEBlockRowsUpdate st bs values b want_rhs rs' with
    | Some us, Some us' => Some (RowOuterProduct (num_eliminate_blocks st) bs values nrow (cells row) ++ us ++ us')
    | _, _ => None
    end
  end.
(* 200-220 the diagonal of the f blocks; every block is touched by one iteration *)
Definition AddDiagonal (st : Eliminator) (bs : Structure) (D : option (nat -> R)) : list Update :=
  match D with
  | None => []
  | Some _ => map (fun i => let n := size (col bs i) in
      AddLhs (i - num_eliminate_blocks st) (i - num_eliminate_blocks st) n n (diagonal D (position (col bs i))))
      (seq (num_eliminate_blocks st) (length (cols bs) - num_eliminate_blocks st))
  end.
Fixpoint all_some {A} (l : list (option A)) : option (list A) :=
  match l with
  | [] => Some []
  | None :: _ => None
  | Some x :: l' => match all_some l' with Some xs => Some (x :: xs) | None => None end
  end.
(* the interleavings of the updates of concurrent iterations *)
Inductive interleaving {A} : list (list A) -> list A -> Prop :=
| int_done ls : (forall l, In l ls -> l = []) -> interleaving ls []
| int_step ls1 x l ls2 rest : interleaving (ls1 ++ l :: ls2) rest -> interleaving (ls1 ++ (x :: l) :: ls2) (x :: rest).
(* 183-311 Eliminate; both lhs and rhs are set to zero first *)
Definition Eliminate (invert : bool -> nat -> matrix -> matrix) (stored : nat -> nat -> bool) (st : Eliminator) (bs : Structure) (values : nat -> R)
    (b D : option (nat -> R)) (want_rhs : bool) (result : System) : Prop :=
  exists per_chunk order tail,
    all_some (map (EliminateChunk invert st bs values b D want_rhs) (chunks st)) = Some per_chunk /\
    interleaving per_chunk order /\
    NoEBlockRowsUpdate st bs values b want_rhs (skipn (uneliminated_row_begins st) (rows bs)) = Some tail /\
    result = apply_all stored (AddDiagonal st bs D ++ order ++ tail) (mkSystem (fun _ _ _ _ => 0) (fun _ => 0)).

(* ------------------------------------------------------------------ BackSubstitute *)
(* 341-375 the loop over the rows of a chunk: y_ptr and ete *)
Fixpoint BackSubstituteRows (st : Eliminator) (bs : Structure) (values b z : nat -> R) (e_size : nat) (rs : list Row) (yb : nat -> R) (m : matrix) : option ((nat -> R) * matrix) :=
  match rs with
  | [] => Some (yb, m)
  | row :: rs' =>
    match cells row with
    | [] => None
    | e_cell :: cs =>
      let nrow := size (block row) in
      let E := block_at values (cell_position e_cell) e_size in
      let sj := fold_left (fun s c => let n := size (col bs (block_id c)) in
          fun k => s k - mv n (block_at values (cell_position c) n) (fun j => z (nth (block_id c - num_eliminate_blocks st) (lhs_row_layout st) 0%nat + j)%nat) k)
        cs (fun k => b (position (block row) + k)%nat) in
      BackSubstituteRows st bs values b z e_size rs' (fun i => yb i + mtv nrow E sj i) (fun i j => m i j + mtm nrow E E i j)
    end
  end.
Definition BackSubstituteChunk (invert : bool -> nat -> matrix -> matrix) (st : Eliminator) (bs : Structure) (values b : nat -> R) (D : option (nat -> R)) (z y : nat -> R) (c : Chunk) : option (nat -> R) :=
  match chunk_rows bs c with
  | [] => None
  | row0 :: _ =>
    match cells row0 with
    | [] => None
    | e_cell :: _ =>
      let e := col bs (block_id e_cell) in
      match BackSubstituteRows st bs values b z (size e) (chunk_rows bs c) (fun i => y (position e + i)%nat) (diagonal D (position e)) with
      | None => None
      | Some (yb, m) =>
        let y_block := mv (size e) (invert (assume_full_rank_ete st) (size e) m) yb in
        Some (fun i => if (position e <=? i) && (i <? position e + size e) then y_block (i - position e)%nat else y i)
      end
    end
  end.
(* 313-380; order: the order in which the chunks are processed (they touch different
   parts of y) *)
Fixpoint BackSubstitute (invert : bool -> nat -> matrix -> matrix) (st : Eliminator) (bs : Structure) (values b : nat -> R) (D : option (nat -> R)) (z : nat -> R) (order : list Chunk) (y : nat -> R) : option (nat -> R) :=
  match order with
  | [] => Some y
  | c :: order' => match BackSubstituteChunk invert st bs values b D z y c with
    | Some y' => BackSubstitute invert st bs values b D z order' y'
    | None => None
    end
  end.

(* ------------------------------------------------------------------ schur_complement_solver.cc *)
(* 243-268 the f blocks of a chunk, and the pairs of them (std::sort and
   std::unique, then all i < j, are: all pairs of members in increasing order) *)
Definition chunk_pairs (fs : list nat) : list (nat * nat) :=
  flat_map (fun i => flat_map (fun j => if i <? j then [(i, j)] else []) fs) fs.
Fixpoint take_chunk (id nelim : nat) (rest : list Row) : option (list nat * list Row) :=
  match rest with
  | [] => Some ([], [])
  | row :: rest' => match cells row with
    | [] => None
    | c0 :: cs => if block_id c0 =? id then
        match take_chunk id nelim rest' with
        | Some (fs, r) => Some (map (fun c => block_id c - nelim)%nat cs ++ fs, r)
        | None => None
        end
      else Some ([], rest)
    end
  end.
Definition row_pairs (nelim : nat) (row : Row) : list (nat * nat) :=
  flat_map (fun c1 => flat_map (fun c2 =>
    let b1 := (block_id c1 - nelim)%nat in let b2 := (block_id c2 - nelim)%nat in if b1 <=? b2 then [(b1, b2)] else []) (cells row)) (cells row).
(* 271-285 *)
Fixpoint rest_pairs (nelim : nat) (rest : list Row) : option (list (nat * nat)) :=
  match rest with
  | [] => Some []
  | row :: rest' => match cells row with
    | [] => None
    | c0 :: _ => if block_id c0 <? nelim then None (* CHECK_GE *) else
        match rest_pairs nelim rest' with Some ps => Some (row_pairs nelim row ++ ps) | None => None end
    end
  end.
Fixpoint all_pairs (fuel nelim : nat) (rest : list Row) : option (list (nat * nat)) :=
  match fuel, rest with
  | _, [] => Some []
  | O, _ => None
  | S fuel', row :: _ => match cells row with
    | [] => None
    | c0 :: _ => if nelim <=? block_id c0 then rest_pairs nelim rest else
        match take_chunk (block_id c0) nelim rest with
        | None => None
        | Some (fs, r) => match all_pairs fuel' nelim r with Some ps => Some (chunk_pairs fs ++ ps) | None => None end
        end
    end
  end.
(* 222-290 SparseSchurComplementSolver::InitStorage: block_pairs *)
Definition block_pairs (nelim : nat) (bs : Structure) : option (list (nat * nat)) :=
  match all_pairs (S (length (rows bs))) nelim (rows bs) with
  | None => None
  | Some ps => Some (map (fun i => (i, i)) (seq 0 (length (cols bs) - nelim)) ++ ps)
  end.
Definition sparse_stored (ps : list (nat * nat)) (b1 b2 : nat) : bool := existsb (fun p => (fst p =? b1) && (snd p =? b2)) ps.

(* 101-159 SchurComplementSolver::SolveImpl after Init and InitStorage: reduced is the
   solution of the reduced system; x is zero but for it, then BackSubstitute.  (y and z
   are parts of the same array that do not overlap.) *)
Definition SolveImpl (invert : bool -> nat -> matrix -> matrix) (st : Eliminator) (bs : Structure) (values b : nat -> R) (D : option (nat -> R)) (reduced : nat -> R) (num_cols reduced_cols : nat) (order : list Chunk) : option (nat -> R) :=
  BackSubstitute invert st bs values b D reduced order
    (fun i => if (i <? num_cols - reduced_cols)%nat then 0 else reduced (i - (num_cols - reduced_cols))%nat).

(* ------------------------------------------------------------------ SchurEliminatorForOneFBlock *)
(* schur_eliminator.h 380-625; kRowBlockSize, kEBlockSize and kFBlockSize are k_row, k_e
   and k_f.  Eigen's inverse() is an argument.  The loops run in one thread. *)
Record OneF : Type := mkOneF { one_nelim : nat; one_chunks : list (nat * nat); one_begins : nat }.
(* 412-420 *)
Fixpoint OneGrow (id : nat) (rest : list Row) : option nat :=
  match rest with
  | [] => Some 0%nat
  | row :: rest' => match cells row with
    | [] => None
    | c0 :: _ => if block_id c0 =? id then match OneGrow id rest' with Some n => Some (S n) | None => None end else Some 0%nat
    end
  end.
(* 398-422; fuel as above *)
Fixpoint OneFind (fuel nelim r : nat) (rest : list Row) : option (list (nat * nat)) :=
  match fuel, rest with
  | _, [] => Some []
  | O, _ => None
  | S fuel', row :: _ => match cells row with
    | [] => None
    | c0 :: _ => if nelim <=? block_id c0 then Some [] else
      match OneGrow (block_id c0) rest with
      | None => None
      | Some n => match OneFind fuel' nelim (r + n) (skipn n rest) with Some cs => Some ((r, n) :: cs) | None => None end
      end
    end
  end.
(* 387-429; the inverses are the result of OneEliminate *)
Definition OneInit (nelim : nat) (bs : Structure) : option OneF :=
  if nelim =? 0 then None else if negb (length (cols bs) - nelim =? 1) then None else
  match OneFind (S (length (rows bs))) nelim 0 (rows bs) with
  | None => None
  | Some cs => match rev cs with
    | [] => None
    | (s, n) :: _ => Some (mkOneF nelim cs (s + n))
    end
  end.
(* 483-522 the sums over the rows of a chunk *)
Record OneSums : Type := mkOneSums { e_t_e : matrix; e_t_f : matrix; e_t_b : nat -> R; f_t_b : nat -> R; one_lhs : matrix }.
Definition OneRow (k_row k_e k_f : nat) (values b : nat -> R) (s : OneSums) (row : Row) : option OneSums :=
  match cells row with
  | [] => None
  | c0 :: cs =>
    let E := block_at values (cell_position c0) k_e in
    let bb k := b (position (block row) + k)%nat in
    let s1 := mkOneSums (fun i j => e_t_e s i j + mtm k_row E E i j) (e_t_f s) (fun i => e_t_b s i + mtv k_row E bb i) (f_t_b s) (one_lhs s) in
    match cs with
    | [] => Some s1
    | c1 :: _ =>
      let F := block_at values (cell_position c1) k_f in
      Some (mkOneSums (e_t_e s1) (fun i j => e_t_f s1 i j + mtm k_row E F i j) (e_t_b s1) (fun i => f_t_b s1 i + mtv k_row F bb i)
              (fun i j => one_lhs s1 i j + mtm k_row F F i j))
    end
  end.
Fixpoint OneRows (k_row k_e k_f : nat) (values b : nat -> R) (rs : list Row) (s : OneSums) : option OneSums :=
  match rs with
  | [] => Some s
  | row :: rs' => match OneRow k_row k_e k_f values b s row with Some s' => OneRows k_row k_e k_f values b rs' s' | None => None end
  end.
Definition one_rows (bs : Structure) (c : nat * nat) : list Row := firstn (snd c) (skipn (fst c) (rows bs)).
(* 479-548 the loop over the chunks: lhs, rhs and the inverses *)
Fixpoint OneChunks (inverse : nat -> matrix -> matrix) (k_row k_e k_f : nat) (bs : Structure) (values b : nat -> R) (D : option (nat -> R)) (cs : list (nat * nat)) (l : matrix) (r : nat -> R) : option (matrix * (nat -> R) * list matrix) :=
  match cs with
  | [] => Some (l, r, [])
  | c :: cs' =>
    match one_rows bs c with
    | [] => None
    | row0 :: _ => match cells row0 with
      | [] => None
      | e_cell :: _ =>
        match OneRows k_row k_e k_f values b (one_rows bs c)
                (mkOneSums (diagonal D (position (col bs (block_id e_cell)))) (fun _ _ => 0) (fun _ => 0) (fun _ => 0) l) with
        | None => None
        | Some s =>
          let inv := inverse k_e (e_t_e s) in
          let tmp := mm k_e inv (e_t_f s) in
          let tmp2 := mv k_e inv (e_t_b s) in
          match OneChunks inverse k_row k_e k_f bs values b D cs'
                  (fun i j => one_lhs s i j - mtm k_e (e_t_f s) tmp i j) (fun i => r i + (f_t_b s i - mtv k_e (e_t_f s) tmp2 i)) with
          | Some (l', r', invs) => Some (l', r', inv :: invs)
          | None => None
          end
        end
      end
    end
  end.
(* 550-565 *)
Fixpoint OneTail (k_f : nat) (values b : nat -> R) (rs : list Row) (l : matrix) (r : nat -> R) : option (matrix * (nat -> R)) :=
  match rs with
  | [] => Some (l, r)
  | row :: rs' => match cells row with
    | [] => None
    | c :: _ => let F := block_at values (cell_position c) k_f in let n := size (block row) in
      OneTail k_f values b rs' (fun i j => l i j + mtm n F F i j) (fun i => r i + mtv n F (fun k => b (position (block row) + k)%nat) i)
    end
  end.
(* 431-566; lhs and rhs are set to zero first, then lhs has the diagonal *)
Definition OneEliminate (inverse : nat -> matrix -> matrix) (k_row k_e k_f : nat) (st : OneF) (bs : Structure) (values b : nat -> R) (D : option (nat -> R)) : option (matrix * (nat -> R) * list matrix) :=
  match OneChunks inverse k_row k_e k_f bs values b D (one_chunks st) (diagonal D (position (col bs (one_nelim st)))) (fun _ => 0) with
  | None => None
  | Some (l, r, invs) => match OneTail k_f values b (skipn (one_begins st) (rows bs)) l r with
    | Some (l', r') => Some (l', r', invs)
    | None => None
    end
  end.
(* 583-602 the rows of a chunk *)
Fixpoint OneBackRows (k_row k_e k_f : nat) (values b z : nat -> R) (rs : list Row) (tmp : nat -> R) : option (nat -> R) :=
  match rs with
  | [] => Some tmp
  | row :: rs' => match cells row with
    | [] => None
    | c0 :: cs =>
      let E := block_at values (cell_position c0) k_e in
      let bb k := b (position (block row) + k)%nat in
      OneBackRows k_row k_e k_f values b z rs'
        (match cs with
         | [] => fun i => tmp i + mtv k_row E bb i
         | c1 :: _ => fun i => tmp i + mtv k_row E (fun k => bb k - mv k_f (block_at values (cell_position c1) k_f) z k) i
         end)
    end
  end.
(* 568-613 *)
Fixpoint OneBackSubstitute (k_row k_e k_f : nat) (bs : Structure) (values b z : nat -> R) (cs : list (nat * nat)) (invs : list matrix) (y : nat -> R) : option (nat -> R) :=
  match cs, invs with
  | [], _ => Some y
  | _ :: _, [] => None
  | c :: cs', inv :: invs' =>
    match one_rows bs c with
    | [] => None
    | row0 :: _ => match cells row0 with
      | [] => None
      | e_cell :: _ =>
        match OneBackRows k_row k_e k_f values b z (one_rows bs c) (fun _ => 0) with
        | None => None
        | Some tmp => let p := position (col bs (block_id e_cell)) in
          OneBackSubstitute k_row k_e k_f bs values b z cs' invs' (fun i => if (p <=? i) && (i <? p + k_e) then mv k_e inv tmp (i - p)%nat else y i)
        end
      end
    end
  end.
