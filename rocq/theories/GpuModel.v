(* Block sparse matrices on the GPU: internal/ceres/cuda_block_structure.cc,
   cuda_kernels_bsm_to_crs.cu.cc, cuda_block_sparse_crs_view.cc,
   cuda_partitioned_block_sparse_crs_view.cc, cuda_streamed_buffer.h.

   Structures are those of SchurModel.v.  int is nat (no overflow); errors of the CUDA library are
   not modelled. *)
From Coq Require Import Reals List Arith Bool Permutation.
From Verif Require Import SchurModel BlockSparseModel.
Import ListNotations.
Open Scope nat_scope.

(* None of the list is None *)
Fixpoint all_some {A} (l : list (option A)) : option (list A) :=
  match l with
  | [] => Some []
  | None :: _ => None
  | Some x :: l' => match all_some l' with None => None | Some r => Some (x :: r) end
  end.

(* ---------------------------------------------------------- the structure *)
(* cuda_block_structure.h 98-116: the arrays, copied to the GPU *)
Record Flat : Type := mkFlat {
  f_first : list nat;      (* first_cell_in_row_block_ *)
  f_cells : list Cell;
  f_rows : list Block;
  f_cols : list Block;
  f_offsets : list nat;    (* value_offset_row_block_f_ *)
  f_nnz_e : nat;
  f_nnz : nat;
  f_row_blocks_e : nat;
  f_compatible : bool }.
(* the variables of the constructor; -1 is None; the last offset comes first *)
Record Scan : Type := mkScan {
  s_first : list nat;
  s_cells : list Cell;
  s_rows : list Block;
  s_offsets : list (option nat);
  s_nnz_e : nat;
  s_nnz : nat;
  s_f : option nat;        (* f_values_offset *)
  s_compatible : bool;
  s_sequential : bool }.

(* cuda_block_structure.cc 113-129, 164-175: a cell of F with h rows *)
Definition FCell (bl : list Block) (h : nat) (s : Scan) (c : Cell) : Scan :=
  let start := match s_f s with None => cell_position c | Some _ => s_nnz s end in
  mkScan (s_first s) (s_cells s ++ [c]) (s_rows s) (s_offsets s) (s_nnz_e s)
    (start + size (nth (block_id c) bl (mkBlock 0 0)) * h)
    (match s_f s with None => Some (cell_position c) | f => f end)
    (s_compatible s) (s_sequential s && (cell_position c =? start)).
(* 119-126, 180-186: *it = v from the back as long as it is -1 *)
Fixpoint fill (v : nat) (offsets : list (option nat)) : list (option nat) :=
  match offsets with None :: l => Some v :: fill v l | l => l end.
Definition set_offsets (s : Scan) (o : list (option nat)) : Scan :=
  mkScan (s_first s) (s_cells s) (s_rows s) o (s_nnz_e s) (s_nnz s) (s_f s) (s_compatible s) (s_sequential s).
(* 97-100, 148-152: is_crs_compatible_, row_blocks, first_cell_in_row_block *)
Definition begin_row (most : nat) (row : Row) (s : Scan) : Scan :=
  mkScan (s_first s ++ [length (s_cells s)]) (s_cells s) (s_rows s ++ [block row]) (s_offsets s) (s_nnz_e s) (s_nnz s) (s_f s)
    (s_compatible s && negb ((most <? length (cells row)) && (1 <? size (block row)))) (s_sequential s).
(* 87-136: a row block that begins with an E cell *)
Definition ERow (bl : list Block) (s : Scan) (row : Row) : Scan :=
  let s := begin_row 2 row s in
  let h := size (block row) in
  match cells row with
  | [] => s
  | c :: cs =>
    let s := mkScan (s_first s) (s_cells s ++ [c]) (s_rows s) (s_offsets s) (s_nnz_e s + size (nth (block_id c) bl (mkBlock 0 0)) * h) (s_nnz s) (s_f s) (s_compatible s) (s_sequential s) in
    let s := set_offsets s (match cs with [] => None :: s_offsets s | c1 :: _ => Some (cell_position c1) :: fill (cell_position c1) (s_offsets s) end) in
    fold_left (FCell bl h) cs s
  end.
(* 137-176: a row block after those.  Lines 155-160: if the last offset is -1 the reverse iterator
   is then decremented and leaves the array: None *)
Definition FRow (bl : list Block) (s : option Scan) (row : Row) : option Scan :=
  match s with
  | None => None
  | Some s =>
    let s := begin_row 1 row s in
    match cells row with
    | [] => Some (set_offsets s (None :: s_offsets s))
    | c :: _ =>
      match s_offsets s with
      | None :: _ => None
      | o => Some (fold_left (FCell bl (size (block row))) (cells row) (set_offsets s (Some (cell_position c) :: o)))
      end
    end
  end.
(* 80-86: the row blocks up to the first that does not begin with a cell of the first nelim column
   blocks *)
Fixpoint leading (nelim : nat) (rs : list Row) : list Row :=
  match rs with row :: rs' => if starts_in nelim row then row :: leading nelim rs' else [] | [] => [] end.
(* Undefined: memory outside an array is used; Aborted: a CHECK fails *)
Inductive Outcome (A : Type) : Type := Undefined | Aborted | Done (a : A).
Arguments Undefined {A}. Arguments Aborted {A}. Arguments Done {A}.
(* 51-231 CudaBlockSparseStructure; 0 columns in E for the constructor without that argument.  The
   DCHECKs are not modelled *)
Definition Flatten (nelim : nat) (bs : Structure) : Outcome Flat :=
  let es := leading nelim (rows bs) in
  let s := fold_left (ERow (cols bs)) es (mkScan [] [] [] [] 0 0 None true true) in
  match fold_left (FRow (cols bs)) (skipn (length es) (rows bs)) (Some s) with
  | None => Undefined
  | Some s =>
    let f := match s_f s with None => s_nnz_e s | Some f => f end in
    let n := match s_f s with None => s_nnz_e s | Some _ => s_nnz s end in
    let offsets := rev (fill n (s_offsets s)) ++ [Some n] in
    if negb (s_nnz_e s =? f) then Aborted
    else if negb (s_sequential s) then Aborted
    else Done (mkFlat (s_first s ++ [length (s_cells s)]) (s_cells s) (s_rows s) (cols bs)
           (map (fun o => match o with Some v => v | None => 0 end) offsets) (s_nnz_e s) n (length es) (s_compatible s))
  end.

(* ---------------------------------------------------------- kernels *)
(* the threads of a kernel: their writes (address, value) are performed in any order *)
Definition write {A} (m : nat -> A) (w : nat * A) : nat -> A := fun p => if p =? fst w then snd w else m p.
Definition launch {A} (ws : list (nat * A)) (m m' : nat -> A) : Prop :=
  exists order, Permutation order ws /\ forall p, m' p = fold_left write order m p.

(* cells + first_cell_in_row_block[i], cells + first_cell_in_row_block[i + 1] *)
Definition cell_range (F : Flat) (rb : nat) : option (list Cell) :=
  match nth_error (f_first F) rb, nth_error (f_first F) (S rb) with
  | Some a, Some b => if b <=? length (f_cells F) then Some (firstn (b - a) (skipn a (f_cells F))) else None
  | _, _ => None
  end.
(* col_blocks[cell->block_id]; every block id is required to be in range *)
Definition fcol (F : Flat) (c : Cell) : Block := nth (block_id c) (f_cols F) (mkBlock 0 0).
(* if (partitioned && row_block_id < num_row_blocks_e): the first cell is one of E *)
Definition split_cells (partitioned : bool) (e rb : nat) (cs : list Cell) : option (option Cell * list Cell) :=
  if partitioned && (rb <? e) then match cs with [] => None | c :: cs' => Some (Some c, cs') end else Some (None, cs).

(* cuda_kernels_bsm_to_crs.cu.cc 112-162 RowBlockIdAndNNZ: the thread of row block rb; writes to
   rows_e, rows_f, row_block_ids *)
Definition RowThread (partitioned : bool) (e : nat) (F : Flat) (rb : nat) : option (list (nat * nat) * list (nat * nat) * list (nat * nat)) :=
  match nth_error (f_rows F) rb, cell_range F rb with
  | Some b, Some cs =>
    match split_cells partitioned e rb cs with
    | None => None
    | Some (ce, cf) =>
      let nnz_e := match ce with Some c => size (fcol F c) | None => 0 end in
      let nnz_f := fold_left (fun n c => n + size (fcol F c)) cf 0 in
      let is := seq (position b) (size b) in
      Some (if partitioned then map (fun i => (i + 1, nnz_e)) is else [], map (fun i => (i + 1, nnz_f)) is, map (fun i => (i, rb)) is)
    end
  | _, _ => None
  end.
(* thrust::inclusive_scan *)
Fixpoint scan (m : nat -> nat) (p : nat) : nat := match p with 0 => m 0 | S q => scan m q + m (S q) end.
(* the column loops 203-212, 214-224: cells at pos, columns from position - shift *)
Fixpoint column_writes (F : Flat) (shift pos : nat) (cs : list Cell) : list (nat * nat) :=
  match cs with
  | [] => []
  | c :: cs' => map (fun i => (pos + i, position (fcol F c) - shift + i)) (seq 0 (size (fcol F c))) ++ column_writes F shift (pos + size (fcol F c)) cs'
  end.
(* 178-226 ComputeColumns: the thread of a row; writes to cols_e, cols_f.  Line 200 reads
   col_blocks[num_col_blocks_e] also if there is no such block; its value is then not used (shown as
   0) *)
Definition ColumnThread (partitioned : bool) (e nelim : nat) (F : Flat) (ids rows_e rows_f : nat -> nat) (row : nat) : option (list (nat * nat) * list (nat * nat)) :=
  match cell_range F (ids row) with
  | None => None
  | Some cs =>
    match split_cells partitioned e (ids row) cs with
    | None => None
    | Some (ce, cf) =>
      Some (match ce with Some c => column_writes F 0 (rows_e row) [c] | None => [] end,
            column_writes F (position (nth nelim (f_cols F) (mkBlock 0 0))) (rows_f row) cf)
    end
  end.
(* row offsets and columns of a CRS matrix *)
Record Crs : Type := mkCrs { c_rows : nat -> nat; c_cols : nat -> nat }.
(* 228-270, 272-324 FillCRSStructure, FillCRSStructurePartitioned: what they may leave in the arrays
   for E (only if partitioned) and F; None: an array is left.  All arrays are uninitialised *)
Definition Fill (partitioned : bool) (e nelim num_rows : nat) (F : Flat) (result : option (Crs * Crs)) : Prop :=
  match all_some (map (RowThread partitioned e F) (seq 0 (length (f_rows F)))) with
  | None => result = None
  | Some ws =>
    exists junk1 junk2 junk3 ne nf ids,
    launch ((if partitioned then [(0, 0)] else []) ++ concat (map (fun w => fst (fst w)) ws)) junk1 ne /\
    launch ((0, 0) :: concat (map (fun w => snd (fst w)) ws)) junk2 nf /\
    launch (concat (map snd ws)) junk3 ids /\
    match all_some (map (ColumnThread partitioned e nelim F ids (scan ne) (scan nf)) (seq 0 num_rows)) with
    | None => result = None
    | Some ws' =>
      exists junk4 junk5 ce cf,
      launch (concat (map fst ws')) junk4 ce /\ launch (concat (map snd ws')) junk5 cf /\
      result = Some (mkCrs (scan ne) ce, mkCrs (scan nf) cf)
    end
  end.

(* 326-344 PartitionPoint with the predicate data[i] <= id; data is None outside its array *)
Fixpoint search (fuel : nat) (data : nat -> option nat) (id first last : nat) : option nat :=
  match fuel with
  | 0 => None
  | S fuel' =>
    if 1 <? last - first then
      let midpoint := first + (last - first) / 2 in
      match data midpoint with
      | None => None
      | Some d => if d <=? id then search fuel' data id midpoint last else search fuel' data id first midpoint
      end
    else Some last
  end.
Definition PartitionPoint (data : nat -> option nat) (id last : nat) : option nat :=
  match data 0 with
  | None => None
  | Some d => if d <=? id then search (S last) data id 0 last else Some 0
  end.
(* 391-408: the first cell that ends after id, with the columns before it *)
Fixpoint find_cell (F : Flat) (h id before : nat) (cs : list Cell) : option (Cell * nat) :=
  match cs with
  | [] => None
  | c :: cs' => if id <? cell_position c + h * size (fcol F c) then Some (c, before) else find_cell F h id (before + size (fcol F c)) cs'
  end.
(* 350-409 PermuteToCrsKernel: the thread of a value *)
Definition PermuteThread (partitioned : bool) (e : nat) (F : Flat) (crs_rows : nat -> nat) (offset : nat) (values : nat -> R) (value_id : nat) : option (list (nat * R)) :=
  let id := value_id + offset in
  let data := if partitioned then nth_error (f_offsets F)
              else fun i => match nth_error (f_first F) i with None => None | Some a => match nth_error (f_cells F) a with None => None | Some c => Some (cell_position c) end end in
  match PartitionPoint data id (length (f_rows F)) with
  | Some (S rb) =>
    match nth_error (f_rows F) rb, cell_range F rb with
    | Some b, Some cs =>
      match split_cells partitioned e rb cs with
      | None => None
      | Some (_, cf) =>
        match find_cell F (size b) id 0 cf with
        | None => Some []
        | Some (c, before) =>
          if id <? cell_position c then None
          else
            let pos := id - cell_position c in
            Some [(crs_rows (pos / size (fcol F c) + position b) + before + pos mod size (fcol F c), values value_id)]
        end
      end
    | _, _ => None
    end
  | _ => None
  end.

(* ---------------------------------------------------------- views *)
(* cuda_streamed_buffer.h 225-270 CopyToGpu: the batches (offset, number of values).  The copies in
   two streams are not modelled: the kernel of a batch finds the values of that batch *)
Fixpoint batches (fuel per_batch offset n : nat) : list (nat * nat) :=
  match fuel with
  | 0 => []
  | S fuel' => if offset <? n then (offset, min (n - offset) per_batch) :: batches fuel' per_batch (offset + per_batch) n else []
  end.
(* the writes of all kernels: PermuteToCRS(base + offset, num, ...) for every batch of the n values
   from *)
Definition permute_writes (partitioned : bool) (e : nat) (F : Flat) (crs_rows : nat -> nat) (base per_batch n : nat) (from : nat -> R) : option (list (nat * R)) :=
  match all_some (flat_map (fun b => map (PermuteThread partitioned e F crs_rows (base + fst b) (fun i => from (fst b + i))) (seq 0 (snd b))) (batches n per_batch 0 n)) with
  | None => None
  | Some ws => Some (concat ws)
  end.
(* cudaMemcpyAsync of n values *)
Definition copied (n : nat) (from m : nat -> R) : nat -> R := fun p => if p <? n then from p else m p.

(* cuda_block_sparse_crs_view.cc 70-100 UpdateValues; nnz is bsm.num_nonzeros() *)
Definition UpdateValues (F : Flat) (crs : Crs) (per_batch nnz : nat) (values old : nat -> R) (result : option (nat -> R)) : Prop :=
  if f_compatible F then result = Some (copied nnz values old)
  else
    match permute_writes false 0 F (c_rows crs) 0 per_batch nnz values with
    | None => result = None
    | Some ws => exists new, launch ws old new /\ result = Some new
    end.
(* cuda_block_sparse_crs_view.cc 41-68: the view: row offsets, columns, values *)
Definition View (per_batch : nat) (b : BlockSparse) (result : Outcome (Crs * (nat -> R))) : Prop :=
  match Flatten 0 (structure b) with
  | Undefined => result = Undefined
  | Aborted => result = Aborted
  | Done F => exists fr, Fill false 0 0 (num_rows b) F fr /\
    match fr with
    | None => result = Undefined
    | Some (_, crs) => exists junk v, UpdateValues F crs per_batch (nnz b) (values b) junk v /\ result = match v with None => Undefined | Some v => Done (crs, v) end
    end
  end.

(* cuda_partitioned_block_sparse_crs_view.cc 106-151 UpdateValues: the values of E and of F *)
Definition UpdatePartitioned (F : Flat) (f : Crs) (per_batch nnz : nat) (values old_e old_f : nat -> R) (result : option ((nat -> R) * (nat -> R))) : Prop :=
  let ne := f_nnz_e F in
  let e := copied ne values old_e in
  if f_compatible F then result = Some (e, copied (nnz - ne) (fun p => values (ne + p)) old_f)
  else
    match permute_writes true (f_row_blocks_e F) F (c_rows f) ne per_batch nnz values with
    | None => result = None
    | Some ws => exists new, launch ws old_f new /\ result = Some (e, new)
    end.
Definition PartitionedView (per_batch nelim : nat) (b : BlockSparse) (result : Outcome ((Crs * (nat -> R)) * (Crs * (nat -> R)))) : Prop :=
  match Flatten nelim (structure b) with
  | Undefined => result = Undefined
  | Aborted => result = Aborted
  | Done F => exists fr, Fill true (f_row_blocks_e F) nelim (num_rows b) F fr /\
    match fr with
    | None => result = Undefined
    | Some (e, f) => exists junk_e junk_f v, UpdatePartitioned F f per_batch (nnz b) (values b) junk_e junk_f v /\
      result = match v with None => Undefined | Some (ve, vf) => Done ((e, ve), (f, vf)) end
    end
  end.
