(* InnerProductComputer: internal/ceres/inner_product_computer.cc.

   double is modelled by R.  An array is a function of the index together with the list of
   stores made into it; the products of small_blas.h are sums (SchurModel.v, C68), one
   accumulating call being one update per row of the product. *)
From Coq Require Import Reals List Arith Bool.
From Verif Require Import SchurModel BlockSparseModel.
Import ListNotations.
Open Scope nat_scope.

(* inner_product_computer.h 104-124 ProductTerm: row, col, index *)
Record Term : Type := mkTerm { t_row : nat; t_col : nat; t_index : nat }.
Definition less (a b : Term) : bool :=
  if t_row a =? t_row b then
    (if t_col a =? t_col b then t_index a <? t_index b else t_col a <? t_col b)
  else t_row a <? t_row b.

Definition no_cell : Cell := mkCell 0 0.
(* .cc 160-179 and 307-322: c1 over all cells, c2 up to c1 (LOWER_TRIANGULAR) or from c1 on *)
Definition pairs (lower : bool) (cs : list Cell) : list (Cell * Cell) :=
  flat_map (fun c1 => map (fun c2 => (nth c1 cs no_cell, c2)) (if lower then firstn (S c1) cs else skipn c1 cs)) (seq 0 (length cs)).
(* the row blocks start_row_block_ .. end_row_block_ - 1 *)
Definition row_range (bs : Structure) (s e : nat) : list Row := firstn (e - s) (skipn s (rows bs)).
Definition products (lower : bool) (rs : list Row) : list (Row * Cell * Cell) :=
  flat_map (fun row => map (fun p => (row, fst p, snd p)) (pairs lower (cells row))) rs.
(* 157-183 the product terms, numbered as they are made *)
Definition product_terms (lower : bool) (rs : list Row) : list Term :=
  map (fun '(i, (_, c1, c2)) => mkTerm (block_id c1) (block_id c2) i)
      (combine (seq 0 (length (products lower rs))) (products lower rs)).
(* 185 std::sort *)
Fixpoint insert_term (t : Term) (l : list Term) : list Term :=
  match l with [] => [t] | u :: l' => if less u t then u :: insert_term t l' else t :: l end.
Definition sort_terms (l : list Term) : list Term := fold_right insert_term [] l.

Definition size_of (bs : Structure) (b : nat) : nat := size (col bs b).
Definition set_at (f : nat -> nat) (i v : nat) : nat -> nat := fun k => if k =? i then v else f k.

(* 81-93 *)
Fixpoint NonzerosRest (bs : Structure) (previous : Term) (l : list Term) (row_nnz : nat -> nat) (n : nat) : (nat -> nat) * nat :=
  match l with
  | [] => (row_nnz, n)
  | current :: l' =>
    if negb (t_row current =? t_row previous) || negb (t_col current =? t_col previous)
    then NonzerosRest bs current l' (set_at row_nnz (t_row current) (row_nnz (t_row current) + size_of bs (t_col current)))
           (n + size_of bs (t_row current) * size_of bs (t_col current))
    else NonzerosRest bs current l' row_nnz n
  end.
(* 64-96 ComputeNonzeros *)
Definition ComputeNonzeros (bs : Structure) (l : list Term) : (nat -> nat) * nat :=
  match l with
  | [] => (fun _ => 0, 0)
  | t :: l' => NonzerosRest bs t l' (set_at (fun _ => 0) (t_row t) (size_of bs (t_col t))) (size_of bs (t_row t) * size_of bs (t_col t))
  end.

(* 199-206 the row pointers; here: those from the current one on *)
Fixpoint RowPointers (bl : list Block) (i : nat) (row_nnz : nat -> nat) (at_ : nat) : list nat :=
  match bl with
  | [] => [at_]
  | b :: bl' => map (fun j => at_ + j * row_nnz i) (seq 0 (size b)) ++ RowPointers bl' (S i) row_nnz (at_ + size b * row_nnz i)
  end.

(* 246-257 FILL_CRSM_COL_BLOCK: the stores into the column array *)
Definition Fill (bs : Structure) (row_nnz : nat -> nat) (t : Term) (nnz_ col_nnz : nat) : list (nat * nat) :=
  flat_map (fun j => map (fun k => (nnz_ + j * row_nnz (t_row t) + col_nnz + k, position (col bs (t_col t)) + k)) (seq 0 (size_of bs (t_col t))))
           (seq 0 (size_of bs (t_row t))).
(* 267-291 the other terms: result_offsets_ and the stores *)
Fixpoint OffsetsRest (bs : Structure) (row_nnz : nat -> nat) (previous : Term) (l : list Term) (nnz_ col_nnz : nat)
    (offsets : nat -> nat) (stores : list (nat * nat)) : (nat -> nat) * list (nat * nat) :=
  match l with
  | [] => (offsets, stores)
  | current :: l' =>
    if (t_row previous =? t_row current) && (t_col previous =? t_col current) then
      OffsetsRest bs row_nnz current l' nnz_ col_nnz (set_at offsets (t_index current) (offsets (t_index previous))) stores
    else
      let '(nnz', col_nnz') :=
        if t_row previous =? t_row current then (nnz_, col_nnz + size_of bs (t_col previous))
        else (nnz_ + row_nnz (t_row previous) * size_of bs (t_row previous), 0) in
      OffsetsRest bs row_nnz current l' nnz' col_nnz' (set_at offsets (t_index current) (nnz' + col_nnz'))
        (stores ++ Fill bs row_nnz current nnz' col_nnz')
  end.

(* result_ and result_offsets_ *)
Record Inner : Type := mkInner { i_nonzeros : nat; i_rows : list nat; i_stores : list (nat * nat); i_offsets : nat -> nat; i_terms : nat }.
(* 188-292 ComputeOffsetsAndCreateResultMatrix *)
Definition CreateOffsets (bs : Structure) (l : list Term) : Inner :=
  let '(row_nnz, n) := ComputeNonzeros bs l in
  let rp := RowPointers (cols bs) 0 row_nnz 0 in
  match l with
  | [] => mkInner n rp [] (fun _ => 0) 0
  | t :: l' =>
    if n =? 0 then mkInner n rp [] (fun _ => 0) (length l)
    else let '(offsets, stores) := OffsetsRest bs row_nnz t l' 0 0 (set_at (fun _ => 0) (t_index t) 0) (Fill bs row_nnz t 0 0) in
         mkInner n rp stores offsets (length l)
  end.
(* 120-186 Create and Init *)
Definition Create (bs : Structure) (s e : nat) (lower : bool) : Inner :=
  CreateOffsets bs (sort_terms (product_terms lower (row_range bs s e))).

(* the column array: what was allocated, with the stores *)
Definition columns (r : Inner) (junk : nat -> nat) : nat -> nat := fold_left (fun f s => set_at f (fst s) (snd s)) (i_stores r) junk.

(* 297-345 Compute: the accumulating stores of the product [cursor] *)
Definition product_updates (bs : Structure) (values : vec) (r : Inner) (cursor : nat) (p : Row * Cell * Cell) : list Update :=
  let '(row, c1, c2) := p in
  let c1_size := size_of bs (block_id c1) in
  let c2_size := size_of bs (block_id c2) in
  let pos1 := position (col bs (block_id c1)) in
  let row_nnz := nth (pos1 + 1) (i_rows r) 0 - nth pos1 (i_rows r) 0 in
  map (fun i => mkUpdate (i_offsets r cursor + i * row_nnz) c2_size
        (fun j => mtm (size (block row)) (block_at values (cell_position c1) c1_size) (block_at values (cell_position c2) c2_size) i j))
      (seq 0 c1_size).
Definition compute_updates (bs : Structure) (values : vec) (s e : nat) (lower : bool) (r : Inner) : list Update :=
  flat_map (fun '(i, p) => product_updates bs values r i p)
    (combine (seq 0 (length (products lower (row_range bs s e)))) (products lower (row_range bs s e))).
(* SetZero, then the accumulation; [old]: the values before.  None: CHECK_EQ(cursor, result_offsets_.size()) *)
Definition Compute (bs : Structure) (values : vec) (s e : nat) (lower : bool) (r : Inner) (old : vec) : option vec :=
  if negb (length (products lower (row_range bs s e)) =? i_terms r) then None
  else Some (perform (compute_updates bs values s e lower r) (fun p => if p <? i_nonzeros r then 0%R else old p)).
