(* TripletSparseMatrix and CompressedRowSparseMatrix:
   internal/ceres/triplet_sparse_matrix.cc,
   internal/ceres/compressed_row_sparse_matrix.cc.

   Values are real numbers (rounding is not modelled).  Arrays are lists,
   reading outside of one gives 0 and writing outside of one has no effect;
   SparseProps.v shows for the functions that compute addresses that all of
   them are inside.  Vectors passed as double* are functions of the index. *)

From Coq Require Import List Arith Bool Reals.
Import ListNotations.
Local Open Scope R_scope.

(* a[i] = x *)
Fixpoint set_nth {A} (l : list A) (i : nat) (x : A) : list A :=
  match l, i with
  | [], _ => []
  | _ :: l', O => x :: l'
  | y :: l', S i' => y :: set_nth l' i' x
  end.

(* y[i] += d *)
Definition add_at (y : nat -> R) (i : nat) (d : R) : nat -> R :=
  fun j => if Nat.eqb j i then y j + d else y j.

(* the indices a, ..., b - 1 of a for loop *)
Definition range (a b : nat) : list nat := seq a (b - a).

(* std::vector::resize *)
Definition resize {A} (l : list A) (n : nat) (x : A) : list A :=
  firstn n l ++ repeat x (n - length l).

(* ------------------------------------------------------------------ *)
(* TripletSparseMatrix                                                 *)

(* rows_, cols_ and values_ together; the length of the list is
   max_num_nonzeros_ *)
Definition cell : Type := (nat * nat * R)%type.
Definition c_row (e : cell) : nat := fst (fst e).
Definition c_col (e : cell) : nat := snd (fst e).
Definition c_val (e : cell) : R := snd e.

Record triplet : Type := mktriplet {
  t_num_rows : nat;
  t_num_cols : nat;
  t_nnz : nat;
  t_data : list cell
}.

(* triplet_sparse_matrix.cc:67-85, the constructor from three vectors *)
Definition triplet_of (num_rows num_cols : nat) (es : list cell) : triplet :=
  mktriplet num_rows num_cols (length es) es.

Definition t_cell (t : triplet) (i : nat) : cell := nth i (t_data t) (0%nat, 0%nat, 0).

(* triplet_sparse_matrix.cc:111-121  AllTripletsWithinBounds *)
Definition within_bounds (t : triplet) : bool :=
  forallb (fun i => (c_row (t_cell t i) <? t_num_rows t)%nat &&
                    (c_col (t_cell t i) <? t_num_cols t)%nat)
    (range 0 (t_nnz t)).

(* triplet_sparse_matrix.cc:123-147  Reserve; None: CHECK failure.
   make_unique<T[]> zero-initialises. *)
Definition t_reserve (t : triplet) (n : nat) : option triplet :=
  if negb (t_nnz t <=? n)%nat then None
  else if (n <=? length (t_data t))%nat then Some t
  else Some (mktriplet (t_num_rows t) (t_num_cols t) (t_nnz t)
               (firstn (t_nnz t) (t_data t) ++ repeat (0%nat, 0%nat, 0) (n - t_nnz t))).

(* triplet_sparse_matrix.cc:149-152  SetZero *)
Definition t_set_zero (t : triplet) : triplet :=
  mktriplet (t_num_rows t) (t_num_cols t) 0
    (map (fun e => (c_row e, c_col e, 0)) (t_data t)).

(* triplet_sparse_matrix.cc:174-179, 181-186  RightMultiplyAndAccumulate,
   LeftMultiplyAndAccumulate *)
Definition t_right (t : triplet) (x y : nat -> R) : nat -> R :=
  fold_left (fun y i => let e := t_cell t i in add_at y (c_row e) (c_val e * x (c_col e)))
    (range 0 (t_nnz t)) y.
Definition t_left (t : triplet) (x y : nat -> R) : nat -> R :=
  fold_left (fun y i => let e := t_cell t i in add_at y (c_col e) (c_val e * x (c_row e)))
    (range 0 (t_nnz t)) y.

(* triplet_sparse_matrix.cc:188-194  SquaredColumnNorm (only the first
   num_cols entries of the array are written) *)
Definition t_squared_norm (t : triplet) (x : nat -> R) : nat -> R :=
  fold_left (fun x i => let e := t_cell t i in add_at x (c_col e) (c_val e * c_val e))
    (range 0 (t_nnz t)) (fun j => if (j <? t_num_cols t)%nat then 0 else x j).

(* triplet_sparse_matrix.cc:196-201  ScaleColumns *)
Definition t_scale (t : triplet) (scale : nat -> R) : triplet :=
  mktriplet (t_num_rows t) (t_num_cols t) (t_nnz t)
    (fold_left (fun d i => let e := nth i d (0%nat, 0%nat, 0) in
                  set_nth d i (c_row e, c_col e, c_val e * scale (c_col e)))
       (range 0 (t_nnz t)) (t_data t)).

(* triplet_sparse_matrix.cc:208-215  ToDenseMatrix *)
Definition t_dense (t : triplet) : nat -> nat -> R :=
  fold_left (fun (m : nat -> nat -> R) i => let e := t_cell t i in
      fun r c => if Nat.eqb r (c_row e) && Nat.eqb c (c_col e) then m r c + c_val e else m r c)
    (range 0 (t_nnz t)) (fun _ _ => 0).

(* triplet_sparse_matrix.cc:217-237: the loops of AppendRows and AppendCols;
   the matrix is shifted by [dr] rows and [dc] columns *)
Definition append_step (dr dc : nat) (b : triplet) (st : list cell * nat) (i : nat)
  : list cell * nat :=
  let '(d, n) := st in
  let e := t_cell b i in
  (set_nth d n ((c_row e + dr)%nat, (c_col e + dc)%nat, c_val e), S n).

Definition t_append (dr dc : nat) (new_rows new_cols : nat) (t b : triplet) : option triplet :=
  match t_reserve t (t_nnz t + t_nnz b) with
  | None => None
  | Some t' =>
      let '(d, n) := fold_left (append_step dr dc b) (range 0 (t_nnz b)) (t_data t', t_nnz t') in
      Some (mktriplet new_rows new_cols n d)
  end.

(* triplet_sparse_matrix.cc:217-226  AppendRows *)
Definition t_append_rows (t b : triplet) : option triplet :=
  if negb (Nat.eqb (t_num_cols b) (t_num_cols t)) then None
  else t_append (t_num_rows t) 0 (t_num_rows t + t_num_rows b) (t_num_cols t) t b.

(* triplet_sparse_matrix.cc:228-237  AppendCols *)
Definition t_append_cols (t b : triplet) : option triplet :=
  if negb (Nat.eqb (t_num_rows b) (t_num_rows t)) then None
  else t_append 0 (t_num_cols t) (t_num_rows t) (t_num_cols t + t_num_cols b) t b.

(* triplet_sparse_matrix.cc:239-266  Resize, compacting in place *)
Definition resize_step (nr nc : nat) (st : list cell * nat) (i : nat) : list cell * nat :=
  let '(d, dropped) := st in
  let e := nth i d (0%nat, 0%nat, 0) in
  if (c_row e <? nr)%nat && (c_col e <? nc)%nat then
    (if Nat.eqb dropped 0 then d else set_nth d (i - dropped) e, dropped)
  else (d, S dropped).

Definition t_resize (t : triplet) (nr nc : nat) : triplet :=
  if (t_num_rows t <=? nr)%nat && (t_num_cols t <=? nc)%nat then
    mktriplet nr nc (t_nnz t) (t_data t)
  else
    let '(d, dropped) := fold_left (resize_step nr nc) (range 0 (t_nnz t)) (t_data t, 0%nat) in
    mktriplet nr nc (t_nnz t - dropped) d.

(* triplet_sparse_matrix.cc:268-280  CreateSparseDiagonalMatrix *)
Definition t_diagonal (values : nat -> R) (n : nat) : triplet :=
  mktriplet n n n (map (fun i => (i, i, values i)) (range 0 n)).

(* ------------------------------------------------------------------ *)
(* CompressedRowSparseMatrix                                           *)

Inductive storage : Type := Unsymmetric | Lower | Upper.

(* block_structure.h:49-59  Block: size and position *)
Record crs : Type := mkcrs {
  m_num_rows : nat;
  m_num_cols : nat;
  m_rows : list nat;
  m_cols : list nat;
  m_values : list R;
  m_storage : storage;
  m_row_blocks : list (nat * nat);
  m_col_blocks : list (nat * nat)
}.

Definition row_at (m : crs) (i : nat) : nat := nth i (m_rows m) 0%nat.
Definition col_at (m : crs) (i : nat) : nat := nth i (m_cols m) 0%nat.
Definition val_at (m : crs) (i : nat) : R := nth i (m_values m) 0.

(* compressed_row_sparse_matrix.h: num_nonzeros *)
Definition num_nonzeros (m : crs) : nat := row_at m (m_num_rows m).

(* the values of idx in  for (idx = rows[r]; idx < rows[r + 1]; ++idx) *)
Definition row_range (m : crs) (r : nat) : list nat := range (row_at m r) (row_at m (S r)).

(* compressed_row_sparse_matrix.cc:166-181, the semi-initialized matrix *)
Definition crs_empty (nr nc max_nnz : nat) : crs :=
  mkcrs nr nc (repeat 0%nat (S nr)) (repeat 0%nat max_nnz) (repeat 0 max_nnz) Unsymmetric [] [].

Definition incr (l : list nat) (i : nat) : list nat := set_nth l i (S (nth i l 0%nat)).

(* for (i = 1; i < n + 1; ++i) a[i] += a[i - 1]; *)
Definition cumulate (n : nat) (a : list nat) : list nat :=
  fold_left (fun a i => set_nth a i (nth i a 0 + nth (i - 1) a 0)%nat) (range 1 (S n)) a.

(* compressed_row_sparse_matrix.cc:183-254  FromTripletSparseMatrix.
   [index] is the vector of indices after std::sort, whose order among equal
   elements is not specified; see sorts in SparseSpec.v.  None: CHECK_EQ failure *)
Definition swap_cell (transpose : bool) (e : cell) : cell :=
  if transpose then (c_col e, c_row e, c_val e) else e.

Definition fill_step (transpose : bool) (t : triplet) (index : list nat)
    (st : list nat * list nat * list R) (i : nat) : list nat * list nat * list R :=
  let '(rows, cols, values) := st in
  let e := swap_cell transpose (t_cell t (nth i index 0%nat)) in
  (incr rows (S (c_row e)), set_nth cols i (c_col e), set_nth values i (c_val e)).

Definition from_triplet (transpose : bool) (t : triplet) (index : list nat) : option crs :=
  let nr := if transpose then t_num_cols t else t_num_rows t in
  let nc := if transpose then t_num_rows t else t_num_cols t in
  let m := crs_empty nr nc (t_nnz t) in
  if Nat.eqb nr 0 then Some m
  else
    let '(rows, cols, values) :=
      fold_left (fill_step transpose t index) (range 0 (length index))
        (set_nth (m_rows m) 0 0%nat, m_cols m, m_values m) in
    let m' := mkcrs nr nc (cumulate nr rows) cols values Unsymmetric [] [] in
    if Nat.eqb (num_nonzeros m') (t_nnz t) then Some m' else None.

(* compressed_row_sparse_matrix.cc:256-275, the diagonal matrix; None: CHECK_EQ *)
Definition crs_diagonal (diagonal : nat -> R) (n : nat) : option crs :=
  let '(rows, cols, values) :=
    fold_left (fun (st : list nat * list nat * list R) i =>
        let '(rows, cols, values) := st in
        (set_nth rows (S i) (S i), set_nth cols i i, set_nth values i (diagonal i)))
      (range 0 n) (set_nth (repeat 0%nat (S n)) 0 0%nat, repeat 0%nat n, repeat 0 n) in
  let m := mkcrs n n rows cols values Unsymmetric [] [] in
  if Nat.eqb (num_nonzeros m) n then Some m else None.

(* compressed_row_sparse_matrix.cc:285-304: one row of the unsymmetric
   RightMultiplyAndAccumulate *)
Definition right_row (m : crs) (x : nat -> R) (y : nat -> R) (r : nat) : nat -> R :=
  fold_left (fun y idx => add_at y r (val_at m idx * x (col_at m idx))) (row_range m r) y.

(* while (idx < idx_end && r > cols_[idx]) ++idx; *)
Fixpoint skip_lower (m : crs) (r : nat) (l : list nat) : list nat :=
  match l with
  | [] => []
  | idx :: l' => if (col_at m idx <? r)%nat then skip_lower m r l' else l
  end.

(* for (; idx < idx_end && r >= cols_[idx]; ++idx) *)
Fixpoint take_lower (m : crs) (r : nat) (l : list nat) : list nat :=
  match l with
  | [] => []
  | idx :: l' => if (col_at m idx <=? r)%nat then idx :: take_lower m r l' else []
  end.

Definition sym_range (m : crs) (r : nat) : list nat :=
  match m_storage m with
  | Upper => skip_lower m r (row_range m r)
  | _ => take_lower m r (row_range m r)
  end.

(* compressed_row_sparse_matrix.cc:315-356: the body for symmetric storage *)
Definition sym_right_row (m : crs) (x : nat -> R) (y : nat -> R) (r : nat) : nat -> R :=
  fold_left (fun y idx =>
      let c := col_at m idx in
      let v := val_at m idx in
      let y := add_at y r (v * x c) in
      if Nat.eqb r c then y else add_at y c (v * x r))
    (sym_range m r) y.

(* compressed_row_sparse_matrix.cc:285-360  RightMultiplyAndAccumulate;
   [order] is the order in which ParallelFor runs the rows (each row only
   writes its own element of y), used for unsymmetric storage only *)
Definition right_multiply (m : crs) (order : list nat) (x y : nat -> R) : nat -> R :=
  match m_storage m with
  | Unsymmetric => fold_left (right_row m x) order y
  | _ => fold_left (sym_right_row m x) (range 0 (m_num_rows m)) y
  end.

(* compressed_row_sparse_matrix.cc:362-378  LeftMultiplyAndAccumulate *)
Definition left_multiply (m : crs) (x y : nat -> R) : nat -> R :=
  match m_storage m with
  | Unsymmetric =>
      fold_left (fun y r =>
          fold_left (fun y idx => add_at y (col_at m idx) (val_at m idx * x r)) (row_range m r) y)
        (range 0 (m_num_rows m)) y
  | _ => right_multiply m (range 0 (m_num_rows m)) x y
  end.

(* compressed_row_sparse_matrix.cc:380-435  SquaredColumnNorm *)
Definition squared_column_norm (m : crs) (x : nat -> R) : nat -> R :=
  let x := fun j => if (j <? m_num_cols m)%nat then 0 else x j in
  match m_storage m with
  | Unsymmetric =>
      fold_left (fun x idx => add_at x (col_at m idx) (val_at m idx * val_at m idx))
        (range 0 (num_nonzeros m)) x
  | _ =>
      fold_left (fun x r =>
          fold_left (fun x idx =>
              let c := col_at m idx in
              let v2 := val_at m idx * val_at m idx in
              let x := add_at x c v2 in
              if Nat.eqb r c then x else add_at x r v2)
            (sym_range m r) x)
        (range 0 (m_num_rows m)) x
  end.

Definition with_values (m : crs) (v : list R) : crs :=
  mkcrs (m_num_rows m) (m_num_cols m) (m_rows m) (m_cols m) v (m_storage m)
        (m_row_blocks m) (m_col_blocks m).

(* compressed_row_sparse_matrix.cc:279-281  SetZero *)
Definition set_zero (m : crs) : crs := with_values m (map (fun _ => 0) (m_values m)).

(* compressed_row_sparse_matrix.cc:436-442  ScaleColumns *)
Definition scale_columns (m : crs) (scale : nat -> R) : crs :=
  with_values m
    (fold_left (fun v idx => set_nth v idx (nth idx v 0 * scale (col_at m idx)))
       (range 0 (num_nonzeros m)) (m_values m)).

(* compressed_row_sparse_matrix.cc:444-454  ToDenseMatrix: assigns *)
Definition to_dense (m : crs) : nat -> nat -> R :=
  fold_left (fun (d : nat -> nat -> R) r =>
      fold_left (fun (d : nat -> nat -> R) idx =>
          fun r' c => if Nat.eqb r' r && Nat.eqb c (col_at m idx) then val_at m idx else d r' c)
        (row_range m r) d)
    (range 0 (m_num_rows m)) (fun _ _ => 0).

(* compressed_row_sparse_matrix.cc:471-477: how many row blocks are kept *)
Fixpoint keep_blocks (blocks : list (nat * nat)) (have want : nat) : nat :=
  match blocks with
  | [] => 0
  | b :: rest => if (have <? want)%nat then S (keep_blocks rest (have + fst b) want) else 0
  end.

(* compressed_row_sparse_matrix.cc:456-480  DeleteRows *)
Definition delete_rows (m : crs) (delta : nat) : option crs :=
  if negb (delta <=? m_num_rows m)%nat then None
  else match m_storage m with
  | Unsymmetric =>
      let nr := (m_num_rows m - delta)%nat in
      let rows := resize (m_rows m) (S nr) 0%nat in
      let rb := match m_row_blocks m with
                | [] => []
                | _ => firstn (keep_blocks (m_row_blocks m) 0 nr) (m_row_blocks m)
                end in
      Some (mkcrs nr (m_num_cols m) rows (m_cols m) (m_values m) Unsymmetric rb (m_col_blocks m))
  | _ => None
  end.

(* std::copy to l + i *)
Definition copy_to {A} (l : list A) (i : nat) (src : list A) : list A :=
  firstn i l ++ src ++ skipn (i + length src) l.

Definition is_nil {A} (l : list A) : bool := match l with [] => true | _ => false end.

(* compressed_row_sparse_matrix.cc:482-530  AppendRows; None: CHECK failure.
   (The DCHECK_LT is only active in debug builds.) *)
Definition append_rows (m b : crs) : option crs :=
  match m_storage m with
  | Unsymmetric =>
      if negb (Nat.eqb (m_num_cols b) (m_num_cols m)) then None
      else if negb (Bool.eqb (is_nil (m_row_blocks m)) (is_nil (m_row_blocks b))) then None
      else if Nat.eqb (m_num_rows b) 0 then Some m
      else
        let n := num_nonzeros m in
        let k := num_nonzeros b in
        let grow := (length (m_cols m) <? n + k)%nat in
        let cols := if grow then resize (m_cols m) (n + k) 0%nat else m_cols m in
        let values := if grow then resize (m_values m) (n + k) 0 else m_values m in
        let cols := if (0 <? k)%nat then copy_to cols n (firstn k (m_cols b)) else cols in
        let values := if (0 <? k)%nat then copy_to values n (firstn k (m_values b)) else values in
        let rows := resize (m_rows m) (m_num_rows m + m_num_rows b + 1) 0%nat in
        let rows := copy_to rows (m_num_rows m)
                      (repeat (nth (m_num_rows m) rows 0%nat) (m_num_rows b + 1)) in
        let rows := fold_left (fun rows r =>
                        let i := (m_num_rows m + r)%nat in
                        set_nth rows i (nth i rows 0 + row_at b r)%nat)
                      (range 0 (m_num_rows b + 1)) rows in
        let rb := match m_row_blocks m with
                  | [] => []
                  | _ => m_row_blocks m ++ m_row_blocks b
                  end in
        Some (mkcrs (m_num_rows m + m_num_rows b) (m_num_cols m) rows cols values Unsymmetric
                rb (m_col_blocks m))
  | _ => None
  end.

(* compressed_row_sparse_matrix.cc:74-121  TransposeForCompressedRowSparseStructure *)
Definition transpose_step (m : crs) (r : nat) (st : list nat * list nat * list R) (idx : nat)
  : list nat * list nat * list R :=
  let '(trows, tcols, tvals) := st in
  let c := col_at m idx in
  let ti := nth c trows 0%nat in
  (incr trows c, set_nth tcols ti r, set_nth tvals ti (val_at m idx)).

Definition transpose_arrays (m : crs) : list nat * list nat * list R :=
  let nnz := num_nonzeros m in
  let trows := repeat 0%nat (S (m_num_cols m)) in
  let trows := fold_left (fun a idx => incr a (S (col_at m idx))) (range 0 nnz) trows in
  let trows := cumulate (m_num_cols m) trows in
  let '(trows, tcols, tvals) :=
    fold_left (fun st r => fold_left (transpose_step m r) (row_range m r) st)
      (range 0 (m_num_rows m)) (trows, repeat 0%nat nnz, repeat 0 nnz) in
  let trows := fold_left (fun a i => set_nth a i (nth (i - 1) a 0%nat))
                 (rev (range 1 (m_num_cols m))) trows in
  (set_nth trows 0 0%nat, tcols, tvals).

(* compressed_row_sparse_matrix.cc:602-640  Transpose *)
Definition transpose (m : crs) : crs :=
  let '(trows, tcols, tvals) := transpose_arrays m in
  let st := match m_storage m with Unsymmetric => Unsymmetric | Lower => Upper | Upper => Lower end in
  let '(rb, cb) := match m_row_blocks m with
                   | [] => ([], [])
                   | _ => (m_col_blocks m, m_row_blocks m)
                   end in
  mkcrs (m_num_cols m) (m_num_rows m) trows tcols tvals st rb cb.

(* compressed_row_sparse_matrix.cc:561-600  CreateBlockDiagonalMatrix; the
   pointers rows and cols that are advanced are indices here.  None: CHECK_EQ *)
Record bd_state : Type := mkbd {
  bd_rows : list nat; bd_cols : list nat; bd_vals : list R;
  bd_row : nat; bd_idx : nat; bd_col : nat
}.

Definition bd_row_step (diagonal : option (nat -> R)) (size : nat) (s : bd_state) (r : nat)
  : bd_state :=
  let rows := set_nth (bd_rows s) (bd_row s) (bd_idx s) in
  let vals := match diagonal with
              | None => bd_vals s
              | Some d => set_nth (bd_vals s) (bd_idx s + r) (d (bd_col s + r)%nat)
              end in
  let '(cols, idx) :=
    fold_left (fun (st : list nat * nat) c =>
        (set_nth (fst st) (snd st) (bd_col s + c)%nat, S (snd st)))
      (range 0 size) (bd_cols s, bd_idx s) in
  mkbd rows cols vals (S (bd_row s)) idx (bd_col s).

Definition bd_block_step (diagonal : option (nat -> R)) (s : bd_state) (b : nat * nat) : bd_state :=
  let s' := fold_left (bd_row_step diagonal (fst b)) (range 0 (fst b)) s in
  mkbd (bd_rows s') (bd_cols s') (bd_vals s') (bd_row s') (bd_idx s') (bd_col s' + fst b).

Definition num_scalar_entries (blocks : list (nat * nat)) : nat :=
  match rev blocks with [] => 0%nat | b :: _ => (snd b + fst b)%nat end.

Definition block_diagonal (diagonal : option (nat -> R)) (blocks : list (nat * nat)) : option crs :=
  let nr := num_scalar_entries blocks in
  let nnz := fold_left (fun n b => (n + fst b * fst b)%nat) blocks 0%nat in
  let s := fold_left (bd_block_step diagonal) blocks
             (mkbd (repeat 0%nat (S nr)) (repeat 0%nat nnz) (repeat 0 nnz) 0 0 0) in
  if negb (Nat.eqb (bd_idx s) nnz) then None
  else if negb (Nat.eqb (bd_col s) nr) then None
  else Some (mkcrs nr nr (set_nth (bd_rows s) (bd_row s) (bd_idx s)) (bd_cols s) (bd_vals s)
               Unsymmetric blocks blocks).
