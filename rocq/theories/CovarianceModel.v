(* Covariance estimation: internal/ceres/covariance_impl.cc and the triangular solves of
   compressed_col_sparse_matrix_utils.h.

   double is modelled by R, pointers by their addresses.  Sparse matrices: SparseModel.v.
   Log messages and the event logger are left out. *)
From Coq Require Import Reals ZArith List Arith Bool.
From Verif Require Import SchurModel CGModel PartitionModel SparseModel.
Import ListNotations.
Open Scope R_scope.

(* what an operation does: a failed CHECK or LOG(FATAL); undefined behaviour; a value *)
Inductive Effect (A : Type) : Type := Died | Undefined | Done (a : A).
Arguments Died {A}. Arguments Undefined {A}. Arguments Done {A}.

(* a parameter block: user_state(), Size(), TangentSize(), IsConstant() (parameter_block.h
   121), and what PlusJacobian of its manifold gives at user_state(), None without manifold.
   The bool that PlusJacobian returns is not looked at by the code *)
Record PBlock : Type := mkPBlock { pointer : nat; p_size : nat; p_tangent : nat; p_constant : bool; p_plus : option matrix }.
(* the problem: its blocks, and for every residual block the blocks it depends on *)
Record CProblem : Type := mkCProblem { p_blocks : list PBlock; p_uses : list (list nat) }.
(* FindOrDie(parameter_map, p) *)
Definition find_block (p : CProblem) (a : nat) : option PBlock := find (fun b => (pointer b =? a)%nat) (p_blocks p).
Definition tangent_of (p : CProblem) (a : nat) : nat := match find_block p a with Some b => p_tangent b | None => 0%nat end.
Definition mem (a : nat) (l : list nat) : bool := existsb (Nat.eqb a) l.

(* std::sort by operator< on pointers and on pairs of pointers *)
Fixpoint insert (a : nat) (l : list nat) : list nat := match l with [] => [a] | b :: l' => if (a <=? b)%nat then a :: l else b :: insert a l' end.
Definition sort (l : list nat) : list nat := fold_right insert [] l.
Definition pair_le (x y : nat * nat) : bool := (fst x <? fst y)%nat || ((fst x =? fst y)%nat && (snd x <=? snd y)%nat).
Fixpoint insert_pair (a : nat * nat) (l : list (nat * nat)) : list (nat * nat) := match l with [] => [a] | b :: l' => if pair_le a b then a :: l else b :: insert_pair a l' end.
Definition sort_pairs (l : list (nat * nat)) : list (nat * nat) := fold_right insert_pair [] l.
Definition pair_eqb (x y : nat * nat) : bool := (fst x =? fst y)%nat && (snd x =? snd y)%nat.
(* std::adjacent_find: is there one *)
Fixpoint adjacent {A} (eqb : A -> A -> bool) (l : list A) : bool := match l with a :: (b :: _) as l' => eqb a b || adjacent eqb l' | _ => false end.

(* Covariance::Options *)
Inductive Algorithm : Type := DENSE_SVD | EIGEN_SPARSE_QR | SUITE_SPARSE_QR | UNSUPPORTED.
Record COptions : Type := mkCOptions { algorithm : Algorithm; min_reciprocal_condition_number : R; null_space_rank : Z }.
(* CovarianceImpl *)
Record Covariance : Type := mkCovariance { is_computed : bool; is_valid : bool; row_index : list (nat * nat); constants : list nat; covariance_matrix : option crs }.

(* what the factorisations return.  QR: whether it worked, the rank, R by columns (m_rows:
   where the columns begin, m_cols: the row numbers), the column permutation.  SVD: the
   singular values and V *)
Record QRResult : Type := mkQR { q_ok : bool; q_rank : nat; q_R : crs; q_permutation : option (list nat) }.
Record SVDResult : Type := mkSVD { singular_values : list R; matrix_V : matrix }.

(* covariance_impl.cc 366-396 the active blocks, sorted, and the others *)
Definition in_use (p : CProblem) (a : nat) : bool := existsb (mem a) (p_uses p).
Definition varies (p : CProblem) (b : PBlock) : bool := negb (p_constant b || (p_tangent b =? 0)%nat) && in_use p (pointer b).
Definition active_blocks (p : CProblem) : list nat := sort (map pointer (filter (varies p) (p_blocks p))).
Definition constant_blocks (p : CProblem) : list nat := map pointer (filter (fun b => negb (varies p b)) (p_blocks p)).
(* 398-408 *)
Fixpoint RowIndex (p : CProblem) (num_rows : nat) (l : list nat) : list (nat * nat) :=
  match l with [] => [] | a :: l' => (a, num_rows) :: RowIndex p (num_rows + tangent_of p a) l' end.
Definition num_rows_of (p : CProblem) (l : list nat) : nat := fold_left (fun n a => (n + tangent_of p a)%nat) l 0%nat.
Definition lookup (ri : list (nat * nat)) (a : nat) : option nat := option_map snd (find (fun e => (fst e =? a)%nat) ri).
Definition index_of (ri : list (nat * nat)) (a : nat) : nat := match lookup ri a with Some i => i | None => 0%nat end.

(* 410-435 the pairs in the upper triangle, and num_nonzeros; None: FindOrDie *)
Fixpoint CovarianceBlocks (p : CProblem) (ri : list (nat * nat)) (cs : list nat) (l : list (nat * nat)) : option (list (nat * nat) * nat) :=
  match l with
  | [] => Some ([], 0%nat)
  | (a, b) :: l' =>
    if mem a cs || mem b cs then CovarianceBlocks p ri cs l'
    else match lookup ri a, lookup ri b with
    | Some i, Some j => match CovarianceBlocks p ri cs l' with
      | Some (bs, n) => Some ((if (j <? i)%nat then (b, a) else (a, b)) :: bs, (tangent_of p a * tangent_of p b + n)%nat)
      | None => None end
    | _, _ => None end
  end.

(* 471-481 the number of blocks in a row block: those at the front with this first element *)
Fixpoint in_front (a : nat) (l : list (nat * nat)) : list (nat * nat) := match l with [] => [] | x :: l' => if (fst x =? a)%nat then x :: in_front a l' else [] end.
(* 486-494 the columns of one row of the row block *)
Definition columns_of (p : CProblem) (ri : list (nat * nat)) (l : list (nat * nat)) : list nat := flat_map (fun x => seq (index_of ri (snd x)) (tangent_of p (snd x))) l.
(* 465-498; cursor: length cols.  cols is allocated with num_nonzeros entries: that this is
   the number written is a theorem *)
Fixpoint FillRows (begin : nat) (cs : list nat) (n : nat) (rows cols : list nat) : list nat * list nat :=
  match n with O => (rows, cols) | S n' => FillRows (S begin) cs n' (set_nth rows begin (length cols)) (cols ++ cs) end.
Fixpoint Fill (p : CProblem) (ri : list (nat * nat)) (entries : list (nat * nat)) (blocks : list (nat * nat)) (rows cols : list nat) : list nat * list nat :=
  match entries with
  | [] => (rows, cols)
  | (a, begin) :: entries' =>
    let front := in_front a blocks in
    let '(rows, cols) := FillRows begin (columns_of p ri front) (tangent_of p a) rows cols in
    Fill p ri entries' (skipn (length front) blocks) rows cols
  end.
(* 362-502 ComputeCovarianceSparsity; the bool is always true *)
Definition Sparsity (p : CProblem) (pairs : list (nat * nat)) : option (list (nat * nat) * list nat * option crs) :=
  let active := active_blocks p in
  let cs := constant_blocks p in
  let ri := RowIndex p 0 active in
  let n := num_rows_of p active in
  match CovarianceBlocks p ri cs pairs with
  | None => None
  | Some ([], _) => Some (ri, cs, None)
  | Some (bs, nnz) =>
    let '(rows, cols) := Fill p ri ri (sort_pairs bs) (repeat 0%nat (S n)) [] in
    Some (ri, cs, Some (mkcrs n n (set_nth rows n (length cols)) cols (repeat 0 nnz) Unsymmetric [] []))
  end.

(* values[idx] = f(r, cols[idx]) for the rows in the order in which they are treated *)
Definition AssignRow (m : crs) (f : nat -> nat -> R) (values : list R) (r : nat) : list R :=
  fold_left (fun v idx => set_nth v idx (f r (col_at m idx))) (row_range m r) values.
Definition Assign (m : crs) (f : nat -> nat -> R) (order : list nat) : crs :=
  mkcrs (m_num_rows m) (m_num_cols m) (m_rows m) (m_cols m) (fold_left (AssignRow m f) order (m_values m)) (m_storage m) (m_row_blocks m) (m_col_blocks m).

(* compressed_col_sparse_matrix_utils.h 69-88 SolveUpperTriangularInPlace *)
Definition upd (x : vec) (i : nat) (v : R) : vec := fun k => if (k =? i)%nat then v else x k.
Definition last_value (m : crs) (c : nat) : R := val_at m (row_at m (S c) - 1).
Definition above (m : crs) (c : nat) : list nat := range (row_at m c) (row_at m (S c) - 1).
Definition UpperStep (m : crs) (x : vec) (c : nat) : vec :=
  let x := upd x c (x c / last_value m c) in
  fold_left (fun x idx => upd x (col_at m idx) (x (col_at m idx) - val_at m idx * x c)) (above m c) x.
Definition SolveUpperTriangular (n : nat) (m : crs) (x : vec) : vec := fold_left (UpperStep m) (rev (seq 0 n)) x.
(* 112-142 SolveRTRWithSparseRHS *)
Definition TransposeStep (m : crs) (k : nat) (x : vec) (c : nat) : vec :=
  let x := fold_left (fun x idx => if (col_at m idx <? k)%nat then x else upd x c (x c - val_at m idx * x (col_at m idx))) (above m c) x in
  upd x c (x c / last_value m c).
Definition SolveRTR (n : nat) (m : crs) (k : nat) : vec :=
  let x := upd (fun _ => 0) k (1 / last_value m k) in
  SolveUpperTriangular n m (fold_left (TransposeStep m k) (seq (S k) (n - S k)) x).

(* covariance_impl.cc 647-656, 852-854 *)
Definition InversePermutation (n : nat) (perm : option (list nat)) : list nat :=
  match perm with
  | Some l => fold_left (fun inv i => set_nth inv (nth i l 0%nat) i) (seq 0 n) (repeat 0%nat n)
  | None => seq 0 n
  end.
(* 539-706 ComputeCovarianceValuesUsingSuiteSparseQR, 804-896 the same with
   Eigen.  j: the Jacobian; order: the order of the rows in the parallel loop, each thread
   having its own solution vector.  For SuiteSparse the Jacobian is transposed first: 562-583
   is the loop of TransposeForCompressedRowSparseStructure *)
Definition ValuesQR (qr : Algorithm -> crs -> QRResult) (alg : Algorithm) (j : crs) (order : list nat) (m : crs) : option crs :=
  let q := qr alg (match alg with SUITE_SPARSE_QR => transpose j | _ => j end) in
  if negb (q_ok q) then None
  else if (q_rank q <? m_num_cols j)%nat then None
  else
    let inv := InversePermutation (m_num_cols j) (q_permutation q) in
    let rows := filter (fun r => negb (row_at m (S r) =? row_at m r)%nat) order in
    Some (Assign m (fun r c => SolveRTR (m_num_cols j) (q_R q) (nth r inv 0%nat) (nth c inv 0%nat)) rows).
(* 708-802 ComputeCovarianceValuesUsingDenseSVD.  758-783: the inverse squares; None: false *)
Fixpoint InverseSquares (fuel : nat) (i : nat) (s : list R) (max ratio : R) (automatic : bool) : option (list R) :=
  match fuel with
  | O => Some []
  | S fuel' =>
    if lt (nth i s 0 / max) ratio then (if automatic then Some [] else None)
    else option_map (cons (1 / (nth i s 0 * nth i s 0))) (InverseSquares fuel' (S i) s max ratio automatic)
  end.
Definition MaxRank (o : COptions) (k : nat) : nat := Z.to_nat (Z.min (Z.of_nat k) (Z.of_nat k - null_space_rank o)).
(* singular_values[0] of no singular values: Undefined; None: false *)
Definition ValuesSVD (svd : matrix -> nat -> nat -> SVDResult) (o : COptions) (j : crs) (m : crs) : Effect (option crs) :=
  let d := svd (to_dense j) (m_num_rows j) (m_num_cols j) in
  let s := singular_values d in
  match s with
  | [] => Undefined
  | max :: _ =>
    match InverseSquares (MaxRank o (length s)) 0 s max (sqrt (min_reciprocal_condition_number o)) (null_space_rank o <? 0)%Z with
    | None => Done None
    | Some inv => Done (Some (Assign m (fun r c => sumn (length s) (fun i => matrix_V d r i * nth i inv 0 * matrix_V d c i)) (seq 0 (m_num_rows m))))
    end
  end.
(* crs_matrix.h: what jacobian is when Evaluate fails, whose result is not looked at *)
Definition no_jacobian : crs := mkcrs 0 0 [] [] [] Unsymmetric [] [].
(* 504-537 ComputeCovarianceValues; evaluate active: Problem::Evaluate for these blocks *)
Definition ComputeValues (qr : Algorithm -> crs -> QRResult) (svd : matrix -> nat -> nat -> SVDResult) (o : COptions) (j : crs) (order : list nat) (m : option crs) : Effect (bool * option crs) :=
  match algorithm o with
  | UNSUPPORTED => Done (false, m)
  | alg =>
    match m with
    | None => Done (true, None)
    | Some m =>
      match (match alg with DENSE_SVD => ValuesSVD svd o j m | _ => Done (ValuesQR qr alg j order m) end) with
      | Done (Some m') => Done (true, Some m')
      | Done None => Done (false, Some m)
      | Undefined => Undefined
      | Died => Died
      end
    end
  end.
(* 76-116 CheckForDuplicates, Compute; every field of the object is written.  UNSUPPORTED:
   an algorithm or a library that is not there *)
Definition Compute (qr : Algorithm -> crs -> QRResult) (svd : matrix -> nat -> nat -> SVDResult) (o : COptions) (p : CProblem) (evaluate : list nat -> option crs) (order : list nat) (s : Covariance) (pairs : list (nat * nat)) : Effect (bool * Covariance) :=
  if adjacent pair_eqb (sort_pairs pairs) then Died
  else match Sparsity p pairs with
  | None => Died
  | Some (ri, cs, m) =>
    let j := match evaluate (active_blocks p) with Some j => j | None => no_jacobian end in
    match ComputeValues qr svd o j order m with
    | Died => Died
    | Undefined => Undefined
    | Done (ok, m) => Done (ok, mkCovariance true ok ri cs m)
    end
  end.
(* 118-130 Compute from a list of parameter blocks: all pairs i <= j *)
Fixpoint all_pairs (l : list nat) : list (nat * nat) := match l with [] => [] | a :: l' => map (pair a) l ++ all_pairs l' end.
Definition ComputeBlocks (qr : Algorithm -> crs -> QRResult) (svd : matrix -> nat -> nat -> SVDResult) (o : COptions) (p : CProblem) (evaluate : list nat -> option crs) (order : list nat) (s : Covariance) (l : list nat) : Effect (bool * Covariance) :=
  if adjacent Nat.eqb (sort l) then Died else Compute qr svd o p evaluate order s (all_pairs l).

(* 184-190 the walk along the row: where it stops; None: a read behind the end of cols.  The
   entry is read before the offset is compared *)
Fixpoint Walk (fuel : nat) (cols : list nat) (begin col row_size offset : nat) : option nat :=
  match nth_error cols (begin + offset) with
  | None => None
  | Some c => match fuel with
    | O => Some offset
    | S fuel' => if negb (c =? col)%nat && (offset <? row_size)%nat then Walk fuel' cols begin col row_size (S offset) else Some offset
    end
  end.
Definition transposed_matrix (m : matrix) : matrix := fun i j => m j i.
Definition identity_matrix : matrix := fun i j => if (i =? j)%nat then 1 else 0.
(* a (n1 x n2) b': the product J1 C J2' *)
Definition sandwich (n1 n2 : nat) (j1 c j2 : matrix) : matrix := fun i k => sumn n2 (fun l => sumn n1 (fun q => j1 i q * c q l) * j2 k l).
(* 132-278 GetCovarianceBlockInTangentOrAmbientSpace; None: false, the block is not written *)
Definition GetBlock (p : CProblem) (s : Covariance) (a b : nat) (lift : bool) : Effect (option matrix) :=
  if negb (is_computed s) then Died
  else if negb (is_valid s) then Died
  else if mem a (constants s) || mem b (constants s) then
    match find_block p a, find_block p b with Some _, Some _ => Done (Some (fun _ _ => 0)) | _, _ => Died end
  else
    let swap := (b <? a)%nat in
    let b1 := if swap then b else a in
    let b2 := if swap then a else b in
    match lookup (row_index s) b1, lookup (row_index s) b2 with
    | Some row_begin, Some col_begin =>
      match covariance_matrix s with
      | None => Undefined
      | Some m =>
        let row_size := (row_at m (S row_begin) - row_at m row_begin)%nat in
        match Walk (S row_size) (m_cols m) (row_at m row_begin) col_begin row_size 0 with
        | None => Undefined
        | Some offset =>
          if (offset =? row_size)%nat then Done None
          else match find_block p b1, find_block p b2 with
          | Some k1, Some k2 =>
            let c : matrix := fun i j => val_at m (row_at m row_begin + i * row_size + (offset + j)) in
            match p_plus k1, p_plus k2, lift with
            | None, None, _ | _, _, false => Done (Some (if swap then transposed_matrix c else c))
            | _, _, true =>
              let j1 := match p_plus k1 with Some j => j | None => identity_matrix end in
              let j2 := if (b1 =? b2)%nat then j1 else match p_plus k2 with Some j => j | None => identity_matrix end in
              Done (Some (if swap then sandwich (p_tangent k2) (p_tangent k1) j2 (transposed_matrix c) j1 else sandwich (p_tangent k1) (p_tangent k2) j1 c j2))
            end
          | _, _ => Died end
        end
      end
    | _, _ => Died end.

(* 280-360 GetCovarianceMatrixInTangentOrAmbientSpace.  order: the values of k in the order
   in which the loop bodies run (a body writes its own blocks of the matrix); junk: what the
   workspace holds when a block is not found *)
Definition set_block (m : matrix) (r c nr nc : nat) (v : matrix) : matrix :=
  fun i j => if ((r <=? i) && (i <? r + nr) && (c <=? j) && (j <? c + nc))%nat then v (i - r)%nat (j - c)%nat else m i j.
Definition MatrixStep (p : CProblem) (s : Covariance) (l : list nat) (sizes starts : list nat) (lift : bool) (junk : nat -> matrix) (st : bool * matrix) (k : nat) : Effect (bool * matrix) :=
  let '(i, j) := linear_to_upper (Z.of_nat k) (Z.of_nat (length l)) in
  let i := Z.to_nat i in let j := Z.to_nat j in
  match GetBlock p s (nth i l 0%nat) (nth j l 0%nat) lift with
  | Died => Died
  | Undefined => Undefined
  | Done v =>
    let '(ok, m) := st in
    let w := match v with Some v => v | None => junk k end in
    let m := set_block m (nth i starts 0%nat) (nth j starts 0%nat) (nth i sizes 0%nat) (nth j sizes 0%nat) w in
    Done (match v with Some _ => ok | None => false end,
      if (i =? j)%nat then m else set_block m (nth j starts 0%nat) (nth i starts 0%nat) (nth j sizes 0%nat) (nth i sizes 0%nat) (transposed_matrix w))
  end.
Fixpoint MatrixLoop (p : CProblem) (s : Covariance) (l sizes starts : list nat) (lift : bool) (junk : nat -> matrix) (st : bool * matrix) (order : list nat) : Effect (bool * matrix) :=
  match order with
  | [] => Done st
  | k :: order' => match MatrixStep p s l sizes starts lift junk st k with Died => Died | Undefined => Undefined | Done st => MatrixLoop p s l sizes starts lift junk st order' end
  end.
Fixpoint find_sizes (p : CProblem) (lift : bool) (l : list nat) : option (list nat) :=
  match l with
  | [] => Some []
  | a :: l' => match find_block p a with Some b => option_map (cons (if lift then p_size b else p_tangent b)) (find_sizes p lift l') | None => None end
  end.
Fixpoint partial_sums (n : nat) (l : list nat) : list nat := match l with [] => [n] | a :: l' => n :: partial_sums (n + a) l' end.
Definition GetMatrix (p : CProblem) (s : Covariance) (l : list nat) (lift : bool) (order : list nat) (junk : nat -> matrix) (m : matrix) : Effect (bool * matrix) :=
  if negb (is_computed s) then Died
  else if negb (is_valid s) then Died
  else match find_sizes p lift l with
  | None => Died
  | Some [] => Undefined
  | Some sizes => MatrixLoop p s l sizes (partial_sums 0 sizes) lift junk (true, m) order
  end.
