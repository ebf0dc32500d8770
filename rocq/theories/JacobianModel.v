(* The Jacobian writers: internal/ceres/block_jacobian_writer.cc, block_evaluate_preparer.cc,
   scratch_evaluate_preparer.cc, compressed_row_jacobian_writer.cc,
   dynamic_compressed_row_jacobian_writer.cc, dynamic_compressed_row_sparse_matrix.cc.

   double is modelled by R.  The matrices are those of SparseModel.v and BlockSparseModel.v. *)
From Coq Require Import Reals ZArith List Arith Bool.
From Verif Require Import SchurModel SparseModel BlockSparseModel.
Import ListNotations.
Open Scope R_scope.

(* A residual block: NumResiduals() and its arguments.  None: IsConstant(); Some v: index() = v.
   As in every program that is evaluated, index() is -1 exactly for the constant ones.  A constant
   argument keeps its tangent size, for MaxDerivativesPerResidualBlock *)
Inductive Arg : Type := Constant (tangent : nat) | Varying (index : nat).
Record RBlock : Type := mkRBlock { r_num : nat; r_args : list Arg }.
(* program: TangentSize() of the parameter blocks, and the residual blocks *)
Record Program : Type := mkProgram { p_tangents : list nat; p_blocks : list RBlock }.
Definition tangent (p : Program) (v : nat) : nat := nth v (p_tangents p) 0%nat.
(* program.cc 144-162 SetParameterOffsetsAndIndex: delta_offset() *)
Fixpoint Offsets (pos : nat) (l : list nat) : list nat := match l with [] => [] | t :: l' => pos :: Offsets (pos + t) l' end.
Definition delta_offset (p : Program) (v : nat) : nat := nth v (Offsets 0 (p_tangents p)) 0%nat.
(* program.cc 487-510 NumResiduals, NumEffectiveParameters *)
Definition NumResiduals (p : Program) : nat := fold_left (fun n b => (n + r_num b)%nat) (p_blocks p) 0%nat.
Definition NumEffectiveParameters (p : Program) : nat := fold_left (fun n t => (n + t)%nat) (p_tangents p) 0%nat.
(* program_evaluator.h 350-361 BuildResidualLayout *)
Fixpoint ResidualLayout (pos : nat) (bs : list RBlock) : list nat := match bs with [] => [] | b :: bs' => pos :: ResidualLayout (pos + r_num b) bs' end.
(* program.cc 525-537 MaxDerivativesPerResidualBlock *)
Definition arg_tangent (p : Program) (a : Arg) : nat := match a with Constant t => t | Varying v => tangent p v end.
Definition MaxDerivatives (p : Program) : nat :=
  fold_left (fun n b => Nat.max n (fold_left (fun d a => (d + r_num b * arg_tangent p a)%nat) (r_args b) 0%nat)) (p_blocks p) 0%nat.

(* ---------------------------------------------------------- preparing and evaluating *)
(* scratch_evaluate_preparer.cc 56-75 Prepare: for every argument null or an address *)
Fixpoint ScratchPrepare (p : Program) (num cursor : nat) (l : list Arg) : list (option nat) :=
  match l with
  | [] => []
  | Constant _ :: l' => None :: ScratchPrepare p num cursor l'
  | Varying v :: l' => Some cursor :: ScratchPrepare p num (cursor + num * tangent p v) l'
  end.
(* block_evaluate_preparer.cc 48-76 Prepare with a Jacobian; offsets: jacobian_layout_[i] *)
Fixpoint BlockPrepare (l : list Arg) (offsets : list nat) : list (option nat) :=
  match l with
  | [] => []
  | Constant _ :: l' => None :: BlockPrepare l' offsets
  | Varying _ :: l' => Some (hd 0%nat offsets) :: BlockPrepare l' (tl offsets)
  end.
(* What ResidualBlock::Evaluate stores: the Jacobian of argument j, num x tangent by rows, at its
   address.  jac j t: number t of these (C41) *)
Definition Store : Type := nat * R.
Fixpoint EvaluateStores (p : Program) (num j : nat) (l : list Arg) (ptrs : list (option nat)) (jac : nat -> vec) : list Store :=
  match l, ptrs with
  | a :: l', ptr :: ptrs' =>
    match ptr with None => [] | Some pos => map (fun t => ((pos + t)%nat, jac j t)) (seq 0 (num * arg_tangent p a)) end
    ++ EvaluateStores p num (S j) l' ptrs' jac
  | _, _ => []
  end.
Definition put (m : vec) (s : Store) : vec := fun a => if (a =? fst s)%nat then snd s else m a.
Definition puts (l : list Store) (m : vec) : vec := fold_left put l m.
(* the same on an array of known length *)
Definition set_all {A} (l : list (nat * A)) (v : list A) : list A := fold_left (fun v s => set_nth v (fst s) (snd s)) l v.

(* ---------------------------------------------------------- compressed rows *)
(* std::sort of pairs whose first elements are different *)
Fixpoint insert_key (a : nat * nat) (l : list (nat * nat)) : list (nat * nat) := match l with [] => [a] | b :: l' => if (fst a <=? fst b)%nat then a :: l else b :: insert_key a l' end.
Definition sort_keys (l : list (nat * nat)) : list (nat * nat) := fold_right insert_key [] l.
(* std::adjacent_find on the sorted list *)
Fixpoint adjacent_keys (l : list (nat * nat)) : bool := match l with a :: (b :: _) as l' => (fst a =? fst b)%nat || adjacent_keys l' | _ => false end.
(* the pairs (index, argument) of the varying arguments, from number j on *)
Fixpoint active (j : nat) (l : list Arg) : list (nat * nat) := match l with [] => [] | Constant _ :: l' => active (S j) l' | Varying v :: l' => (v, j) :: active (S j) l' end.
(* compressed_row_jacobian_writer.cc 73-90 GetOrderedParameterBlocks *)
Definition Ordered (b : RBlock) : list (nat * nat) := sort_keys (active 0 (r_args b)).

Definition INT_MAX : Z := 2147483647.
Inductive Created (A : Type) : Type := TooMany | Overflow | Fatal | Made (a : A).
Arguments TooMany {A}. Arguments Overflow {A}. Arguments Fatal {A}. Arguments Made {A}.
(* num_residuals * TangentSize() in int; 98-123 num_jacobian_nonzeros.  Below 2 * INT_MAX + 2 an
   unsigned int does not wrap *)
Fixpoint CountArgs (p : Program) (num : nat) (l : list (nat * nat)) (n : Z) : Created Z :=
  match l with
  | [] => Made n
  | (v, _) :: l' =>
    let size := (Z.of_nat num * Z.of_nat (tangent p v))%Z in
    if (INT_MAX <? size)%Z then Overflow
    else if (INT_MAX <? n + size)%Z then TooMany
    else CountArgs p num l' (n + size)%Z
  end.
Fixpoint CountNonzeros (p : Program) (bs : list RBlock) (n : Z) : Created Z :=
  match bs with
  | [] => Made n
  | b :: bs' => match CountArgs p (r_num b) (active 0 (r_args b)) n with Made n => CountNonzeros p bs' n | e => e end
  end.
(* 169-172 the starts of the rows of one residual block *)
Fixpoint RowStarts (num pos nd : nat) (rows : list nat) : list nat :=
  match num with O => rows | S num' => RowStarts num' (S pos) nd (set_nth rows (S pos) (nth pos rows 0%nat + nd)%nat) end.
(* 177-190 the stores into cols *)
Fixpoint ColStores (p : Program) (rows : list nat) (row_pos num col_pos : nat) (l : list (nat * nat)) : list (nat * nat) :=
  match l with
  | [] => []
  | (v, _) :: l' =>
    flat_map (fun r => map (fun c => ((nth (row_pos + r) rows 0 + col_pos + c)%nat, (delta_offset p v + c)%nat)) (seq 0 (tangent p v))) (seq 0 num)
    ++ ColStores p rows row_pos num (col_pos + tangent p v) l'
  end.
(* 136-193 the loop over the residual blocks; None: LOG(FATAL) *)
Fixpoint Structure_ (p : Program) (bs : list RBlock) (row_pos : nat) (rows cols : list nat) : option (list nat * list nat) :=
  match bs with
  | [] => Some (rows, cols)
  | b :: bs' =>
    let nd := fold_left (fun n x => (n + tangent p (fst x))%nat) (active 0 (r_args b)) 0%nat in
    let params := Ordered b in
    if adjacent_keys params then None
    else
      let rows := RowStarts (r_num b) row_pos nd rows in
      Structure_ p bs' (row_pos + r_num b) rows (set_all (ColStores p rows row_pos (r_num b) 0 params) cols)
  end.
(* 52-70 PopulateJacobianRowAndColumnBlockVectors: (size, position) *)
Fixpoint BlocksOf (pos : nat) (l : list nat) : list (nat * nat) := match l with [] => [] | t :: l' => (t, pos) :: BlocksOf (pos + t) l' end.
(* 92-200 CreateJacobian *)
Definition CreateCompressed (p : Program) : Created crs :=
  let m := NumResiduals p in
  let n := NumEffectiveParameters p in
  match CountNonzeros p (p_blocks p) (Z.of_nat n) with
  | Made nnz =>
    let nnz := Z.to_nat nnz in
    match Structure_ p (p_blocks p) 0 (repeat 0%nat (S m)) (repeat 0%nat nnz) with
    | None => Fatal
    | Some (rows, cols) =>
      if (nnz - n =? nth m rows 0)%nat
      then Made (mkcrs m n rows cols (repeat 0 nnz) Unsymmetric (BlocksOf 0 (map r_num (p_blocks p))) (BlocksOf 0 (p_tangents p)))
      else Fatal
    end
  | TooMany => TooMany
  | Overflow => Overflow
  | Fatal => Fatal
  end.
(* 202-247 Write: the stores into values.  area: the scratch area, ptrs: jacobians *)
Fixpoint WriteStores (p : Program) (rows : list nat) (num offset col_pos : nat) (l : list (nat * nat)) (ptrs : list (option nat)) (area : vec) : list Store :=
  match l with
  | [] => []
  | (v, j) :: l' =>
    let w := tangent p v in
    flat_map (fun r => map (fun c => ((nth (offset + r) rows 0 + col_pos + c)%nat,
      area (match nth j ptrs None with Some pos => pos | None => 0 end + r * w + c)%nat)) (seq 0 w)) (seq 0 num)
    ++ WriteStores p rows num offset (col_pos + w) l' ptrs area
  end.
(* program_evaluator.h 194-243 the body for residual block i, as far as the Jacobian is concerned.
   junk: what the scratch area of its thread holds *)
Definition Scratch (p : Program) (b : RBlock) (jac : nat -> vec) (junk : vec) : vec :=
  puts (EvaluateStores p (r_num b) 0 (r_args b) (ScratchPrepare p (r_num b) 0 (r_args b)) jac) junk.
Definition CompressedTasks (p : Program) (m : crs) (jac : nat -> nat -> vec) (junk : nat -> vec) : list (list Store) :=
  map (fun '(i, (b, off)) => WriteStores p (m_rows m) (r_num b) off 0 (Ordered b) (ScratchPrepare p (r_num b) 0 (r_args b)) (Scratch p b (jac i) (junk i)))
    (combine (seq 0 (length (p_blocks p))) (combine (p_blocks p) (ResidualLayout 0 (p_blocks p)))).
(* Evaluate: SetZero of the num_nonzeros values, then the bodies *)
Definition zero_values (m : crs) : list R := repeat 0 (nth (m_num_rows m) (m_rows m) 0%nat) ++ skipn (nth (m_num_rows m) (m_rows m) 0%nat) (m_values m).
Definition with_values (m : crs) (v : list R) : crs := mkcrs (m_num_rows m) (m_num_cols m) (m_rows m) (m_cols m) v (m_storage m) (m_row_blocks m) (m_col_blocks m).
Definition EvaluateCompressed (p : Program) (m : crs) (jac : nat -> nat -> vec) (junk : nat -> vec) (m' : crs) : Prop :=
  exists l, interleaving (CompressedTasks p m jac junk) l /\ m' = with_values m (set_all l (zero_values m)).

(* ---------------------------------------------------------- dynamic compressed rows *)
(* the matrix besides its base class: dynamic_cols_ and dynamic_values_, row by row *)
Record Dynamic : Type := mkDynamic { d_crs : crs; d_rows : list (list (nat * R)) }.
(* dynamic_compressed_row_sparse_matrix.cc 39-44; dynamic_..._writer.cc 51-57 CreateJacobian *)
Definition CreateDynamic (p : Program) : Dynamic :=
  mkDynamic (mkcrs (NumResiduals p) (NumEffectiveParameters p) (repeat 0%nat (S (NumResiduals p))) [] [] Unsymmetric [] []) (repeat [] (NumResiduals p)).
(* one of ClearRows for one row, InsertEntry *)
Inductive Op : Type := Clear (row : nat) | Insert (row col : nat) (v : R).
(* 46-66; None: CHECK.  The loop of ClearRows checks row by row *)
Definition do_op (m : crs) (d : list (list (nat * R))) (o : Op) : option (list (list (nat * R))) :=
  match o with
  | Clear r => if (r <? m_num_rows m)%nat then Some (set_nth d r []) else None
  | Insert r c v => if (r <? m_num_rows m)%nat && (c <? m_num_cols m)%nat then Some (set_nth d r (nth r d [] ++ [(c, v)])) else None
  end.
Fixpoint do_ops (m : crs) (d : list (list (nat * R))) (l : list Op) : option (list (list (nat * R))) :=
  match l with [] => Some d | o :: l' => match do_op m d o with Some d => do_ops m d l' | None => None end end.
(* dynamic_compressed_row_jacobian_writer.cc 59-98 Write *)
Definition nonzero (v : R) : bool := if Req_EM_T v 0 then false else true.
Definition InsertOps (p : Program) (num offset : nat) (l : list (nat * nat)) (ptrs : list (option nat)) (area : vec) : list Op :=
  flat_map (fun '(v, j) => let w := tangent p v in
    flat_map (fun r => flat_map (fun c =>
      let x := area (match nth j ptrs None with Some pos => pos | None => 0 end + r * w + c)%nat in
      if nonzero x then [Insert (offset + r) (delta_offset p v + c) x] else []) (seq 0 w)) (seq 0 num)) l.
Definition DynamicWrite (p : Program) (b : RBlock) (offset : nat) (jac : nat -> vec) (junk : vec) : list Op :=
  map (fun r => Clear (offset + r)) (seq 0 (r_num b)) ++
  InsertOps p (r_num b) offset (Ordered b) (ScratchPrepare p (r_num b) 0 (r_args b)) (Scratch p b jac junk).
Definition DynamicTasks (p : Program) (jac : nat -> nat -> vec) (junk : nat -> vec) : list (list Op) :=
  map (fun '(i, (b, off)) => DynamicWrite p b off (jac i) (junk i))
    (combine (seq 0 (length (p_blocks p))) (combine (p_blocks p) (ResidualLayout 0 (p_blocks p)))).
(* dynamic_compressed_row_sparse_matrix.cc 68-100 Finalize; rest: what resize leaves behind the
   entries (old elements, then zeros), n: num_additional_elements *)
Fixpoint FlatRows (pos : nat) (d : list (list (nat * R))) : list nat := match d with [] => [pos] | l :: d' => pos :: FlatRows (pos + length l) d' end.
Definition Finalize (m : crs) (d : list (list (nat * R))) (n : nat) : Dynamic :=
  let es := concat d in
  let cut {A} (old : list A) (z : A) := firstn n (skipn (length es) old ++ repeat z (length es + n)) in
  mkDynamic (mkcrs (m_num_rows m) (m_num_cols m) (FlatRows 0 d) (map fst es ++ cut (m_cols m) 0%nat) (map snd es ++ cut (m_values m) 0) (m_storage m) (m_row_blocks m) (m_col_blocks m)) d.
Definition EvaluateDynamic (p : Program) (m : Dynamic) (jac : nat -> nat -> vec) (junk : nat -> vec) (m' : option Dynamic) : Prop :=
  exists l, interleaving (DynamicTasks p jac junk) l /\
    m' = option_map (fun d => Finalize (d_crs m) d (NumEffectiveParameters p)) (do_ops (d_crs m) (d_rows m) l).

(* ---------------------------------------------------------- block sparse *)
(* block_jacobian_writer.cc 67-101 the first loop: num_jacobian_blocks and f_block_pos, an
   unsigned int *)
Fixpoint CountE (p : Program) (nelim num : nat) (l : list (nat * nat)) (f : Z) : Created Z :=
  match l with
  | [] => Made f
  | (v, _) :: l' =>
    if (v <? nelim)%nat then
      let size := (Z.of_nat num * Z.of_nat (tangent p v))%Z in
      if (INT_MAX <? size)%Z then Overflow else CountE p nelim num l' ((f + size) mod 4294967296)%Z
    else CountE p nelim num l' f
  end.
Fixpoint FirstLoop (p : Program) (nelim : nat) (bs : list RBlock) (blocks f : Z) : Created Z :=
  match bs with
  | [] => Made f
  | b :: bs' =>
    match CountE p nelim (r_num b) (active 0 (r_args b)) f with
    | Made f =>
      let blocks := (blocks + Z.of_nat (length (active 0 (r_args b))))%Z in
      if (INT_MAX <? blocks)%Z then TooMany else FirstLoop p nelim bs' blocks f
    | e => e
    end
  end.
(* 120-135 the pairs (index, k): k counts the varying arguments; sorted by index *)
Definition numbered (l : list (nat * nat)) : list (nat * nat) := combine (map fst l) (seq 0 (length l)).
(* 140-160 the positions of one residual block, where jacobian_pos[k] is set *)
Fixpoint Place (p : Program) (nelim num : nat) (l : list (nat * nat)) (e f : Z) (pos : list nat) : Created (Z * Z * list nat) :=
  match l with
  | [] => Made (e, f, pos)
  | (v, k) :: l' =>
    let size := (Z.of_nat num * Z.of_nat (tangent p v))%Z in
    if (INT_MAX <? size)%Z then Overflow
    else if (v <? nelim)%nat then
      if (INT_MAX <? e + size)%Z then Overflow
      else Place p nelim num l' (e + size)%Z f (set_nth pos k (Z.to_nat e))
    else
      let f' := ((f + size) mod 4294967296)%Z in
      if (INT_MAX <? f')%Z then TooMany
      else Place p nelim num l' e f' (set_nth pos k (Z.to_nat f))
  end.
(* 107-163 the second loop: jacobian_layout[i] for every i *)
Fixpoint SecondLoop (p : Program) (nelim : nat) (bs : list RBlock) (e f : Z) : Created (list (list nat)) :=
  match bs with
  | [] => Made []
  | b :: bs' =>
    let act := numbered (active 0 (r_args b)) in
    match Place p nelim (r_num b) (sort_keys act) e f (repeat 0%nat (length act)) with
    | Made (e, f, pos) => match SecondLoop p nelim bs' e f with Made l => Made (pos :: l) | x => x end
    | TooMany => TooMany | Overflow => Overflow | Fatal => Fatal
    end
  end.
(* 67-166 BuildJacobianLayout *)
Definition BuildLayout (p : Program) (nelim : nat) : Created (list (list nat)) :=
  match FirstLoop p nelim (p_blocks p) 0 0 with
  | Made f => SecondLoop p nelim (p_blocks p) 0 f
  | TooMany => TooMany | Overflow => Overflow | Fatal => Fatal
  end.
(* block_structure.cc 39-44 CellLessThan *)
Definition cell_less (a b : Cell) : bool := if (block_id a =? block_id b)%nat then (cell_position a <? cell_position b)%nat else (block_id a <? block_id b)%nat.
Fixpoint insert_cell (a : Cell) (l : list Cell) : list Cell := match l with [] => [a] | b :: l' => if cell_less b a then b :: insert_cell a l' else a :: l end.
Definition sort_cells (l : list Cell) : list Cell := fold_right insert_cell [] l.
(* 212-248 the rows *)
Fixpoint CellRows (bs : list RBlock) (layout : list (list nat)) (pos : nat) : list Row :=
  match bs, layout with
  | b :: bs', l :: layout' =>
    mkRow (mkBlock (r_num b) pos) (sort_cells (map (fun x => mkCell (fst x) (nth (snd x) l 0%nat)) (numbered (active 0 (r_args b))))) :: CellRows bs' layout' (pos + r_num b)
  | _, _ => []
  end.
(* 195-253 CreateJacobian *)
Definition JacobianStructure (p : Program) (layout : list (list nat)) : Structure :=
  mkStructure (map (fun x => mkBlock (fst x) (snd x)) (BlocksOf 0 (p_tangents p))) (CellRows (p_blocks p) layout 0).
Definition CreateBlock (p : Program) (nelim : nat) (junk : vec) : Created (list (list nat) * BlockSparse) :=
  match BuildLayout p nelim with
  | Made layout => Made (layout, Construct (JacobianStructure p layout) junk)
  | TooMany => TooMany | Overflow => Overflow | Fatal => Fatal
  end.
(* the bodies of an evaluation: the residual blocks write into the values themselves *)
Definition BlockTasks (p : Program) (layout : list (list nat)) (jac : nat -> nat -> vec) : list (list Store) :=
  map (fun '(i, (b, l)) => EvaluateStores p (r_num b) 0 (r_args b) (BlockPrepare (r_args b) l) (jac i))
    (combine (seq 0 (length (p_blocks p))) (combine (p_blocks p) layout)).
Definition EvaluateBlock (p : Program) (layout : list (list nat)) (m : BlockSparse) (jac : nat -> nat -> vec) (m' : BlockSparse) : Prop :=
  exists l, interleaving (BlockTasks p layout jac) l /\
    m' = mkBlockSparse (structure m) (transposed m) (puts l (fun a => if (a <? nnz m)%nat then 0 else values m a)) (nnz m) (max_nnz m) (num_rows m) (num_columns m).
