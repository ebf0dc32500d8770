(* Model for C74: the detection of the block sizes of a Schur problem, the choice of a template
   specialization for them and what the summary of a solve reports. *)
From Coq Require Import List Arith ZArith Bool.
From Verif Require Import SchurModel.
Import ListNotations.
Open Scope Z_scope.

(* Eigen::Dynamic *)
Definition Dynamic : Z := -1.
Record Sizes : Type := mkSizes { row_block_size : Z; e_block_size : Z; f_block_size : Z }.

(* detect_structure.cc 59-67, 70-78: one size; zero: none seen yet *)
Definition detect_size (current actual : Z) : Z :=
  if current =? 0 then actual
  else if negb (current =? Dynamic) && negb (current =? actual) then Dynamic
  else current.
Definition size_of (b : Block) : Z := Z.of_nat (size b).
(* 89-99 the loop over the f cells *)
Fixpoint detect_f (bs : Structure) (cs : list Cell) (f : Z) : Z :=
  match cs with
  | [] => f
  | c :: cs' =>
    if f =? Dynamic then f
    else detect_f bs cs' (if negb (f =? size_of (col bs (block_id c))) then Dynamic else f)
  end.
(* 50-111 the loop over the rows.  None: front() of an empty vector *)
Fixpoint DetectRows (bs : Structure) (num_eliminate_blocks : nat) (rs : list Row) (s : Sizes) : option Sizes :=
  match rs with
  | [] => Some s
  | row :: rs' =>
    match cells row with
    | [] => None
    | c0 :: cs =>
      if (num_eliminate_blocks <=? block_id c0)%nat then Some s
      else
        let r := detect_size (row_block_size s) (size_of (block row)) in
        let e := detect_size (e_block_size s) (size_of (col bs (block_id c0))) in
        let f := match cs with
          | [] => f_block_size s
          | c1 :: _ => detect_f bs cs (if f_block_size s =? 0 then size_of (col bs (block_id c1)) else f_block_size s)
          end in
        if (r =? Dynamic) && (e =? Dynamic) && (f =? Dynamic) then Some (mkSizes r e f)
        else DetectRows bs num_eliminate_blocks rs' (mkSizes r e f)
    end
  end.
(* 39-121.  None also: a CHECK fails *)
Definition DetectStructure (bs : Structure) (num_eliminate_blocks : nat) : option Sizes :=
  match DetectRows bs num_eliminate_blocks (rows bs) (mkSizes 0 0 0) with
  | None => None
  | Some s => if (row_block_size s =? 0) || (e_block_size s =? 0) then None else Some s
  end.

(* a chain of conditionals of the three generated files: the sizes that are tested, and what is
   chosen if they match.  restricted: CERES_RESTRICT_SCHUR_SPECIALIZATION is defined *)
Definition Conditional : Type := (option Z * option Z * option Z) * Sizes.
Definition test (o : option Z) (z : Z) : bool := match o with None => true | Some v => z =? v end.
Definition condition (o : Sizes) (c : Conditional) : bool :=
  let '((r, e, f), _) := c in test r (row_block_size o) && test e (e_block_size o) && test f (f_block_size o).
Definition choose (table : list Conditional) (restricted : bool) (o : Sizes) : Sizes :=
  if restricted then mkSizes Dynamic Dynamic Dynamic
  else match find (condition o) table with Some (_, s) => s | None => mkSizes Dynamic Dynamic Dynamic end.

(* schur_templates.cc 49-213 *)
Definition GetBestSchurTemplateSpecialization : bool -> Sizes -> Sizes := choose
  [((Some 2, Some 2, Some 2), mkSizes 2 2 2); ((Some 2, Some 2, Some 3), mkSizes 2 2 3); ((Some 2, Some 2, Some 4), mkSizes 2 2 4);
   ((Some 2, Some 2, None), mkSizes 2 2 Dynamic); ((Some 2, Some 3, Some 3), mkSizes 2 3 3); ((Some 2, Some 3, Some 4), mkSizes 2 3 4);
   ((Some 2, Some 3, Some 6), mkSizes 2 3 6); ((Some 2, Some 3, Some 9), mkSizes 2 3 9); ((Some 2, Some 3, None), mkSizes 2 3 Dynamic);
   ((Some 2, Some 4, Some 3), mkSizes 2 4 3); ((Some 2, Some 4, Some 4), mkSizes 2 4 4); ((Some 2, Some 4, Some 6), mkSizes 2 4 6);
   ((Some 2, Some 4, Some 8), mkSizes 2 4 8); ((Some 2, Some 4, Some 9), mkSizes 2 4 9); ((Some 2, Some 4, None), mkSizes 2 4 Dynamic);
   ((Some 2, None, None), mkSizes 2 Dynamic Dynamic); ((Some 3, Some 3, Some 3), mkSizes 3 3 3); ((Some 4, Some 4, Some 2), mkSizes 4 4 2);
   ((Some 4, Some 4, Some 3), mkSizes 4 4 3); ((Some 4, Some 4, Some 4), mkSizes 4 4 4); ((Some 4, Some 4, None), mkSizes 4 4 Dynamic)].
(* schur_eliminator.cc 53-149: the template arguments of the eliminator *)
Definition SchurEliminatorCreate : bool -> Sizes -> Sizes := choose
  [((Some 2, Some 2, Some 2), mkSizes 2 2 2); ((Some 2, Some 2, Some 3), mkSizes 2 2 3); ((Some 2, Some 2, Some 4), mkSizes 2 2 4);
   ((Some 2, Some 2, None), mkSizes 2 2 Dynamic); ((Some 2, Some 3, Some 3), mkSizes 2 3 3); ((Some 2, Some 3, Some 4), mkSizes 2 3 4);
   ((Some 2, Some 3, Some 6), mkSizes 2 3 6); ((Some 2, Some 3, Some 9), mkSizes 2 3 9); ((Some 2, Some 3, None), mkSizes 2 3 Dynamic);
   ((Some 2, Some 4, Some 3), mkSizes 2 4 3); ((Some 2, Some 4, Some 4), mkSizes 2 4 4); ((Some 2, Some 4, Some 6), mkSizes 2 4 6);
   ((Some 2, Some 4, Some 8), mkSizes 2 4 8); ((Some 2, Some 4, Some 9), mkSizes 2 4 9); ((Some 2, Some 4, None), mkSizes 2 4 Dynamic);
   ((Some 2, None, None), mkSizes 2 Dynamic Dynamic); ((Some 3, Some 3, Some 3), mkSizes 3 3 3); ((Some 4, Some 4, Some 2), mkSizes 4 4 2);
   ((Some 4, Some 4, Some 3), mkSizes 4 4 3); ((Some 4, Some 4, Some 4), mkSizes 4 4 4); ((Some 4, Some 4, None), mkSizes 4 4 Dynamic)].
(* partitioned_matrix_view.cc 53-158 *)
Definition PartitionedMatrixViewCreate : bool -> Sizes -> Sizes := choose
  [((Some 2, Some 2, Some 2), mkSizes 2 2 2); ((Some 2, Some 2, Some 3), mkSizes 2 2 3); ((Some 2, Some 2, Some 4), mkSizes 2 2 4);
   ((Some 2, Some 2, None), mkSizes 2 2 Dynamic); ((Some 2, Some 3, Some 3), mkSizes 2 3 3); ((Some 2, Some 3, Some 4), mkSizes 2 3 4);
   ((Some 2, Some 3, Some 6), mkSizes 2 3 6); ((Some 2, Some 3, Some 9), mkSizes 2 3 9); ((Some 2, Some 3, None), mkSizes 2 3 Dynamic);
   ((Some 2, Some 4, Some 3), mkSizes 2 4 3); ((Some 2, Some 4, Some 4), mkSizes 2 4 4); ((Some 2, Some 4, Some 6), mkSizes 2 4 6);
   ((Some 2, Some 4, Some 8), mkSizes 2 4 8); ((Some 2, Some 4, Some 9), mkSizes 2 4 9); ((Some 2, Some 4, None), mkSizes 2 4 Dynamic);
   ((Some 2, None, None), mkSizes 2 Dynamic Dynamic); ((Some 3, Some 3, Some 3), mkSizes 3 3 3); ((Some 4, Some 4, Some 2), mkSizes 4 4 2);
   ((Some 4, Some 4, Some 3), mkSizes 4 4 3); ((Some 4, Some 4, Some 4), mkSizes 4 4 4); ((Some 4, Some 4, None), mkSizes 4 4 Dynamic)].

(* schur_complement_solver.cc 109-131: the eliminator of DENSE_SCHUR and SPARSE_SCHUR *)
Inductive EliminatorKind : Type := General (args : Sizes) | OneFBlock (args : Sizes).
Definition ChooseEliminator (restricted : bool) (bs : Structure) (num_eliminate_blocks : nat) : option EliminatorKind :=
  match DetectStructure bs num_eliminate_blocks with
  | None => None
  | Some s =>
    let num_f_blocks := Z.of_nat (length (cols bs)) - Z.of_nat num_eliminate_blocks in
    if (row_block_size s =? 2) && (e_block_size s =? 3) && (f_block_size s =? 6) && (num_f_blocks =? 1) then Some (OneFBlock (mkSizes 2 3 6))
    else Some (General (SchurEliminatorCreate restricted s))
  end.
(* iterative_schur_complement_solver.cc 75-83, implicit_schur_complement.cc 55: the view of
   ITERATIVE_SCHUR; schur_jacobi_preconditioner.cc 71-82, visibility_based_preconditioner.cc 306-317:
   the eliminator of its preconditioners, made from the same options *)
Definition ChooseView (restricted : bool) (bs : Structure) (num_eliminate_blocks : nat) : option (Sizes * Sizes) :=
  match DetectStructure bs num_eliminate_blocks with
  | None => None
  | Some s => Some (PartitionedMatrixViewCreate restricted s, SchurEliminatorCreate restricted s)
  end.
(* solver.cc 799-819: schur_structure_given and schur_structure_used, as sizes (675-692
   SchurStructureToString writes d for Dynamic) *)
Definition Reported (restricted : bool) (bs : Structure) (num_eliminate_blocks : nat) : option (Sizes * Sizes) :=
  match DetectStructure bs num_eliminate_blocks with
  | None => None
  | Some s => Some (s, GetBestSchurTemplateSpecialization restricted s)
  end.
