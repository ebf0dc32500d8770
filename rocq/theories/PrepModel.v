(* Reordering a reduced program for the linear solver: internal/ceres/reorder_program.cc,
   trust_region_preprocessor.cc, program.cc, array_utils.cc.

   A parameter block is its user state address.  Offsets are not modelled (they follow the
   indices, C66); error messages are not modelled. *)
From Coq Require Import ZArith List Arith Bool.
From Verif Require Import ZMap OrderedGroupsModel GraphModel ReorderModel SolveOrderingModel.
Import ListNotations.
Open Scope nat_scope.

(* residual_block.h: a residual block: its id (pointer), NumResiduals(), its parameter blocks *)
Record Res : Type := mkRes { res_id : nat; res_num : nat; res_args : list Z }.
(* program.h: parameter_blocks_, residual_blocks_ and the index() fields *)
Record Prg : Type := mkPrg { blocks : list Z; residuals : list Res; index : Z -> Z }.
(* parameter_block.h: TangentSize(), IsConstant() *)
Record Facts : Type := mkFacts { size_of : Z -> nat; constant : Z -> bool }.

(* include/ceres/types.h: LinearSolverType as far as it is distinguished here; with the
   dynamic_sparsity option; CGNR with the SUBSET preconditioner and the chosen residual blocks *)
Inductive Solver : Type :=
  | SparseSchur | DenseSchur | IterativeSchur
  | NormalCholesky (dynamic : bool)
  | CgnrSubset (chosen : nat -> bool)
  | OtherSolver.
(* types.h SparseLinearAlgebraLibraryType *)
Inductive Library : Type := SuiteSparse | EigenSparse | AccelerateSparse | CudaSparse | NoSparse.
(* what was compiled in: not CERES_NO_SUITESPARSE, CERES_USE_EIGEN_SPARSE, IsNestedDissectionAvailable() *)
Record Build : Type := mkBuild { has_suitesparse : bool; has_eigen : bool; has_nesdis : bool }.

(* The libraries.  A pattern is a list of (row, column).  None: the cholmod function returns false
   and leaves the array alone.  std::partition: the rearranged sequence *)
Definition Pattern : Type := list (Z * nat).
Record Tools : Type := mkTools {
  camd : nat -> Pattern -> list nat -> option (list nat);
  amd : nat -> Pattern -> option (list nat);
  nesdis : nat -> Pattern -> option (list nat);
  eigen_schur : bool -> nat -> nat -> Pattern -> list nat;
  eigen_order : bool -> nat -> Pattern -> list nat;
  partition : (Res -> bool) -> list Res -> list Res }.

(* Aborted: a CHECK or LOG(FATAL) fires or an array is left; Refused: false is returned *)
Inductive Outcome : Type := Aborted | Refused | Ready (p : Prg) (o : og).

(* the last i with l[i] = b, counting from i *)
Fixpoint last_position (i : nat) (b : Z) (l : list Z) : option nat :=
  match l with
  | [] => None
  | x :: l' => match last_position (S i) b l' with Some k => Some k | None => if Z.eqb x b then Some i else None end
  end.
(* program.cc 144-162 SetParameterOffsetsAndIndex *)
Definition SetIndex (p : Prg) : Prg :=
  mkPrg (blocks p) (residuals p) (fun b =>
    match last_position 0 b (blocks p) with
    | Some i => Z.of_nat i
    | None => if existsb (fun r => existsb (Z.eqb b) (res_args r)) (residuals p) then (-1)%Z else index p b
    end).

(* program.cc 417-436 IsParameterBlockSetIndependent *)
Definition IsIndependent (s : list Z) (p : Prg) : bool :=
  forallb (fun r => length (filter (fun a => existsb (Z.eqb a) s) (res_args r)) <=? 1) (residuals p).

(* program.cc 439-481 CreateJacobianBlockSparsityTranspose; the growing of the arrays is not
   modelled *)
Fixpoint PatternFrom (F : Facts) (idx : Z -> Z) (c : nat) (rs : list Res) : Pattern :=
  match rs with
  | [] => []
  | r :: rs' => map (fun a => (idx a, c)) (filter (fun a => negb (constant F a)) (res_args r)) ++ PatternFrom F idx (S c) rs'
  end.
Definition SparsityTranspose (F : Facts) (start : nat) (p : Prg) : Pattern := PatternFrom F (index p) 0 (skipn start (residuals p)).

(* array_utils.cc 93-104 MapValuesToContiguousRange: the place of every value among the different
   values (lower_bound in the sorted array without duplicates) *)
Definition Contiguous (values : list Z) : list nat :=
  map (fun v => length (filter (fun u => Z.ltb u v) (nodup Z.eq_dec values))) values.
Definition Constraints (o : og) (p : Prg) : list nat := Contiguous (map (fun b => group_id b o) (blocks p)).

(* parameter_blocks[i] = parameter_blocks_copy[ordering[i]] for all i; None: outside the array *)
Definition permuted (l : list Z) (ordering : list nat) : option (list Z) := all_some (map (nth_error l) ordering).
(* the array is initialised with 0 *)
Definition or_zeros (n : nat) (o : option (list nat)) : list nat := match o with Some l => l | None => repeat 0 n end.

(* reorder_program.cc 363-419 ReorderSchurComplementColumnsUsingSuiteSparse *)
Definition ColumnsSuiteSparse (B : Build) (T : Tools) (F : Facts) (o : og) (p : Prg) : option Prg :=
  if negb (has_suitesparse B) then Some p
  else
    let n := length (blocks p) in
    match permuted (blocks p) (or_zeros n (camd T n (SparsityTranspose F 0 p) (Constraints o p))) with
    | None => None
    | Some bl => Some (SetIndex (mkPrg bl (residuals p) (index p)))
    end.
(* reorder_program.cc 421-466 ReorderSchurComplementColumnsUsingEigen.  The pattern of the Schur
   complement is computed inside eigen_schur from that of J *)
Definition ColumnsEigen (B : Build) (T : Tools) (F : Facts) (is_amd : bool) (k : nat) (p : Prg) : option Prg :=
  if negb (has_eigen B) then Some p
  else
    match permuted (skipn k (blocks p)) (eigen_schur T is_amd (length (blocks p)) k (SparsityTranspose F 0 p)) with
    | None => None
    | Some bl => Some (SetIndex (mkPrg (firstn k (blocks p) ++ bl) (residuals p) (index p)))
    end.

(* parameter_block_ordering.cc 49-79, 125-159 ComputeStableSchurOrdering: the blocks are numbered
   by their place in the program for GraphModel.v; constant arguments are left out of the residual
   blocks, as CreateHessianGraph skips them; an argument that is not in the program is a vertex that
   is not in the graph *)
Definition place (p : Prg) (b : Z) : nat := match last_position 0 b (blocks p) with Some i => i | None => length (blocks p) end.
Definition graph_of (F : Facts) (p : Prg) : prog :=
  mkProg (seq 0 (length (blocks p))) (fun i => constant F (nth i (blocks p) 0%Z))
    (map (fun r => map (place p) (filter (fun a => negb (constant F a)) (res_args r))) (residuals p)).
Definition SchurOrdering (F : Facts) (p : Prg) : option (list Z * nat) :=
  match stable_schur_ordering (graph_of F p) with
  | None => None
  | Some (l, k) => Some (map (fun i => nth i (blocks p) 0%Z) l, k)
  end.

(* group_to_elements().begin()->second; None: there is no group *)
Definition FirstGroup (o : og) : option (list Z) := match g2e o with [] => None | (_, es) :: _ => Some (zkeys es) end.

(* reorder_program.cc 278-359 LexicographicallyOrderResidualBlocks *)
Fixpoint Numbered (F : Facts) (idx : Z -> Z) (i : nat) (rs : list Res) : list rblock :=
  match rs with
  | [] => []
  | r :: rs' => mkR i (map (fun a => (constant F a, idx a)) (res_args r)) :: Numbered F idx (S i) rs'
  end.
Definition OrderResiduals (F : Facts) (k : nat) (p : Prg) : option Prg :=
  match lexicographic_order k (Numbered F (index p) 0 (residuals p)) with
  | None => None
  | Some out =>
    match all_some (map (fun r => nth_error (residuals p) (r_name r)) out) with
    | None => None
    | Some rs => Some (mkPrg (blocks p) rs (index p))
    end
  end.

(* reorder_program.cc 535-562: the rest of the function below *)
Definition FinishSchur (B : Build) (T : Tools) (F : Facts) (s : Solver) (lib : Library) (is_amd : bool) (p : Prg) (o : og) : Outcome :=
  match FirstGroup o with
  | None => Aborted
  | Some es =>
    let k := length es in
    let p := SetIndex p in
    let moved :=
      match s, lib with
      | SparseSchur, SuiteSparse => if is_amd then ColumnsSuiteSparse B T F o p else Some p
      | SparseSchur, EigenSparse => ColumnsEigen B T F is_amd k p
      | _, _ => Some p
      end in
    match moved with
    | None => Aborted
    | Some p => match OrderResiduals F k p with None => Aborted | Some p => Ready p o end
    end
  end.
(* reorder_program.cc 468-562 ReorderProgramForSchurTypeLinearSolver; known: the keys of
   parameter_map *)
Definition ReorderSchur (B : Build) (T : Tools) (F : Facts) (s : Solver) (lib : Library) (is_amd : bool) (known : list Z) (o : og) (p : Prg) : Outcome :=
  if negb (num_elements o =? Z.of_nat (length (blocks p)))%Z then Refused
  else if (num_groups o =? 1)%Z then
    match SchurOrdering F p with
    | None => Aborted
    | Some (l, k) =>
      if negb (length l =? length (blocks p)) then Aborted
      else FinishSchur B T F s lib is_amd (mkPrg l (residuals p) (index p)) (regroup l 0 k o)
    end
  else
    match FirstGroup o with
    | None => Aborted
    | Some es =>
      if negb (IsIndependent es p) then Refused
      else
        match apply_ordering known o (blocks p) with
        | AUndef => Aborted
        | AFail _ _ => Refused
        | AOk l => FinishSchur B T F s lib is_amd (mkPrg l (residuals p) (index p)) o
        end
    end.

(* reorder_program.cc 116-171 OrderingForSparseNormalCholeskyUsingSuiteSparse; None: LOG(FATAL) or
   CHECK; otherwise the array *)
Definition OrderSuiteSparse (B : Build) (T : Tools) (is_amd : bool) (pattern : Pattern) (o : og) (p : Prg) : option (list nat) :=
  let n := length (blocks p) in
  if negb (has_suitesparse B) then None
  else if is_amd then
    if (num_groups o <=? 1)%Z then Some (or_zeros n (amd T n pattern))
    else Some (or_zeros n (camd T n pattern (Constraints o p)))
  else if negb (has_nesdis B) then None
  else Some (or_zeros n (nesdis T n pattern)).
(* 173-213 OrderingForSparseNormalCholeskyUsingEigenSparse *)
Definition OrderEigen (B : Build) (T : Tools) (is_amd : bool) (pattern : Pattern) (p : Prg) : option (list nat) :=
  if negb (has_eigen B) then None else Some (eigen_order T is_amd (length (blocks p)) pattern).
(* 564-621 ReorderProgramForSparseCholesky *)
Definition ReorderSparse (B : Build) (T : Tools) (F : Facts) (lib : Library) (is_amd : bool) (o : og) (start : nat) (p : Prg) : Outcome :=
  if negb (num_elements o =? Z.of_nat (length (blocks p)))%Z then Refused
  else
    let pattern := SparsityTranspose F start p in
    let apply ordering :=
      match ordering with
      | None => Aborted
      | Some l => match permuted (blocks p) l with None => Aborted | Some bl => Ready (SetIndex (mkPrg bl (residuals p) (index p))) o end
      end in
    match lib with
    | SuiteSparse => apply (OrderSuiteSparse B T is_amd pattern o p)
    | AccelerateSparse | CudaSparse => Ready p o
    | EigenSparse => apply (OrderEigen B T is_amd pattern p)
    | NoSparse => apply (Some (repeat 0 (length (blocks p))))
    end.
(* 623-634 ReorderResidualBlocksByPartition: the program and the number of the first chosen one *)
Definition ByPartition (T : Tools) (chosen : nat -> bool) (p : Prg) : Prg * nat :=
  let other := fun r => negb (chosen (res_id r)) in
  (mkPrg (blocks p) (partition T other (residuals p)) (index p), length (filter other (residuals p))).

(* trust_region_preprocessor.cc 114-154 ReorderProgram *)
Definition Reorder (B : Build) (T : Tools) (F : Facts) (s : Solver) (lib : Library) (is_amd : bool) (known : list Z) (o : og) (p : Prg) : Outcome :=
  match s with
  | SparseSchur | DenseSchur | IterativeSchur => ReorderSchur B T F s lib is_amd known o p
  | NormalCholesky dynamic => if dynamic then Ready p o else ReorderSparse B T F lib is_amd o 0 p
  | CgnrSubset chosen => let '(p, start) := ByPartition T chosen p in ReorderSparse B T F lib is_amd o start p
  | OtherSolver => Ready p o
  end.
(* trust_region_preprocessor.cc 228-239, parameter_block_ordering.cc 161-176 OrderingToGroupSizes:
   elimination_groups, for Schur type solvers *)
Definition EliminationGroups (o : og) : list nat :=
  let sizes := map (fun g => length (snd g)) (g2e o) in
  if length sizes =? 1 then sizes ++ [0] else sizes.
