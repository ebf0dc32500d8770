(* Model for C84: compressed_col_sparse_matrix_utils.cc, suitesparse.cc, eigensparse.cc. *)
From Coq Require Import List Arith ZArith Bool.
Import ListNotations.
Open Scope nat_scope.

(* block_structure.h 54-66 *)
Record Block : Type := mkBlock { size : nat; position : nat }.
(* block_structure.h 184-191 *)
Definition NumScalarEntries (bl : list Block) : nat := match rev bl with [] => 0 | b :: _ => position b + size b end.
(* what may happen: a value, a failed CHECK, an access outside an array *)
Inductive Outcome (T : Type) : Type := Done (x : T) | Abort | Undefined.
Arguments Done {T}. Arguments Abort {T}. Arguments Undefined {T}.
Definition bind {T U} (o : Outcome T) (f : T -> Outcome U) : Outcome U := match o with Done x => f x | Abort => Abort | Undefined => Undefined end.

(* the structure of a cholmod_sparse: nrow, ncol, p, i, stype *)
Record Pattern : Type := mkPattern { nrow : nat; ncol : nat; p : list nat; i : list nat; stype : Z }.
(* ------------------------------------ compressed_col_sparse_matrix_utils.cc *)
(* std::lower_bound by position (63-68); the first block that does not start before the row *)
Fixpoint lower_bound (bl : list Block) (row : nat) : nat := match bl with [] => 0 | b :: bl' => if position b <? row then S (lower_bound bl' row) else 0 end.
(* scalar_rows[idx], ..., scalar_rows[idx + n - 1] *)
Fixpoint read (l : list nat) (idx n : nat) : Outcome (list nat) :=
  match n with 0 => Done [] | S n' => match nth_error l idx with None => Undefined | Some x => bind (read l (S idx) n') (fun r => Done (x :: r)) end end.
(* 62: the rows of column c *)
Definition Column (A : Pattern) (c : nat) : Outcome (list nat) :=
  match nth_error (p A) c, nth_error (p A) (S c) with Some a, Some b => read (i A) a (b - a) | _, _ => Undefined end.
(* 62-85 the inner loop: the row blocks found *)
Definition detect (row_blocks : list Block) (rows : list nat) : list nat :=
  flat_map (fun row => let it := lower_bound row_blocks row in match nth_error row_blocks it with None => [] | Some b => if position b =? row then [it] else [] end) rows.
(* 58-88 the loop over the column blocks; last: block_cols->back() *)
Fixpoint ToBlocks (A : Pattern) (row_blocks col_blocks : list Block) (c last : nat) : Outcome (list nat * list nat) :=
  match col_blocks with
  | [] => Done ([], [])
  | b :: rest =>
      bind (Column A c) (fun rows =>
      let found := detect row_blocks rows in
      bind (ToBlocks A row_blocks rest (c + size b) (last + length found)) (fun r =>
      Done (found ++ fst r, last + length found :: snd r)))
  end.
(* 41-89: (block_rows, block_cols) *)
Definition CompressedColumnScalarMatrixToBlockMatrix (A : Pattern) (row_blocks col_blocks : list Block) : Outcome (list nat * list nat) :=
  bind (ToBlocks A row_blocks col_blocks 0 0) (fun r => Done (fst r, 0 :: snd r)).
(* 98-105: the values written *)
Fixpoint entries (blocks : list Block) (block_ordering : list nat) : Outcome (list nat) :=
  match block_ordering with
  | [] => Done []
  | id :: rest => match nth_error blocks id with None => Undefined | Some b => bind (entries blocks rest) (fun r => Done (seq (position b) (size b) ++ r)) end
  end.
(* 91-106; scalar_ordering is empty before, so that resize fills it with zeros *)
Definition BlockOrderingToScalarOrdering (blocks : list Block) (block_ordering : list nat) : Outcome (list nat) :=
  if length blocks =? length block_ordering then
    bind (entries blocks block_ordering) (fun w =>
    let n := NumScalarEntries blocks in
    if length w <=? n then Done (w ++ repeat 0 (n - length w)) else Undefined)
  else Abort.

(* ------------------------------------ suitesparse.cc *)
Inductive OrderingType : Type := NATURAL | AMD | NESDIS.
Inductive Storage : Type := UNSYMMETRIC | LOWER_TRIANGULAR | UPPER_TRIANGULAR.
Inductive Termination : Type := SUCCESS | FAILURE | FATAL_ERROR.
(* CompressedRowSparseMatrix *)
Record Crs (V : Type) : Type := mkCrs { num_rows : nat; num_cols : nat; rows : list nat; cols : list nat; values : V; storage_type : Storage; row_blocks : list Block; col_blocks : list Block }.
Arguments mkCrs {V}. Arguments num_rows {V}. Arguments num_cols {V}. Arguments rows {V}. Arguments cols {V}. Arguments values {V}. Arguments storage_type {V}. Arguments row_blocks {V}. Arguments col_blocks {V}.
(* 113-142 CreateSparseMatrixTransposeView *)
Definition TransposeView {V} (A : Crs V) : Pattern :=
  mkPattern (num_cols A) (num_rows A) (rows A) (cols A) (match storage_type A with LOWER_TRIANGULAR => 1%Z | UPPER_TRIANGULAR => (-1)%Z | UNSYMMETRIC => 0%Z end).
(* CHOLMOD: F factors, V values of a matrix, B vectors.  The functions return cc_.status last;
   ordering: cholmod_amd, cholmod_nested_dissection (false also where the latter is not available);
   factorize changes the factor in place *)
Record Cholmod (F V B : Type) : Type := mkCholmod {
  ordering : OrderingType -> Pattern -> option (list nat) * Z;
  analyze : OrderingType -> Pattern -> F * Z;
  analyze_p : Pattern -> list nat -> F * Z;
  factorize : Pattern -> V -> F -> F * bool * Z;
  solve : F -> B -> option B * Z }.
Arguments mkCholmod {F V B}. Arguments ordering {F V B}. Arguments analyze {F V B}. Arguments analyze_p {F V B}. Arguments factorize {F V B}. Arguments solve {F V B}.
(* factor_ and cc_.status *)
Record SsState (F : Type) : Type := mkSs { factor : option F; status : Z }.
Arguments mkSs {F}. Arguments factor {F}. Arguments status {F}.

(* 218-266 BlockOrdering; None: false.  The status after it *)
Definition BlockOrdering {F V B} (lib : Cholmod F V B) (A : Pattern) (t : OrderingType) (row_blocks col_blocks : list Block) (st : Z) : Outcome (option (list nat) * Z) :=
  match t with
  | NATURAL => Done (Some (seq 0 (nrow A)), st)
  | _ =>
      bind (CompressedColumnScalarMatrixToBlockMatrix A row_blocks col_blocks) (fun m =>
      match ordering lib t (mkPattern (length row_blocks) (length col_blocks) (snd m) (fst m) (stype A)) with
      | (None, st') => Done (None, st')
      | (Some o, st') => bind (BlockOrderingToScalarOrdering row_blocks o) (fun s => Done (Some s, st'))
      end)
  end.
(* 167-193 AnalyzeCholesky, 195-216 AnalyzeCholeskyWithGivenOrdering: the new factor, the status, and
   whether the message was written *)
Definition AnalyzeCholesky {F V B} (lib : Cholmod F V B) (A : Pattern) (t : OrderingType) : option F * Z * bool :=
  let (f, st) := analyze lib t A in if (st =? 0)%Z then (Some f, st, false) else (None, st, true).
Definition AnalyzeCholeskyWithGivenOrdering {F V B} (lib : Cholmod F V B) (A : Pattern) (o : list nat) : Outcome (option F * Z * bool) :=
  if length o =? nrow A then
    let (f, st) := analyze_p lib A o in Done (if (st =? 0)%Z then (Some f, st, false) else (None, st, true))
  else Abort.
(* 268-279 *)
Definition BlockAnalyzeCholesky {F V B} (lib : Cholmod F V B) (A : Pattern) (t : OrderingType) (row_blocks col_blocks : list Block) (st : Z) : Outcome (option F * Z * bool) :=
  bind (BlockOrdering lib A t row_blocks col_blocks st) (fun r => match r with (None, st') => Done (None, st', false) | (Some o, _) => AnalyzeCholeskyWithGivenOrdering lib A o end).
(* 281-338 Cholesky: CHOLMOD_NOT_POSDEF is 1, CHOLMOD_DSMALL 2; the others, unknown ones too, are
   fatal *)
Definition Cholesky (ok : bool) (st : Z) : Termination * bool :=
  if (st =? 1)%Z then (FAILURE, true) else if (st =? 2)%Z then (FAILURE, true) else if (st =? 0)%Z then (if ok then (SUCCESS, false) else (FATAL_ERROR, true)) else (FATAL_ERROR, true).
Definition is_empty {T} (l : list T) : bool := match l with [] => true | _ => false end.
(* 397-437 SuiteSparseCholesky::Factorize: the new state, the answer, whether the message was
   written; None: nullptr *)
Definition SsFactorize {F V B} (lib : Cholmod F V B) (t : OrderingType) (lhs : option (Crs V)) (s : SsState F) : Outcome (SsState F * Termination * bool) :=
  match lhs with
  | None => Done (s, FATAL_ERROR, true)
  | Some A =>
      bind (match factor s with
            | Some f => Done (Some f, status s, false)
            | None =>
                if (match t with NATURAL => true | _ => false end) || (is_empty (col_blocks A) || is_empty (row_blocks A))
                then Done (AnalyzeCholesky lib (TransposeView A) t)
                else BlockAnalyzeCholesky lib (TransposeView A) t (col_blocks A) (row_blocks A) (status s)
            end) (fun r =>
      match r with
      | (None, st, m) => Done (mkSs None st, FATAL_ERROR, m)
      | (Some f, st, m) =>
          let '(f', ok, st') := factorize lib (TransposeView A) (values A) f in
          let (term, m') := Cholesky ok st' in Done (mkSs (Some f') st', term, m || m')
      end)
  end.
(* 340-349 SuiteSparse::Solve and 446-467 SuiteSparseCholesky::Solve *)
Definition SsSolve {F V B} (lib : Cholmod F V B) (b : B) (s : SsState F) : SsState F * Termination * option B * bool :=
  match factor s with
  | None => (s, FATAL_ERROR, None, true)
  | Some f =>
      if (status s =? 0)%Z then
        let (x, st) := solve lib f b in
        match x with None => (mkSs (Some f) st, FAILURE, None, false) | Some x => (mkSs (Some f) st, SUCCESS, Some x, false) end
      else (s, FAILURE, None, true)
  end.

(* calls and their answers *)
Inductive Call (V B : Type) : Type := Factorize (lhs : option (Crs V)) | Solve (b : B).
Arguments Factorize {V B}. Arguments Solve {V B}.
Inductive Answer (B : Type) : Type := Factorized (t : Termination) (message : bool) | Solved (t : Termination) (x : option B) (message : bool).
Arguments Factorized {B}. Arguments Solved {B}.
Fixpoint SsCalls {F V B} (lib : Cholmod F V B) (t : OrderingType) (l : list (Call V B)) (s : SsState F) : Outcome (list (Answer B)) :=
  match l with
  | [] => Done []
  | Factorize lhs :: l' => bind (SsFactorize lib t lhs s) (fun r => let '(s', term, m) := r in bind (SsCalls lib t l' s') (fun a => Done (Factorized term m :: a)))
  | Solve b :: l' => let '(s', term, x, m) := SsSolve lib b s in bind (SsCalls lib t l' s') (fun a => Done (Solved term x m :: a))
  end.

(* ------------------------------------ eigensparse.cc *)
(* Eigen's solver: E its state; the bool is info() == Success after the call *)
Record Eigen (E V B : Type) : Type := mkEigen {
  eigen_new : E;
  analyzePattern : Pattern -> E -> E * bool;
  eigen_factorize : Pattern -> V -> E -> E * bool;
  eigen_solve : E -> B -> B;
  info : E -> bool }.
Arguments mkEigen {E V B}. Arguments eigen_new {E V B}. Arguments analyzePattern {E V B}. Arguments eigen_factorize {E V B}. Arguments eigen_solve {E V B}. Arguments info {E V B}.
(* analyzed_ and solver_ *)
Record EsState (E : Type) : Type := mkEs { analyzed : bool; solver : E }.
Arguments mkEs {E}. Arguments analyzed {E}. Arguments solver {E}.
(* 119-147 and 64-90 Factorize; the matrix is square, both sizes are num_rows *)
Definition EsFactorize {E V B} (lib : Eigen E V B) (A : Crs V) (s : EsState E) : Outcome (EsState E * Termination * bool) :=
  match storage_type A with
  | LOWER_TRIANGULAR =>
      let P := mkPattern (num_rows A) (num_rows A) (rows A) (cols A) 1%Z in
      let numeric e := let (e', ok) := eigen_factorize lib P (values A) e in Done (mkEs true e', if ok then SUCCESS else FAILURE, negb ok) in
      if analyzed s then numeric (solver s)
      else let (e, ok) := analyzePattern lib P (solver s) in if ok then numeric e else Done (mkEs false e, FATAL_ERROR, true)
  | _ => Abort
  end.
(* 92-117 Solve: the solution is written in any case *)
Definition EsSolve {E V B} (lib : Eigen E V B) (b : B) (s : EsState E) : Outcome (Termination * option B * bool) :=
  if analyzed s then let x := eigen_solve lib (solver s) b in Done (if info lib (solver s) then (SUCCESS, Some x, false) else (FAILURE, Some x, true)) else Abort.
Fixpoint EsCalls {E V B} (lib : Eigen E V B) (l : list (Call V B)) (s : EsState E) : Outcome (list (Answer B)) :=
  match l with
  | [] => Done []
  | Factorize None :: l' => Undefined
  | Factorize (Some A) :: l' => bind (EsFactorize lib A s) (fun r => let '(s', term, m) := r in bind (EsCalls lib l' s') (fun a => Done (Factorized term m :: a)))
  | Solve b :: l' => bind (EsSolve lib b s) (fun r => let '(term, x, m) := r in bind (EsCalls lib l' s) (fun a => Done (Solved term x m :: a)))
  end.
