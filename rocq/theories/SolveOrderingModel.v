(* What Solver::Solve does to the two ParameterBlockOrdering objects reachable
   from the caller's Solver::Options (std::shared_ptr members):
   internal/ceres/solver.cc:734-845, trust_region_preprocessor.cc:58-430,
   line_search_preprocessor.cc, reorder_program.cc:468-600.

   A shared_ptr is [option nat], an index into a store of OrderedGroups objects
   (OrderedGroupsModel.v); both pointers may be equal.  An ordering created by
   Ceres itself is never stored through the caller's pointer (the options are
   copied first) and is kept outside of the store. *)

From Coq Require Import ZArith List Bool.
From Verif Require Import ZMap OrderedGroupsModel EnumModel OptionsModel.
Import ListNotations.
Local Open Scope Z_scope.

Definition store : Type := nat -> og.
Definition put (h : store) (i : nat) (x : og) : store := fun j => if Nat.eqb j i then x else h j.

(* the members of Solver::Options used here *)
Record request : Type := mkrequest {
  rq_minimizer : Z;
  rq_solver : Z;
  rq_preconditioner : Z;
  rq_dynamic : bool;
  rq_linear_ordering : option nat;
  rq_inner : bool;
  rq_inner_ordering : option nat
}.

(* what the other parts of the solve compute, in the order they are asked *)
Record answers : Type := mkanswers {
  an_program_ok : bool;                (* IsProgramValid *)
  an_reduced : option (list Z * list Z);  (* CreateReducedProgram: removed and kept blocks *)
  an_schur_ordering : list Z;          (* ComputeStableSchurOrdering: the ordering ... *)
  an_schur_size : nat;                 (* ... and its return value *)
  an_independent : bool;               (* IsParameterBlockSetIndependent *)
  an_reorder_ok : bool;                (* what follows in the reordering functions *)
  an_linear_solver_ok : bool;          (* LinearSolver::Create *)
  an_evaluator_ok : bool;              (* SetupEvaluator *)
  an_callback : bool;                  (* the program has an evaluation callback *)
  an_inner_ordering_ok : bool;         (* CoordinateDescentMinimizer::IsOrderingValid *)
  an_inner_init_ok : bool              (* CoordinateDescentMinimizer::Init *)
}.

(* Aborts: a CHECK fails.  Otherwise whether preprocessing succeeded, and the store. *)
Inductive outcome : Type :=
| Aborts
| Finished (ok : bool) (h : store).

(* trust_region_preprocessor.cc:60-71  CreateDefaultLinearSolverOrdering *)
Definition CreateDefaultLinearSolverOrdering (blocks : list Z) : og :=
  fold_left (fun s e => fst (add_element e 0 s)) blocks og_empty.

(* reorder_program.cc:502-506: the i-th block of the Schur ordering goes to
   group 0 if i < size, else to group 1 *)
Fixpoint regroup (l : list Z) (i size : nat) (s : og) : og :=
  match l with
  | [] => s
  | e :: rest => regroup rest (S i) size (fst (add_element e (if Nat.ltb i size then 0 else 1) s))
  end.

(* reorder_program.cc:468-562  ReorderProgramForSchurTypeLinearSolver: its effect
   on the ordering and its result; None = CHECK_EQ fails *)
Definition ReorderForSchur (a : answers) (blocks : list Z) (s : og) : option (bool * og) :=
  if negb (num_elements s =? Z.of_nat (length blocks))%Z then Some (false, s)
  else if (num_groups s =? 1)%Z then
    if negb (Nat.eqb (length (an_schur_ordering a)) (length blocks)) then None
    else Some (an_reorder_ok a, regroup (an_schur_ordering a) 0 (an_schur_size a) s)
  else if negb (an_independent a) then Some (false, s)
  else Some (an_reorder_ok a, s).

(* reorder_program.cc:564-640  ReorderProgramForSparseCholesky (const ordering) *)
Definition ReorderForSparseCholesky (a : answers) (blocks : list Z) (s : og) : bool :=
  if negb (num_elements s =? Z.of_nat (length blocks))%Z then false else an_reorder_ok a.

(* trust_region_preprocessor.cc:114-154  ReorderProgram *)
Definition ReorderProgram (solver preconditioner : Z) (dynamic : bool) (a : answers) (blocks : list Z) (s : og)
  : option (bool * og) :=
  if IsSchurType solver then ReorderForSchur a blocks s
  else if (solver =? SPARSE_NORMAL_CHOLESKY)%Z && negb dynamic then
    Some (ReorderForSparseCholesky a blocks s, s)
  else if (solver =? CGNR)%Z && (preconditioner =? SUBSET)%Z then
    Some (ReorderForSparseCholesky a blocks s, s)
  else Some (true, s).

(* trust_region_preprocessor.cc:161-263  SetupLinearSolver; the ordering used is
   returned for SetupEvaluator *)
Definition SetupLinearSolver (q : request) (a : answers) (removed blocks : list Z) (h : store) : outcome :=
  match rq_linear_ordering q with
  | None =>
      match ReorderProgram (rq_solver q) (rq_preconditioner q) (rq_dynamic q) a blocks
              (CreateDefaultLinearSolverOrdering blocks) with
      | None => Aborts
      | Some (ok, _) => Finished (ok && an_linear_solver_ok a) h
      end
  | Some i =>
      match min_nonzero_group (h i) with
      | None => Aborts
      | Some first =>
          let s := fst (remove_bulk removed (h i)) in
          if IsSchurType (rq_solver q) then
            match min_nonzero_group s with
            | None => Aborts
            | Some first' =>
                let fallback := negb (first =? first')%Z in
                let solver := if fallback then LinearSolverForZeroEBlocks (rq_solver q) else rq_solver q in
                let preconditioner :=
                  if fallback && (rq_solver q =? ITERATIVE_SCHUR)%Z
                  then PreconditionerForZeroEBlocks (rq_preconditioner q) else rq_preconditioner q in
                match ReorderProgram solver preconditioner (rq_dynamic q) a blocks s with
                | None => Aborts
                | Some (ok, s') => Finished (ok && an_linear_solver_ok a) (put h i s')
                end
            end
          else
            match ReorderProgram (rq_solver q) (rq_preconditioner q) (rq_dynamic q) a blocks s with
            | None => Aborts
            | Some (ok, s') => Finished (ok && an_linear_solver_ok a) (put h i s')
            end
      end
  end.

(* trust_region_preprocessor.cc:298-350  SetupInnerIterationMinimizer *)
Definition SetupInnerIterationMinimizer (q : request) (a : answers) (removed blocks : list Z) (h : store)
  : outcome :=
  if negb (rq_inner q) then Finished true h
  else if an_callback a then Finished false h
  else if Nat.eqb (length blocks) 1 then Finished true h
  else match rq_inner_ordering q with
       | Some i =>
           let s := fst (remove_bulk removed (h i)) in
           let h' := put h i s in
           if (num_elements s =? 0)%Z then Finished true h'
           else if negb (an_inner_ordering_ok a) then Finished false h'
           else Finished (an_inner_init_ok a) h'
       | None => Finished (an_inner_init_ok a) h
       end.

(* trust_region_preprocessor.cc:388-430  TrustRegionPreprocessor::Preprocess.
   SetupMinimizerOptions at the end does not touch the orderings. *)
Definition TrustRegionPreprocess (q : request) (a : answers) (h : store) : outcome :=
  if negb (an_program_ok a) then Finished false h
  else match an_reduced a with
       | None => Finished false h
       | Some (removed, blocks) =>
           if Nat.eqb (length blocks) 0 then Finished true h
           else match SetupLinearSolver q a removed blocks h with
                | Finished true h1 =>
                    if negb (an_evaluator_ok a) then Finished false h1
                    else SetupInnerIterationMinimizer q a removed blocks h1
                | r => r
                end
       end.

(* solver.cc:734-845  Solver::Solve, as far as the orderings are concerned: the
   line search preprocessor (line_search_preprocessor.cc:60-110) does not read them,
   neither does the minimizer. *)
Definition Solve (q : request) (a : answers) (h : store) : outcome :=
  if (rq_minimizer q =? TRUST_REGION)%Z then TrustRegionPreprocess q a h
  else Finished (an_program_ok a && match an_reduced a with None => false | _ => an_evaluator_ok a end) h.
