(* Model for C85: subset_preconditioner.cc.  Scalars are real; the factorization is an oracle, see
   LsqModel.v. *)
From Coq Require Import Reals List Arith Bool.
From Verif Require Import SchurModel BlockSparseModel GramModel SparseModel LsqModel.
Import ListNotations.
Open Scope R_scope.

(* subset_preconditioner.h 85-88: inner_product_computer_ with its last row block and the values of its
   result; what sparse_cholesky_ holds, None if there is no factor or the last factorization failed *)
Record State (c : Cholesky) : Type := mkState { computer : option (Inner * nat * vec); factor : option (Factor c) }.
Arguments mkState {c}. Arguments computer {c}. Arguments factor {c}.
(* subset_preconditioner.cc 47-58: a new preconditioner *)
Definition NewState (c : Cholesky) : State c := mkState None None.
(* subset_preconditioner.cc 70-117 UpdateImpl; None: a CHECK fails.  start: subset_preconditioner_start_row_block; junk, junk':
   what freshly allocated memory holds.  Result: the return value, A, the state *)
Definition UpdateImpl (c : Cholesky) (start : nat) (lower : bool) (st : State c) (junk junk' : vec) (A : BlockSparse) (D : option vec) : option (bool * BlockSparse * State c) :=
  match (match D with Some d => AppendRows A (CreateDiagonalMatrix d (SchurModel.cols (structure A)) junk) junk | None => Some A end) with
  | None => None
  | Some A1 =>
    let '(r, e, v0) := match computer st with
      | Some s => s
      | None => let e := length (SchurModel.rows (structure A1)) in (Create (structure A1) start e lower, e, junk')
      end in
    match Compute (structure A1) (values A1) start e lower r v0 with
    | None => None
    | Some v =>
      match (match D with Some _ => DeleteRowBlocks A1 (length (SchurModel.cols (structure A1))) | None => Some A1 end) with
      | None => None
      | Some A2 =>
        let lhs := result_matrix lower (num_columns A1) r v in
        let f := factorize c (m_num_cols lhs) (read_triangle lhs) in
        Some (match f with Some _ => true | None => false end, A2, mkState (Some (r, e, v)) f)
      end
    end
  end.
(* subset_preconditioner.cc 62-68 RightMultiplyAndAccumulate: y afterwards; without a factor Solve fails and y stays (with
   Eigen it may be overwritten) *)
Definition RightMultiplyAndAccumulate {c : Cholesky} (n : nat) (st : State c) (x y : vec) : vec :=
  match factor st with Some f => solve c n f x | None => y end.
(* preconditioner.cc, Update calls UpdateImpl (subset_preconditioner.cc 70): a sequence of updates with one preconditioner and one matrix object, whose values change *)
Record Update : Type := mkUpdate { u_values : vec; u_D : option vec; u_junk : vec; u_junk' : vec }.
Fixpoint Updates (c : Cholesky) (start : nat) (lower : bool) (st : State c) (A : BlockSparse) (l : list Update) : option (list (bool * BlockSparse * State c)) :=
  match l with
  | [] => Some []
  | u :: l' =>
    match UpdateImpl c start lower st (u_junk u) (u_junk' u) (with_new A (u_values u)) (u_D u) with
    | None => None
    | Some (ok, A', st') => match Updates c start lower st' A' l' with None => None | Some r => Some ((ok, A', st') :: r) end
    end
  end.
