(* Model for C88: parallel_vector_ops.h, parallel_vector_ops.cc, on the ParallelFor of ParallelModel.v.
   Elements of any type; memory is indexed by integers, the vector is at 0 .. rows - 1. *)
From Coq Require Import ZArith List.
From Verif Require Import ParallelModel.
Import ListNotations.
Open Scope Z_scope.

Section Elements.
Context {E : Type}.
(* an expression: its element i, given the memory that holds the left hand side (parallel_vector_ops.h
   57-60); simplified: reading and writing one element is one step *)
Definition Expression : Type := (Z -> E) -> Z -> E.
(* parallel_vector_ops.h 72: one element of lhs.segment(..) = rhs.segment(..) *)
Definition write (rhs : Expression) (lhs : Z -> E) (i : Z) : Z -> E := fun k => if k =? i then rhs lhs i else lhs k.
Definition writes (rhs : Expression) (calls : list Z) (lhs : Z -> E) : Z -> E := fold_left (write rhs) calls lhs.
(* the elements that a call has written after the schedule acts, and whether it has returned
   (parallel_for.h 75-98); None: a CHECK fails or acts is no schedule *)
Definition progress (p : plan) (acts : list act) : option (list Z * bool) :=
  match p with
  | Fatal => None
  | Nothing => Some ([], true)
  | Serial calls => Some (calls, true)
  | Parallel c => match exec c acts init with Some s => Some (map snd (trace s), match cal s with CReturned => true | _ => false end) | None => None end
  end.
(* parallel_vector_ops.h 49 *)
Definition kMinBlockSizeParallelVectorOps : Z := 2 ^ 16.
(* parallel_vector_ops.h 56-75; lhs_rows, rhs_rows: sizes of the two expressions *)
Definition ParallelAssign (num_threads lhs_rows rhs_rows : Z) (rhs : Expression) (acts : list act) (lhs : Z -> E) : option ((Z -> E) * bool) :=
  if negb (lhs_rows =? rhs_rows) then None
  else match progress (parallel_for 0 lhs_rows num_threads kMinBlockSizeParallelVectorOps) acts with
    | None => None
    | Some (calls, returned) => Some (writes rhs calls lhs, returned)
    end.
(* parallel_vector_ops.cc 38-53 (parallel_vector_ops.h 77-87) *)
Definition ParallelSetZero (zero : E) (num_threads num_values : Z) (acts : list act) (values : Z -> E) : option ((Z -> E) * bool) :=
  match progress (parallel_for 0 num_values num_threads kMinBlockSizeParallelVectorOps) acts with
  | None => None
  | Some (calls, returned) => Some (writes (fun _ _ => zero) calls values, returned)
  end.
End Elements.
