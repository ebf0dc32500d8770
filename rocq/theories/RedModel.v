(* Model for C89: Norm and Dot of eigen_vector_ops.h, on the ParallelFor of ParallelModel.v; real
   numbers, vectors are functions of the position. *)
From Coq Require Import ZArith Reals List Bool.
From Verif Require Import ParallelModel PvoModel.
Import ListNotations.
Open Scope Z_scope.

(* Broken: a CHECK fails or acts is no schedule; Overrun: a write outside of the partial sums; Running:
   the call has not returned yet *)
Inductive outcome := Broken | Overrun | Running | Value (r : R).
(* the calls (thread id, position) finished after the schedule acts, and whether ParallelFor has
   returned; the serial loop uses thread id 0 (parallel_for.h 75-98, parallel_invoke.h 61-75) *)
Definition events (p : plan) (acts : list act) : option (list (Z * Z) * bool) :=
  match p with
  | Fatal => None
  | Nothing => Some ([], true)
  | Serial calls => Some (map (fun i => (0, i)) calls, true)
  | Parallel c => match exec c acts init with Some s => Some (trace s, match cal s with CReturned => true | _ => false end) | None => None end
  end.
(* sums[thread_id] += term, eigen_vector_ops.h 58 and 91; None: thread_id is no index of the array.
   Simplified: the terms of a block are added one by one, not their sum *)
Definition accumulate (num_threads : Z) (term : Z -> R) (sums : option (Z -> R)) (e : Z * Z) : option (Z -> R) :=
  match sums with
  | None => None
  | Some s => if (0 <=? fst e) && (fst e <? num_threads) then Some (fun t => if t =? fst e then (s t + term (snd e))%R else s t) else None
  end.
(* std::accumulate(begin, end, 0.), eigen_vector_ops.h 61 and 94 *)
Definition total (num_threads : Z) (sums : Z -> R) : R := fold_left (fun a t => (a + sums t)%R) (zrange 0 num_threads) 0%R.
(* the loop that Norm and Dot share, eigen_vector_ops.h 50-60 and 80-93 *)
Definition reduce (num_threads rows : Z) (term : Z -> R) (acts : list act) : outcome :=
  match events (parallel_for 0 rows num_threads kMinBlockSizeParallelVectorOps) acts with
  | None => Broken
  | Some (calls, returned) =>
      match fold_left (accumulate num_threads term) calls (Some (fun _ => 0%R)) with
      | None => Overrun
      | Some sums => if returned then Value (total num_threads sums) else Running
      end
  end.
(* eigen_vector_ops.h 75-95; y has as many rows as x *)
Definition Dot (x y : Z -> R) (rows num_threads : Z) (acts : list act) : outcome := reduce num_threads rows (fun i => (x i * y i)%R) acts.
(* eigen_vector_ops.h 46-62 *)
Definition Norm (x : Z -> R) (rows num_threads : Z) (acts : list act) : outcome :=
  match reduce num_threads rows (fun i => (x i * x i)%R) acts with Value r => Value (sqrt r) | o => o end.
