(* What an evaluation of the objective should return. *)

From Coq Require Import List Arith Bool Reals Permutation.
From Verif Require Import EvaluatorModel.
Import ListNotations.
Local Open Scope R_scope.

(* Every execution of the loop: each block is checked and run exactly once, in
   this order, by a thread that exists. *)
Definition checks (l : list step) : list nat :=
  flat_map (fun e => match e with Check i => [i] | Run _ => [] end) l.
Definition runs (l : list step) : list nat :=
  flat_map (fun e => match e with Run i => [i] | Check _ => [] end) l.

Definition valid_schedule (n : nat) (l : list step) : Prop :=
  Permutation (checks l) (seq 0 n) /\ Permutation (runs l) (seq 0 n) /\
  forall l1 i l2, l = l1 ++ Run i :: l2 -> In i (checks l1).

(* all residual blocks can be evaluated *)
Definition all_succeed (bs : list block) : Prop :=
  Forall (fun b => bl_eval b <> None) bs.

Definition cost_of (b : block) : R :=
  match bl_eval b with Some (c, _, _) => c | None => 0 end.
Definition residual_of (b : block) (k : nat) : R :=
  match bl_eval b with Some (_, r, _) => r k | None => 0 end.
Definition jacobian_of (b : block) (j r c : nat) : R :=
  match bl_eval b with Some (_, _, jac) => jac j r c | None => 0 end.

(* number of residuals in front of block i *)
Definition rows_before (bs : list block) (i : nat) : nat :=
  list_sum (map bl_num (firstn i bs)).

(* the variable parameter blocks of a residual block are different ones, so
   their columns do not overlap, and they lie within the gradient *)
Definition columns_apart (ps : list pref) : Prop :=
  forall j k p q c, nth_error ps j = Some p -> nth_error ps k = Some q ->
    pr_constant p = false -> pr_constant q = false ->
    in_range (pr_offset p) (pr_tangent p) c = true ->
    in_range (pr_offset q) (pr_tangent q) c = true -> j = k.

(* the entry of the full jacobian in row k of block b, column c *)
Definition full_jacobian (b : block) (k c : nat) (x : R) : Prop :=
  (exists j p, nth_error (bl_params b) j = Some p /\ pr_constant p = false /\
     in_range (pr_offset p) (pr_tangent p) c = true /\
     x = jacobian_of b j k (c - pr_offset p)) \/
  ((forall j p, nth_error (bl_params b) j = Some p -> pr_constant p = false ->
      in_range (pr_offset p) (pr_tangent p) c = false) /\ x = 0).

Definition everything : request := mkrequest true true true.
