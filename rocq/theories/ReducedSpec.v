(* What the reduced program should be. *)

From Coq Require Import List Arith Bool Reals.
From Verif Require Import ProgramStateModel ProgramStateSpec ReducedModel.
Import ListNotations.

Section Spec.
Variable V : Type.

(* the objective: sum of the costs of the residual blocks, None if one of them
   cannot be evaluated *)
Fixpoint total_cost (rs : list (rblock V)) (x : assignment V) : option R :=
  match rs with
  | [] => Some 0%R
  | r :: rest =>
      match rb_cost r x, total_cost rest x with
      | Some c, Some t => Some (c + t)%R
      | _, _ => None
      end
  end.

(* the cost of a residual block depends on its own parameter blocks only *)
Definition local (r : rblock V) : Prop :=
  forall x y, (forall p, In p (rb_params r) -> x (pb_id p) = y (pb_id p)) ->
    rb_cost r x = rb_cost r y.

(* x has the user's values in all constant blocks *)
Definition constants_kept (rs : list (rblock V)) (x0 x : assignment V) : Prop :=
  forall r p, In r rs -> In p (rb_params r) -> is_constant p = true ->
    x (pb_id p) = x0 (pb_id p).

(* a residual block none of whose parameters can change *)
Definition is_fixed (r : rblock V) : bool := forallb is_constant (rb_params r).

(* a variable parameter block some residual block depends on *)
Definition is_used (rs : list (rblock V)) (p : pblock V) : Prop :=
  is_constant p = false /\ exists r, In r rs /\ In p (rb_params r).

(* a program as the Problem keeps it: distinct parameter blocks, which include
   all parameter blocks of the residual blocks *)
Definition well_formed (ps : list (pblock V)) (rs : list (rblock V)) : Prop :=
  distinct ps /\ forall r p, In r rs -> In p (rb_params r) -> In p ps.

(* the calls the user sees: one PrepareForEvaluation (without jacobians, new
   point) in front of the evaluations of the fixed blocks, if any *)
Definition expected_events (callback : bool) (fixed : list (rblock V)) : list event :=
  match fixed with
  | [] => []
  | _ => (if callback then [Prepare false true] else []) ++
         map (fun r => Eval (rb_id r)) fixed
  end.

End Spec.

Arguments total_cost {V}.
Arguments local {V}.
Arguments constants_kept {V}.
Arguments is_fixed {V}.
Arguments is_used {V}.
Arguments well_formed {V}.
Arguments expected_events {V}.
