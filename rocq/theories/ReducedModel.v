(* Program::CreateReducedProgram and RemoveFixedBlocks,
   internal/ceres/program.cc:291-414. *)

From Coq Require Import List Arith Bool Reals.
From Verif Require Import ProgramStateModel.
Import ListNotations.

Section Reduced.
Variable V : Type.

(* residual_block.h: the parameter blocks of a residual block and its cost
   (ResidualBlock::Evaluate(true, &cost, nullptr, nullptr, scratch), None if
   it returns false; see C41) at given values of the parameter blocks.
   Costs are real numbers: rounding of the sum is not modelled. *)
Definition assignment : Type := nat -> list V.

Record rblock : Type := mkrblock {
  rb_id : nat;
  rb_params : list (pblock V);
  rb_cost : assignment -> option R
}.

(* v[i] = x on a std::vector; i is always in range here *)
Fixpoint set_nth {A} (l : list A) (i : nat) (x : A) : list A :=
  match l, i with
  | [], _ => []
  | _ :: l', O => x :: l'
  | y :: l', S i' => y :: set_nth l' i' x
  end.

(* what the user's code sees: EvaluationCallback::PrepareForEvaluation(
   evaluate_jacobians, new_point), and the evaluation of a residual block *)
Inductive event : Type := Prepare (jacobians new_point : bool) | Eval (residual : nat).

(* ParameterBlock::index_, used as a mark: true is 1, false is -1 *)
Definition marks : Type := nat -> bool.
Definition mark (k : marks) (c : nat) : marks :=
  fun c' => if Nat.eqb c c' then true else k c'.

(* program.cc:341-348: is the block fixed, marking its variable parameters *)
Fixpoint scan_params (ps : list (pblock V)) (all_constant : bool) (k : marks)
  : bool * marks :=
  match ps with
  | [] => (all_constant, k)
  | p :: rest =>
      if negb (is_constant p) then scan_params rest false (mark k (pb_id p))
      else scan_params rest all_constant k
  end.

(* loop state of program.cc:333-390 *)
Record loop_state : Type := mkls {
  ls_blocks : list rblock;      (* residual_blocks_, compacted in place *)
  ls_active : nat;              (* num_active_residual_blocks *)
  ls_marks : marks;
  ls_fixed : R;                 (* *fixed_cost *)
  ls_need : bool;               (* need_to_call_prepare_for_evaluation *)
  ls_events : list event
}.

Inductive step_result : Type := Next (s : loop_state) | Failed (i : nat) (e : list event).

(* one iteration; [x0] are the user's values *)
Definition loop_step (x0 : assignment) (i : nat) (r : rblock) (s : loop_state)
  : step_result :=
  let '(all_constant, k) := scan_params (rb_params r) true (ls_marks s) in
  if negb all_constant then
    Next (mkls (set_nth (ls_blocks s) (ls_active s) r) (S (ls_active s)) k
               (ls_fixed s) (ls_need s) (ls_events s))
  else
    let ev := if ls_need s then ls_events s ++ [Prepare false true] else ls_events s in
    let ev' := ev ++ [Eval (rb_id r)] in
    match rb_cost r x0 with
    | None => Failed i ev'
    | Some c =>
        Next (mkls (ls_blocks s) (ls_active s) k (ls_fixed s + c) false ev')
    end.

(* [todo] iterations are left, the next one is number i; the element is read
   from the vector being compacted (program.cc:335) *)
Fixpoint loop (x0 : assignment) (todo i : nat) (s : loop_state) : step_result :=
  match todo with
  | O => Next s
  | S todo' =>
      match nth_error (ls_blocks s) i with
      | None => Next s
      | Some r =>
          match loop_step x0 i r s with
          | Next s' => loop x0 todo' (S i) s'
          | Failed j e => Failed j e
          end
      end
  end.

(* program.cc:394-404: the parameter blocks, compacted in place by a
   range-for over the same vector; [removed] collects user_state pointers *)
Fixpoint filter_params (k : marks) (todo i : nat) (blocks : list (pblock V))
    (active : nat) (removed : list nat) : list (pblock V) * nat * list nat :=
  match todo with
  | O => (blocks, active, removed)
  | S todo' =>
      match nth_error blocks i with
      | None => (blocks, active, removed)
      | Some p =>
          if negb (k (pb_id p)) then
            filter_params k todo' (S i) blocks active (removed ++ [pb_id p])
          else
            filter_params k todo' (S i) (set_nth blocks active p) (S active) removed
      end
  end.

Inductive reduced_result : Type :=
| Reduced (params : list (pblock V)) (residuals : list rblock) (fixed_cost : R)
          (removed : list nat) (events : list event)
| EvaluationFailed (i : nat) (events : list event)
| CeresBug.

(* program.cc:309-414  RemoveFixedBlocks (and 291-307, which copies the
   program first) *)
Definition remove_fixed_blocks (callback : bool) (params : list (pblock V))
    (residuals : list rblock) (x0 : assignment) : reduced_result :=
  let s0 := mkls residuals 0 (fun _ => false) 0%R callback [] in
  match loop x0 (length residuals) 0 s0 with
  | Failed i e => EvaluationFailed i e
  | Next s =>
      let rs := firstn (ls_active s) (ls_blocks s) in
      let '(ps, n, removed) := filter_params (ls_marks s) (length params) 0 params 0 [] in
      let ps' := firstn n ps in
      if negb (((length rs =? 0)%nat && (length ps' =? 0)%nat) ||
               (negb (length rs =? 0)%nat && negb (length ps' =? 0)%nat))
      then CeresBug
      else Reduced ps' rs (ls_fixed s) removed (ls_events s)
  end.

End Reduced.

Arguments mkrblock {V}.
Arguments rb_id {V}.
Arguments rb_params {V}.
Arguments rb_cost {V}.
Arguments mkls {V}.
Arguments ls_blocks {V}.
Arguments ls_active {V}.
Arguments ls_marks {V}.
Arguments ls_fixed {V}.
Arguments ls_need {V}.
Arguments ls_events {V}.
Arguments Next {V}.
Arguments Failed {V}.
Arguments scan_params {V}.
Arguments loop_step {V}.
Arguments loop {V}.
Arguments filter_params {V}.
Arguments Reduced {V}.
Arguments EvaluationFailed {V}.
Arguments CeresBug {V}.
Arguments remove_fixed_blocks {V}.
