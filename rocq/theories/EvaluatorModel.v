(* ProgramEvaluator::Evaluate, internal/ceres/program_evaluator.h:137-304, with
   the dense jacobian writer, internal/ceres/dense_jacobian_writer.h:72-101.

   Numbers are real numbers, so the order of additions does not matter and the
   final std::isfinite test (program_evaluator.h:286-292) always passes. *)

From Coq Require Import List Arith Bool Reals.
Import ListNotations.
Local Open Scope R_scope.

(* parameter_block.h: what the evaluator looks at *)
Record pref : Type := mkpref {
  pr_constant : bool;     (* IsConstant() *)
  pr_tangent : nat;       (* TangentSize() *)
  pr_offset : nat         (* delta_offset() *)
}.

(* a residual block; [bl_eval] is what ResidualBlock::Evaluate returns at the
   current state: None for false, else the cost, the residuals (row) and the
   jacobian entries (parameter, row, column).  See C41. *)
Record block : Type := mkblock {
  bl_num : nat;
  bl_params : list pref;
  bl_eval : option (R * (nat -> R) * (nat -> nat -> nat -> R))
}.

(* sum_{i < n} f i *)
Fixpoint sumn (n : nat) (f : nat -> R) : R :=
  match n with
  | O => 0
  | S n' => sumn n' f + f n'
  end.

(* program_evaluator.h:350-361  BuildResidualLayout *)
Fixpoint residual_layout (pos : nat) (bs : list block) : list nat :=
  match bs with
  | [] => []
  | b :: rest => pos :: residual_layout (pos + bl_num b) rest
  end.

(* program.cc:487-493  NumResiduals *)
Definition num_residuals (bs : list block) : nat :=
  fold_left (fun n b => (n + bl_num b)%nat) bs 0%nat.

Definition in_range (off n k : nat) : bool := (off <=? k)%nat && (k <? off + n)%nat.

(* the memory the threads work on; the first two are shared, the next two
   belong to one thread each (EvaluateScratch) *)
Record shared : Type := mkshared {
  sh_residuals : nat -> R;
  sh_jacobian : nat -> nat -> R;
  sh_cost : nat -> R;
  sh_gradient : nat -> nat -> R;
  sh_abort : bool;
  sh_skip : nat -> bool            (* what the body of block i read from abort *)
}.

(* residual_block->Evaluate writes the residuals of one block *)
Definition write_residuals (off num : nat) (r : nat -> R) (v : nat -> R) : nat -> R :=
  fun k => if in_range off num k then r (k - off)%nat else v k.

(* dense_jacobian_writer.h:72-101  Write: the parameter blocks from number j on *)
Fixpoint write_jacobian (off num j : nat) (ps : list pref)
    (jac : nat -> nat -> nat -> R) (M : nat -> nat -> R) : nat -> nat -> R :=
  match ps with
  | [] => M
  | p :: rest =>
      let M' :=
        if pr_constant p then M
        else fun r c =>
          if in_range off num r && in_range (pr_offset p) (pr_tangent p) c
          then jac j (r - off)%nat (c - pr_offset p)%nat
          else M r c in
      write_jacobian off num (S j) rest jac M'
  end.

(* program_evaluator.h:241-259: gradient += J_j^T r *)
Fixpoint add_gradient (num j : nat) (ps : list pref)
    (jac : nat -> nat -> nat -> R) (r : nat -> R) (g : nat -> R) : nat -> R :=
  match ps with
  | [] => g
  | p :: rest =>
      let g' :=
        if pr_constant p then g
        else fun c =>
          if in_range (pr_offset p) (pr_tangent p) c
          then g c + sumn num (fun i => jac j i (c - pr_offset p)%nat * r i)
          else g c in
      add_gradient num (S j) rest jac r g'
  end.

Definition set_at {A} (f : nat -> A) (t : nat) (x : A) : nat -> A :=
  fun t' => if Nat.eqb t t' then x else f t'.

(* which outputs were requested *)
Record request : Type := mkrequest {
  rq_residuals : bool; rq_gradient : bool; rq_jacobian : bool
}.

(* program_evaluator.h:194-260, the body for block i on thread t: [Check] is
   the test of the abort flag at its beginning, [Run] the rest.  Between the
   two, other threads may do anything.  The effects of Run are on memory no
   other running body touches, apart from the flag. *)
Inductive step : Type := Check (i : nat) | Run (i : nat).

Definition do_step (rq : request) (bs : list block) (layout : list nat)
    (thread : nat -> nat) (e : step) (s : shared) : shared :=
  match e with
  | Check i =>
      mkshared (sh_residuals s) (sh_jacobian s) (sh_cost s) (sh_gradient s)
               (sh_abort s) (set_at (sh_skip s) i (sh_abort s))
  | Run i =>
      if sh_skip s i then s
      else
        match nth_error bs i, nth_error layout i with
        | Some b, Some off =>
            match bl_eval b with
            | None =>
                mkshared (sh_residuals s) (sh_jacobian s) (sh_cost s) (sh_gradient s)
                         true (sh_skip s)
            | Some (c, r, jac) =>
                let t := thread i in
                mkshared
                  (if rq_residuals rq then write_residuals off (bl_num b) r (sh_residuals s)
                   else sh_residuals s)
                  (if rq_jacobian rq
                   then write_jacobian off (bl_num b) 0 (bl_params b) jac (sh_jacobian s)
                   else sh_jacobian s)
                  (set_at (sh_cost s) t (sh_cost s t + c))
                  (if rq_gradient rq
                   then set_at (sh_gradient s) t
                          (add_gradient (bl_num b) 0 (bl_params b) jac r (sh_gradient s t))
                   else sh_gradient s)
                  (sh_abort s) (sh_skip s)
            end
        | _, _ => s
        end
  end.

(* the caller's arrays *)
Record outputs : Type := mkout {
  o_cost : R;
  o_residuals : nat -> R;
  o_gradient : nat -> R;
  o_jacobian : nat -> nat -> R
}.

(* program_evaluator.h:266-284: cost and gradient summed over the threads *)
Definition sum_threads (threads : nat) (f : nat -> R) : R :=
  fold_left (fun a t => a + f t) (seq 0 threads) 0.

(* program_evaluator.h:137-304 after the state has been set (C43).  [old] are
   the contents of the caller's arrays; [num_params] the length of gradient *)
Definition evaluate (rq : request) (bs : list block) (num_params threads : nat)
    (thread : nat -> nat) (schedule : list step) (old : outputs) : bool * outputs :=
  let n := num_residuals bs in
  let s0 := mkshared
    (if rq_residuals rq then fun k => if (k <? n)%nat then 0 else o_residuals old k
     else o_residuals old)
    (if rq_jacobian rq then fun _ _ => 0 else o_jacobian old)
    (fun _ => 0) (fun _ _ => 0) false (fun _ => false) in
  let s := fold_left (fun s e => do_step rq bs (residual_layout 0 bs) thread e s)
             schedule s0 in
  if sh_abort s then
    (false, mkout (o_cost old) (sh_residuals s) (o_gradient old) (sh_jacobian s))
  else
    (true, mkout (sum_threads threads (sh_cost s)) (sh_residuals s)
             (if rq_gradient rq
              then fun c => if (c <? num_params)%nat
                            then sum_threads threads (fun t => sh_gradient s t c)
                            else o_gradient old c
              else o_gradient old)
             (sh_jacobian s)).
