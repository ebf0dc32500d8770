(** Problem::Evaluate and Problem::EvaluateResidualBlock.
    Source: internal/ceres/problem_impl.cc 586-787, program.cc 74-135, 160-180,
    parameter_block.h 85-116, program_evaluator.h 137-160.

    Real numbers.  A parameter block is named by its position in the problem.  The part of
    ProgramEvaluator::Evaluate that runs the residual blocks on several threads is EvaluatorModel.v
    (with a dense matrix; C66 relates it to the compressed row matrix that is used here).  The
    evaluation of one residual block is an arbitrary function of the states and of the stored
    Jacobians of the manifolds (C41).  Residual blocks that are not in the problem, null pointers and
    changes of manifolds are not modelled. *)
From Coq Require Import List Arith Bool Reals.
From Verif Require Import EvaluatorModel.
Import ListNotations.

Definition values := list R.
Definition jac := nat -> nat -> R.

(** parameter_block.h: sizes and manifold; without manifold [plus_jacobian] is the identity (it is
    not read then) *)
Record pblock := mkPB { Size : nat; TangentSize : nat; plus_jacobian : values -> option jac }.
(** residual_block.h: number of residuals, parameter blocks, Evaluate (residual_block.cc): loss
    function or not, the states of the parameter blocks, for every requested jacobian the Jacobian of the manifold *)
Record rblock := mkRB {
  NumResiduals : nat; args : list nat;
  rb_evaluate : bool -> list values -> list (option jac) -> option (R * (nat -> R) * (nat -> nat -> nat -> R)) }.
Record problem := mkProblem { pblocks : list pblock; rblocks : list rblock; evaluation_callback : bool }.

(** where state_ points: the user's array, the vector of the running evaluation, or freed memory *)
Inductive ptr := UserState | InVector (off : nat) | Dangling.
(** parameter_block.h 300-345: the members that change *)
Record bstate := mkBS {
  user_state : values; is_set_constant : bool; state_ : ptr;
  stored : option jac;             (* plus_jacobian_; None: invalidated *)
  delta_offset : nat }.
(** the problem's blocks and the calls of PrepareForEvaluation (jacobians, new point) *)
Record pstate := mkPS { block : nat -> bstate; calls : list (bool * bool) }.

Definition upd {A} (f : nat -> A) (b : nat) (x : A) : nat -> A := fun c => if Nat.eqb c b then x else f c.

Section Model.
Variable Pb : problem.
Definition pb (b : nat) : pblock := nth b (pblocks Pb) (mkPB 0 0 (fun _ => None)).
Notation states := (nat -> bstate).

(** parameter_block.h 116 *)
Definition IsConstant (s : states) (b : nat) : bool := is_set_constant (s b) || (TangentSize (pb b) =? 0).
(** 114-115 *)
Definition set_constant (c : bool) (s : states) (b : nat) : states :=
  upd s b (mkBS (user_state (s b)) c (state_ (s b)) (stored (s b)) (delta_offset (s b))).

(** what state_ points to; [v]: the vector of the running evaluation.  None: freed memory is read *)
Definition at_ptr (v : values) (s : states) (b : nat) (p : ptr) : option values :=
  match p with
  | UserState => Some (user_state (s b))
  | InVector off => Some (firstn (Size (pb b)) (skipn off v))
  | Dangling => None
  end.
Definition state (v : values) (s : states) (b : nat) : option values := at_ptr v s b (state_ (s b)).

(** 86-95 SetState and 257-292 UpdatePlusJacobian; the CHECKs hold where it is called *)
Definition SetState (v : values) (p : ptr) (s : states) (b : nat) : bool * states :=
  let j := match at_ptr v s b p with Some x => plus_jacobian (pb b) x | None => None end in
  (match j with Some _ => true | None => false end,
   upd s b (mkBS (user_state (s b)) (is_set_constant (s b)) p j (delta_offset (s b)))).

(** program.cc 104-113 *)
Fixpoint SetParameterBlockStatePtrsToUserStatePtrs (bs : list nat) (s : states) : bool * states :=
  match bs with
  | [] => (true, s)
  | b :: rest =>
      if IsConstant s b then SetParameterBlockStatePtrsToUserStatePtrs rest s
      else let '(ok, s') := SetState [] UserState s b in
           if ok then SetParameterBlockStatePtrsToUserStatePtrs rest s' else (false, s')
  end.
(** 80-89 *)
Fixpoint StateVectorToParameterBlocks (v : values) (off : nat) (bs : list nat) (s : states) : bool * states :=
  match bs with
  | [] => (true, s)
  | b :: rest =>
      if IsConstant s b then StateVectorToParameterBlocks v (off + Size (pb b)) rest s
      else let '(ok, s') := SetState v (InVector off) s b in
           if ok then StateVectorToParameterBlocks v (off + Size (pb b)) rest s' else (false, s')
  end.
(** 91-96 *)
Fixpoint ParameterBlocksToStateVector (bs : list nat) (s : states) : option values :=
  match bs with
  | [] => Some []
  | b :: rest =>
      match state [] s b, ParameterBlocksToStateVector rest s with
      | Some x, Some r => Some (x ++ r)
      | _, _ => None
      end
  end.
(** 98-102 *)
Fixpoint CopyParameterBlockStateToUserState (v : values) (bs : list nat) (s : states) : option states :=
  match bs with
  | [] => Some s
  | b :: rest =>
      match state v s b with
      | Some x => CopyParameterBlockStateToUserState v rest
                    (upd s b (mkBS x (is_set_constant (s b)) (state_ (s b)) (stored (s b)) (delta_offset (s b))))
      | None => None
      end
  end.
(** 160-180, without index_ and state_offset_ *)
Fixpoint SetParameterOffsets (off : nat) (bs : list nat) (s : states) : states :=
  match bs with
  | [] => s
  | b :: rest =>
      SetParameterOffsets (off + TangentSize (pb b)) rest
        (upd s b (mkBS (user_state (s b)) (is_set_constant (s b)) (state_ (s b)) (stored (s b)) off))
  end.
Definition NumEffectiveParameters (bs : list nat) : nat := fold_left (fun n b => (n + TangentSize (pb b))%nat) bs 0%nat.

(** residual_block.cc 63-100: the states and the Jacobians of the manifolds of the requested jacobians; None: freed
    memory is read *)
Fixpoint arguments (v : values) (s : states) (as_ : list nat) : option (list values) :=
  match as_ with
  | [] => Some []
  | a :: rest => match state v s a, arguments v s rest with Some x, Some r => Some (x :: r) | _, _ => None end
  end.
Definition requested (jacobians : bool) (s : states) (a : nat) : option jac :=
  if jacobians && negb (IsConstant s a) then stored (s a) else None.
(** the residual block as the evaluator sees it *)
Definition run_block (v : values) (s : states) (loss jacobians : bool) (rb : rblock) : option EvaluatorModel.block :=
  match arguments v s (args rb) with
  | None => None
  | Some xs =>
      Some (mkblock (NumResiduals rb)
              (map (fun a => mkpref (IsConstant s a) (TangentSize (pb a)) (delta_offset (s a))) (args rb))
              (rb_evaluate rb loss xs (map (requested jacobians s) (args rb))))
  end.
Fixpoint run_blocks (v : values) (s : states) (loss jacobians : bool) (rbs : list rblock) : option (list EvaluatorModel.block) :=
  match rbs with
  | [] => Some []
  | rb :: rest =>
      match run_block v s loss jacobians rb, run_blocks v s loss jacobians rest with
      | Some x, Some r => Some (x :: r)
      | _, _ => None
      end
  end.

(** the vector of the evaluation is freed *)
Definition free (s : states) : states :=
  fun b => mkBS (user_state (s b)) (is_set_constant (s b))
             (match state_ (s b) with InVector _ => Dangling | p => p end) (stored (s b)) (delta_offset (s b)).

(** problem.h EvaluateOptions; the outputs that are asked for *)
Record eoptions := mkEO { parameter_blocks : list nat; residual_blocks : list nat; apply_loss_function : bool }.
Record wanted := mkWant { want_cost : bool; want : request }.
(** Aborted: LOG(FATAL) or CHECK; Undefined: freed memory is read.  The caller's arrays are given for
    success only; after a failure the cost and the jacobian are as before, the others are not determined *)
Inductive outcome (A : Type) := Aborted | Undefined | Returned (ok : option A) (s : pstate).
Arguments Aborted {A}. Arguments Undefined {A}. Arguments Returned {A}.

Definition all_blocks : list nat := seq 0 (length (pblocks Pb)).
Definition the_rblocks (o : eoptions) : list rblock :=
  match residual_blocks o with
  | [] => rblocks Pb
  | l => map (fun i => nth i (rblocks Pb) (mkRB 0 [] (fun _ _ _ => None))) l
  end.

(** program_evaluator.h 137-304 ProgramEvaluator::Evaluate on the program with parameter blocks [bs]; new_evaluation_point
    has its default value, true.  None: freed memory is read *)
Definition ProgramEvaluate (bs : list nat) (rbs : list rblock) (loss : bool) (w : request) (v : values)
  (threads : nat) (thread : nat -> nat) (schedule : list step) (old : outputs) (ps : pstate) : option (bool * outputs * pstate) :=
  let '(ok, s) := StateVectorToParameterBlocks v 0 bs (block ps) in
  if negb ok then Some (false, old, mkPS s (calls ps))
  else
    let jacobians := rq_gradient w || rq_jacobian w in
    match (if evaluation_callback Pb then CopyParameterBlockStateToUserState v bs s else Some s) with
    | None => None
    | Some s =>
        let c := if evaluation_callback Pb then calls ps ++ [(jacobians, true)] else calls ps in
        match run_blocks v s loss jacobians rbs with
        | None => None
        | Some blocks =>
            let '(ok, out) := evaluate w blocks (NumEffectiveParameters bs) threads thread schedule old in
            Some (ok, out, mkPS s c)
        end
    end.

(** problem_impl.cc 586-748 *)
Definition Evaluate (o : eoptions) (w : wanted) (threads : nat) (thread : nat -> nat) (schedule : list step) (old : outputs) (ps : pstate)
  : outcome outputs :=
  if negb (want_cost w || rq_residuals (want w) || rq_gradient (want w) || rq_jacobian (want w)) then Returned (Some old) ps
  else
    let all_given := match parameter_blocks o with [] => true | _ => false end in
    (* 609-614, 619-628 *)
    if negb (forallb (fun b => b <? length (pblocks Pb)) (parameter_blocks o)) then Aborted
    else
      let bs := if all_given then all_blocks else parameter_blocks o in
      (* 643-661 *)
      let variable := if all_given then []
                      else filter (fun b => negb (existsb (Nat.eqb b) bs) && negb (IsConstant (block ps) b)) all_blocks in
      let s := fold_left (set_constant true) variable (block ps) in
      (* 667, 706-717 *)
      let s := SetParameterOffsets 0 bs s in
      let s := snd (SetParameterBlockStatePtrsToUserStatePtrs bs s) in
      match ParameterBlocksToStateVector bs s with
      | None => Undefined
      | Some v =>
          (* 724-730 *)
          match ProgramEvaluate bs (the_rblocks o) (apply_loss_function o) (want w) v threads thread schedule old (mkPS s (calls ps)) with
          | None => Undefined
          | Some (ok, out, ps') =>
              (* 732-746; the vector is freed at the end of the function *)
              let s := fold_left (set_constant false) variable (block ps') in
              let s := snd (SetParameterBlockStatePtrsToUserStatePtrs all_blocks s) in
              let s := SetParameterOffsets 0 all_blocks s in
              Returned (if ok then Some (mkout (if want_cost w then o_cost out else o_cost old) (o_residuals out) (o_gradient out) (o_jacobian out))
                        else None)
                (mkPS (free s) (calls ps'))
          end
      end.

(** problem_impl.cc 764-778: None = the CHECK fails, Some (false, _) = a jacobian of a constant block is asked for *)
Fixpoint SetStates (jacobians : list bool) (as_ : list nat) (s : states) : option (bool * states) :=
  match as_ with
  | [] => Some (true, s)
  | a :: rest =>
      if IsConstant s a then
        if hd false jacobians then Some (false, s) else SetStates (tl jacobians) rest s
      else
        let '(ok, s') := SetState [] UserState s a in
        if ok then SetStates (tl jacobians) rest s' else None
  end.

(** problem_impl.cc 750-787; [jacobians]: None = nullptr, else which jacobians are asked for *)
Definition EvaluateResidualBlock (rb : rblock) (loss new_point : bool) (jacobians : option (list bool)) (ps : pstate)
  : outcome (R * (nat -> R) * (nat -> nat -> nat -> R)) :=
  let c := if evaluation_callback Pb then calls ps ++ [(match jacobians with Some _ => true | None => false end, new_point)] else calls ps in
  let js := match jacobians with Some l => l | None => [] end in
  match SetStates js (args rb) (block ps) with
  | None => Aborted
  | Some (false, s) => Returned None (mkPS s c)
  | Some (true, s) =>
      match arguments [] s (args rb) with
      | None => Undefined
      | Some xs =>
          Returned (rb_evaluate rb loss xs
            (map (fun ja => if fst ja : bool then stored (s (snd ja)) else None) (combine (js ++ repeat false (length (args rb))) (args rb))))
            (mkPS s c)
      end
  end.

(** what a user does with a problem *)
Inductive op :=
| Write (b : nat) (x : values)                    (* writes to their array *)
| SetParameterBlockConstant (b : nat)
| SetParameterBlockVariable (b : nat)
| CallEvaluate (o : eoptions) (w : wanted) (threads : nat) (thread : nat -> nat) (schedule : list step) (old : outputs)
| CallEvaluateResidualBlock (rb : rblock) (loss new_point : bool) (jacobians : option (list bool)).
Definition do_op (ps : pstate) (a : op) : option pstate :=
  match a with
  | Write b x => Some (mkPS (upd (block ps) b (mkBS x (is_set_constant (block ps b)) (state_ (block ps b)) (stored (block ps b)) (delta_offset (block ps b)))) (calls ps))
  | SetParameterBlockConstant b => Some (mkPS (set_constant true (block ps) b) (calls ps))
  | SetParameterBlockVariable b => Some (mkPS (set_constant false (block ps) b) (calls ps))
  | CallEvaluate o w threads thread schedule old =>
      match Evaluate o w threads thread schedule old ps with Returned _ ps' => Some ps' | _ => None end
  | CallEvaluateResidualBlock rb loss np js =>
      match EvaluateResidualBlock rb loss np js ps with Returned _ ps' => Some ps' | _ => None end
  end.
Fixpoint run (ops : list op) (ps : pstate) : option pstate :=
  match ops with
  | [] => Some ps
  | a :: rest => match do_op ps a with Some ps' => run rest ps' | None => None end
  end.
End Model.
Arguments Aborted {A}. Arguments Undefined {A}. Arguments Returned {A}.

(** problem_impl.cc: blocks just added, with their user arrays *)
Definition fresh (users : nat -> values) : pstate := mkPS (fun b => mkBS (users b) false UserState None 0) [].
