(* The parameter state of a Program and how Solver::Solve moves it around.

   internal/ceres/parameter_block.h, internal/ceres/program.cc,
   internal/ceres/solver.cc, internal/ceres/callbacks.cc,
   internal/ceres/preprocessor.cc.

   A ParameterBlock holds two pointers: user_state_, the array the user
   passed to Problem::AddParameterBlock, and state_, where the current value
   is to be found.  The model keeps the pointers explicit: the state of a
   block is an (array, offset) pair, an array may be freed, and reading or
   writing outside a live array has no result. *)

From Coq Require Import List Arith Bool Lia.
Import ListNotations.

Section Program.

(* the numbers stored in the arrays; nothing is assumed about them *)
Variable V : Type.

(* Arrays of doubles.  [User b] is the memory behind the b-th parameter
   block's user_state_ (blocks do not overlap: problem_impl.cc:171-222, see
   C05); [Vec k] is a state vector allocated by the library: 0 is
   PreprocessedProblem::reduced_parameters, 1 is the copy made in
   solver.cc:664, the rest belong to the minimizer. *)
Inductive array : Type := User (b : nat) | Vec (k : nat).

Definition array_eqb (a b : array) : bool :=
  match a, b with
  | User i, User j => Nat.eqb i j
  | Vec i, Vec j => Nat.eqb i j
  | _, _ => false
  end.

Definition ptr : Type := (array * nat)%type.

Definition ptr_eqb (p q : ptr) : bool :=
  array_eqb (fst p) (fst q) && Nat.eqb (snd p) (snd q).

(* None: not allocated, or freed *)
Definition mem : Type := array -> option (list V).

Definition upd (m : mem) (a : array) (x : option (list V)) : mem :=
  fun a' => if array_eqb a a' then x else m a'.

(* n consecutive doubles starting at p; None is an invalid read *)
Definition read (m : mem) (p : ptr) (n : nat) : option (list V) :=
  match m (fst p) with
  | None => None
  | Some l =>
      if (snd p + n <=? length l)%nat then Some (firstn n (skipn (snd p) l))
      else None
  end.

(* std::copy of the list v to p; None is an invalid write *)
Definition write (m : mem) (p : ptr) (v : list V) : option mem :=
  match m (fst p) with
  | None => None
  | Some l =>
      if (snd p + length v <=? length l)%nat then
        Some (upd m (fst p)
                (Some (firstn (snd p) l ++ v ++ skipn (snd p + length v) l)))
      else None
  end.

(* parameter_block.h:65-110: the fields of a ParameterBlock that do not change
   while solving.  [pb_id] identifies user_state_ ; [pb_pj] is the result
   (success) of Manifold::PlusJacobian at a point, taken to be a function of
   the point; [pb_plus] is ParameterBlock::Plus (parameter_block.h:230-264),
   None when it returns false. *)
Record pblock : Type := mkblock {
  pb_id : nat;
  pb_size : nat;
  pb_tangent : nat;
  pb_set_constant : bool;
  pb_has_manifold : bool;
  pb_pj : list V -> bool;
  pb_plus : list V -> list V -> option (list V)
}.

(* parameter_block.h:116  IsConstant *)
Definition is_constant (b : pblock) : bool :=
  pb_set_constant b || (pb_tangent b =? 0)%nat.

(* the mutable part: memory and the state_ pointer of every block *)
Record world : Type := mkworld {
  w_mem : mem;
  w_state : nat -> ptr
}.

Definition set_ptr (w : world) (b : nat) (p : ptr) : world :=
  mkworld (w_mem w) (fun c => if Nat.eqb b c then p else w_state w c).

(* parameter_block.h:316-334  UpdatePlusJacobian; only success is kept *)
Definition update_plus_jacobian (b : pblock) (w : world) : option bool :=
  if pb_has_manifold b then
    match read (w_mem w) (w_state w (pb_id b)) (pb_size b) with
    | None => None
    | Some x => Some (pb_pj b x)
    end
  else Some true.

(* parameter_block.h:91-99  SetState.  None: CHECK failure or invalid read *)
Definition set_state (b : pblock) (p : ptr) (w : world) : option (bool * world) :=
  if is_constant b then None
  else
    let w' := set_ptr w (pb_id b) p in
    match update_plus_jacobian b w' with
    | None => None
    | Some ok => Some (ok, w')
    end.

(* parameter_block.h:104-108  GetState (std::copy is modelled as reading the
   whole source first) *)
Definition get_state (b : pblock) (x : ptr) (w : world) : option world :=
  if ptr_eqb x (w_state w (pb_id b)) then Some w
  else
    match read (w_mem w) (w_state w (pb_id b)) (pb_size b) with
    | None => None
    | Some v =>
        match write (w_mem w) x v with
        | None => None
        | Some m => Some (mkworld m (w_state w))
        end
    end.

(* program.cc:82-90  StateVectorToParameterBlocks *)
Fixpoint state_vector_to_blocks (bs : list pblock) (p : ptr) (w : world)
  : option (bool * world) :=
  match bs with
  | [] => Some (true, w)
  | b :: rest =>
      let next := (fst p, (snd p + pb_size b)%nat) in
      if is_constant b then state_vector_to_blocks rest next w
      else
        match set_state b p w with
        | None => None
        | Some (false, w') => Some (false, w')
        | Some (true, w') => state_vector_to_blocks rest next w'
        end
  end.

(* program.cc:92-97  ParameterBlocksToStateVector *)
Fixpoint blocks_to_state_vector (bs : list pblock) (p : ptr) (w : world)
  : option world :=
  match bs with
  | [] => Some w
  | b :: rest =>
      match get_state b p w with
      | None => None
      | Some w' =>
          blocks_to_state_vector rest (fst p, (snd p + pb_size b)%nat) w'
      end
  end.

(* program.cc:99-103  CopyParameterBlockStateToUserState *)
Fixpoint copy_to_user (bs : list pblock) (w : world) : option world :=
  match bs with
  | [] => Some w
  | b :: rest =>
      match get_state b (User (pb_id b), 0%nat) w with
      | None => None
      | Some w' => copy_to_user rest w'
      end
  end.

(* program.cc:105-113  SetParameterBlockStatePtrsToUserStatePtrs *)
Fixpoint set_ptrs_to_user (bs : list pblock) (w : world) : option (bool * world) :=
  match bs with
  | [] => Some (true, w)
  | b :: rest =>
      if is_constant b then set_ptrs_to_user rest w
      else
        match set_state b (User (pb_id b), 0%nat) w with
        | None => None
        | Some (false, w') => Some (false, w')
        | Some (true, w') => set_ptrs_to_user rest w'
        end
  end.

(* program.cc:145-163  SetParameterOffsetsAndIndex: the (state_offset,
   delta_offset) of each block, in program order *)
Fixpoint offsets (s d : nat) (bs : list pblock) : list (nat * nat) :=
  match bs with
  | [] => []
  | b :: rest => (s, d) :: offsets (s + pb_size b) (d + pb_tangent b) rest
  end.

(* program.cc:165-197  IsValid, parameter part: [recorded] are the
   (index, state_offset, delta_offset) stored in the blocks *)
Fixpoint is_valid_from (i s d : nat) (bs : list pblock)
    (recorded : list (nat * (nat * nat))) : bool :=
  match bs, recorded with
  | [], [] => true
  | b :: rest, (ix, (so, dof)) :: more =>
      if negb (Nat.eqb ix i) || negb (Nat.eqb so s) || negb (Nat.eqb dof d)
      then false
      else is_valid_from (S i) (s + pb_size b) (d + pb_tangent b) rest more
  | _, _ => false
  end.

(* program.cc:495-509  NumParameters, NumEffectiveParameters *)
Definition num_parameters (bs : list pblock) : nat :=
  fold_left (fun n b => (n + pb_size b)%nat) bs 0%nat.
Definition num_effective_parameters (bs : list pblock) : nat :=
  fold_left (fun n b => (n + pb_tangent b)%nat) bs 0%nat.

(* program.cc:115-143  Plus.  ParallelFor runs the body once for every block,
   in an order and interleaving that is not determined; the bodies write
   disjoint ranges, so a schedule is the order in which the abort flag is
   read.  [order] lists (state_offset, delta_offset, block) in that order. *)
Fixpoint program_plus (order : list (nat * nat * pblock))
    (state delta out : ptr) (abort : bool) (m : mem) : option (bool * mem) :=
  match order with
  | [] => Some (negb abort, m)
  | (so, dof, b) :: rest =>
      if abort then program_plus rest state delta out abort m
      else
        match read m (fst state, (snd state + so)%nat) (pb_size b),
              read m (fst delta, (snd delta + dof)%nat) (pb_tangent b) with
        | Some x, Some d =>
            match pb_plus b x d with
            | None => program_plus rest state delta out true m
            | Some y =>
                match write m (fst out, (snd out + so)%nat) y with
                | None => None
                | Some m' => program_plus rest state delta out abort m'
                end
            end
        | _, _ => None
        end
  end.

(* What a Minimizer does with the parameter state while it runs.  The
   minimizer only reaches the parameter blocks through these; everything else
   it does is arithmetic on its own vectors.  Vec 1 is out of its reach. *)
Inductive op : Type :=
(* a vector is (re)allocated or assigned: trust_region_minimizer.cc,
   line_search_minimizer.cc, line_search.cc; [OStore 0] writes the result
   array the minimizer was given *)
| OStore (k : nat) (v : list V)
(* a vector of the minimizer goes out of scope, e.g. the samples of
   line_search.cc *)
| OFree (k : nat)
(* Evaluator::Evaluate (program_evaluator.h:143-160): the state pointers are
   set and, if there is an EvaluationCallback, copied to the user *)
| OEvaluate (k : nat)
(* StateUpdatingCallback (callbacks.cc:49-54), called with
   reduced_parameters (preprocessor.cc:99-105) *)
| OUpdateUser
(* one block of an inner iteration: SetState on a range of a vector
   (coordinate_descent_minimizer.cc:136,189-190 and, inside Solve, the
   evaluator of the one-block program) *)
| OInner (b : pblock) (k off : nat).

Definition run_op (cb : bool) (bs : list pblock) (o : op) (w : world)
  : option world :=
  match o with
  | OStore k v =>
      if (k =? 1)%nat then Some w
      else Some (mkworld (upd (w_mem w) (Vec k) (Some v)) (w_state w))
  | OFree k =>
      if (k <=? 1)%nat then Some w
      else Some (mkworld (upd (w_mem w) (Vec k) None) (w_state w))
  | OEvaluate k =>
      match state_vector_to_blocks bs (Vec k, 0%nat) w with
      | None => None
      | Some (false, w') => Some w'
      | Some (true, w') => if cb then copy_to_user bs w' else Some w'
      end
  | OUpdateUser =>
      match state_vector_to_blocks bs (Vec 0, 0%nat) w with
      | None => None
      | Some (_, w') => copy_to_user bs w'
      end
  | OInner b k off =>
      match set_state b (Vec k, off) w with
      | None => None
      | Some (_, w') => Some w'
      end
  end.

Fixpoint run_ops (cb : bool) (bs : list pblock) (os : list op) (w : world)
  : option world :=
  match os with
  | [] => Some w
  | o :: rest =>
      match run_op cb bs o w with
      | None => None
      | Some w' => run_ops cb bs rest w'
      end
  end.

(* preprocessor.cc:76-85  SetupCommonMinimizerOptions: reduced_parameters is
   resized (to unspecified values [fill]) and filled from the blocks *)
Definition extract_parameters (bs : list pblock) (fill : V) (w : world)
  : option world :=
  blocks_to_state_vector bs (Vec 0, 0%nat)
    (mkworld (upd (w_mem w) (Vec 0) (Some (repeat fill (num_parameters bs))))
             (w_state w)).

(* solver.cc:646-673  Minimize.  [os] and [usable] are what the minimizer did
   and reported; the result of StateVectorToParameterBlocks is ignored
   there too. *)
Definition minimize (cb : bool) (bs : list pblock) (os : list op) (usable : bool)
    (w : world) : option world :=
  match bs with
  | [] => Some w
  | _ =>
      let w1 := mkworld (upd (w_mem w) (Vec 1) (w_mem w (Vec 0))) (w_state w) in
      match run_ops cb bs os w1 with
      | None => None
      | Some w2 =>
          match state_vector_to_blocks bs
                  (Vec (if usable then 0 else 1), 0%nat) w2 with
          | None => None
          | Some (_, w3) => copy_to_user bs w3
          end
      end
  end.

(* everything the library allocated is released: original_reduced_parameters
   and the minimizer when Minimize returns, reduced_parameters when
   Solver::Solve returns *)
Definition free_all (m : mem) : mem :=
  fun a => match a with User _ => m a | Vec _ => None end.

(* solver.cc:736-841  Solver::Solve as far as the parameter state is
   concerned.  [problem] is the problem's program in its order; [reduced] is
   the preprocessed program (program.cc:314-331 and the reordering), or None
   if preprocessing failed.  Results of SetParameterBlockStatePtrsToUserStatePtrs
   are ignored (solver.cc:784, 840). *)
Definition solve (cb : bool) (problem : list pblock)
    (reduced : option (list pblock)) (fill : V) (os : list op) (usable : bool)
    (w : world) : option world :=
  match set_ptrs_to_user problem w with
  | None => None
  | Some (_, w1) =>
      let w2 :=
        match reduced with
        | None => Some w1
        | Some bs =>
            match extract_parameters bs fill w1 with
            | None => None
            | Some w' => minimize cb bs os usable w'
            end
        end in
      match w2 with
      | None => None
      | Some w3 =>
          match set_ptrs_to_user problem w3 with
          | None => None
          | Some (_, w4) => Some (mkworld (free_all (w_mem w4)) (w_state w4))
          end
      end
  end.

End Program.

Arguments upd {V}.
Arguments read {V}.
Arguments write {V}.
Arguments mkblock {V}.
Arguments pb_id {V}.
Arguments pb_size {V}.
Arguments pb_tangent {V}.
Arguments pb_set_constant {V}.
Arguments pb_has_manifold {V}.
Arguments pb_pj {V}.
Arguments pb_plus {V}.
Arguments is_constant {V}.
Arguments mkworld {V}.
Arguments w_mem {V}.
Arguments w_state {V}.
Arguments set_ptr {V}.
Arguments update_plus_jacobian {V}.
Arguments set_state {V}.
Arguments get_state {V}.
Arguments state_vector_to_blocks {V}.
Arguments blocks_to_state_vector {V}.
Arguments copy_to_user {V}.
Arguments set_ptrs_to_user {V}.
Arguments offsets {V}.
Arguments is_valid_from {V}.
Arguments num_parameters {V}.
Arguments num_effective_parameters {V}.
Arguments program_plus {V}.
Arguments OStore {V}.
Arguments OFree {V}.
Arguments OEvaluate {V}.
Arguments OUpdateUser {V}.
Arguments OInner {V}.
Arguments run_op {V}.
Arguments run_ops {V}.
Arguments extract_parameters {V}.
Arguments minimize {V}.
Arguments free_all {V}.
Arguments solve {V}.
