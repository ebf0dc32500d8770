(* Inner iterations: internal/ceres/coordinate_descent_minimizer.cc,
   IsParameterBlockSetIndependent in program.cc:417-436.

   A parameter block is a number; its address, its user state and the
   ParameterBlock object are identified.  A residual block is the list of its
   parameter blocks.  The array [parameters] is a map from the offset at which a
   block starts to the values of the block. *)

From Coq Require Import Reals List Arith Bool.
Import ListNotations.

Definition vec : Type := list R.

(* parameter_block.h: the fields used.  [pb_state] is the pointer state_: into the
   array [parameters], or to other memory with these values (a vector of the inner
   minimizer; the user's array, for a block that is not in the program). *)
Inductive ptr : Type :=
| InParameters (offset : nat)
| Elsewhere (v : vec).
Record pblock : Type := mkpb {
  pb_constant : bool;
  pb_index : nat;
  pb_delta_offset : nat;
  pb_state_offset : nat;
  pb_state : ptr
}.

(* what the threads share *)
Record shared : Type := mkshared { sh_blocks : nat -> pblock; sh_params : nat -> vec }.
Definition put {A} (m : nat -> A) (i : nat) (v : A) : nat -> A := fun j => if Nat.eqb j i then v else m j.
Definition deref (params : nat -> vec) (p : ptr) : vec :=
  match p with InParameters o => params o | Elsewhere v => v end.

(* ---------------- IsOrderingValid, 219-240, and Init, 65-127 ---------------- *)

(* program.cc:417-436 *)
Definition count_in (set : list nat) (residual : list nat) : nat :=
  length (filter (fun b => if in_dec Nat.eq_dec b set then true else false) residual).
Definition IsParameterBlockSetIndependent (residuals : list (list nat)) (set : list nat) : bool :=
  forallb (fun r => negb (Nat.ltb 1 (count_in set r))) residuals.
(* the ordering: its groups in increasing order *)
Definition IsOrderingValid (residuals : list (list nat)) (groups : list (list nat)) : bool :=
  forallb (IsParameterBlockSetIndependent residuals) groups.

Record minimizer : Type := mkminimizer {
  m_blocks : list nat;               (* parameter_blocks_ *)
  m_offsets : list nat;              (* independent_set_offsets_ *)
  m_residuals : list (list nat)      (* residual_blocks_: indices into the program's list *)
}.

(* 77-91; [known]: the block is in the problem's parameter_map; otherwise end() is
   dereferenced, None *)
Fixpoint serialize (known : nat -> bool) (groups : list (list nat)) (blocks offsets : list nat)
  : option (list nat * list nat) :=
  match groups with
  | [] => Some (blocks, offsets)
  | g :: rest =>
      if forallb known g
      then serialize known rest (blocks ++ g) (offsets ++ [last offsets 0 + length g])
      else None
  end.
(* 96-103 *)
Definition add_others (member : nat -> bool) (program : list nat) (st : list nat * list nat) : list nat * list nat :=
  fold_left (fun st b => if member b then st
                         else (fst st ++ [b], snd st ++ [last (snd st) 0])) program st.
(* 107-119 *)
Definition residuals_of (residuals : list (list nat)) (b : nat) : list nat :=
  filter (fun k => if in_dec Nat.eq_dec b (nth k residuals []) then true else false) (seq 0 (length residuals)).
Definition Init (known : nat -> bool) (program : list nat) (residuals : list (list nat)) (groups : list (list nat))
  : option minimizer :=
  match serialize known groups [] [0] with
  | None => None
  | Some (blocks, offsets) =>
      let member b := if in_dec Nat.eq_dec b (concat groups) then true else false in
      let st := add_others member program (blocks, offsets) in
      Some (mkminimizer (fst st) (snd st) (map (residuals_of residuals) blocks))
  end.

(* ---------------- Solve for one block, 188-217 ---------------- *)

(* The inner trust region minimizer, as a machine: a step looks at the parameter
   blocks of the residual blocks it was given (whether they are constant, and the
   values they point to), continues with a new local state, points the state of its own
   parameter block to some values, possibly writes its part of [parameters],
   and possibly ends.  It is deterministic.  The linear solver object, one for each
   thread, carries no information from one use to the next. *)
Definition view : Type := list (bool * vec).
Record block_solver : Type := mksolver {
  bs_local : Type;
  bs_start : vec -> bs_local;
  bs_step : bs_local -> view -> bs_local * vec * option vec * bool
}.

Section Run.
Variable S : block_solver.
Variable residuals : list (list nat).

(* one call of the lambda, 147-180, between its steps *)
Inductive phase : Type :=
| Before
| Solving (old_index old_delta_offset old_state_offset : nat) (l : bs_local S)
| Restoring (old_index old_delta_offset old_state_offset : nat)
| Done.

(* the blocks the inner program of task b can see *)
Definition visible (rs : list nat) : list nat := concat (map (fun k => nth k residuals []) rs).
Definition look (sh : shared) (rs : list nat) : view :=
  map (fun c => (pb_constant (sh_blocks sh c), deref (sh_params sh) (pb_state (sh_blocks sh c)))) (visible rs).

(* the task of block b, whose residual blocks are rs, takes its next step *)
Definition task_step (b : nat) (rs : list nat) (sh : shared) (ph : phase) : shared * phase :=
  let p := sh_blocks sh b in
  match ph with
  | Before =>
      (mkshared (put (sh_blocks sh) b (mkpb false 0 0 0 (pb_state p))) (sh_params sh),
       Solving (pb_index p) (pb_delta_offset p) (pb_state_offset p)
               (bs_start S (sh_params sh (pb_state_offset p))))
  | Solving i d o l =>
      match bs_step S l (look sh rs) with
      | (l', v, w, fin) =>
          (mkshared (put (sh_blocks sh) b
                       (mkpb (pb_constant p) (pb_index p) (pb_delta_offset p) (pb_state_offset p) (Elsewhere v)))
                    (match w with Some y => put (sh_params sh) o y | None => sh_params sh end),
           if fin then Restoring i d o else Solving i d o l')
      end
  | Restoring i d o =>
      (mkshared (put (sh_blocks sh) b (mkpb true i d o (InParameters o))) (sh_params sh), Done)
  | Done => (sh, Done)
  end.

(* ParallelFor over [tasks] = positions in m_blocks: any interleaving of their
   steps; a task whose turn comes when it is done does nothing *)
Fixpoint interleave (m : minimizer) (schedule : list nat) (sh : shared) (ph : nat -> phase) : shared * (nat -> phase) :=
  match schedule with
  | [] => (sh, ph)
  | j :: rest =>
      match task_step (nth j (m_blocks m) 0) (nth j (m_residuals m) []) sh (ph j) with
      | (sh', p') => interleave m rest sh' (put ph j p')
      end
  end.

Definition is_done (p : phase) : bool := match p with Done => true | _ => false end.

(* 139-181 one independent set: positions from .. to-1.  None if the schedule names
   another task or leaves one unfinished *)
Definition run_set (m : minimizer) (from to : nat) (schedule : list nat) (sh : shared) : option shared :=
  if Nat.eqb (to - from) 0 then Some sh
  else if forallb (fun j => Nat.leb from j && Nat.ltb j to) schedule then
    let (sh', ph) := interleave m schedule sh (fun _ => Before) in
    if forallb (fun j => is_done (ph j)) (seq from (to - from)) then Some sh' else None
  else None.

Fixpoint run_sets (m : minimizer) (offsets : list nat) (schedules : list (list nat)) (sh : shared) : option shared :=
  match offsets with
  | from :: ((to :: _) as rest) =>
      match schedules with
      | [] => None
      | s :: ss =>
          match run_set m from to s sh with
          | Some sh' => run_sets m rest ss sh'
          | None => None
          end
      end
  | _ => Some sh
  end.

(* 129-185 Minimize *)
Definition set_state_constant (sh : shared) (b : nat) : shared :=
  let p := sh_blocks sh b in
  mkshared (put (sh_blocks sh) b
              (mkpb true (pb_index p) (pb_delta_offset p) (pb_state_offset p) (InParameters (pb_state_offset p))))
           (sh_params sh).
Definition set_varying (sh : shared) (b : nat) : shared :=
  let p := sh_blocks sh b in
  mkshared (put (sh_blocks sh) b
              (mkpb false (pb_index p) (pb_delta_offset p) (pb_state_offset p) (pb_state p)))
           (sh_params sh).
Definition Minimize (m : minimizer) (schedules : list (list nat)) (sh : shared) : option shared :=
  let sh1 := fold_left set_state_constant (m_blocks m) sh in
  match run_sets m (m_offsets m) schedules sh1 with
  | None => None
  | Some sh2 => Some (fold_left set_varying (m_blocks m) sh2)
  end.
End Run.
