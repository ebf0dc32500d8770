(* What the state vector functions and Solver::Solve are expected to do to the
   parameter values, in terms of the blocks' values only. *)

From Coq Require Import List Arith Bool.
From Verif Require Import ProgramStateModel.
Import ListNotations.

Section Spec.
Variable V : Type.

(* two arrays are the same except for the entries in a list of arrays *)
Definition same_except (changed : list array) (m m' : mem V) : Prop :=
  forall a, ~ In a changed -> m' a = m a.

(* the current value of a block: what its state pointer points at *)
Definition value (w : world V) (b : pblock V) : option (list V) :=
  read (w_mem w) (w_state w (pb_id b)) (pb_size b).

(* the value in the user's array *)
Definition user_value (w : world V) (b : pblock V) : option (list V) :=
  w_mem w (User (pb_id b)).

(* blocks of one program: distinct user arrays *)
Definition distinct (bs : list (pblock V)) : Prop := NoDup (map (pb_id) bs).

(* vs are values for the blocks bs, one each, of the right sizes *)
Definition sized (bs : list (pblock V)) (vs : list (list V)) : Prop :=
  Forall2 (fun b v => length v = pb_size b) bs vs.

(* the manifold accepts the value *)
Definition acceptable (b : pblock V) (v : list V) : Prop :=
  is_constant b = false -> pb_has_manifold b = true -> pb_pj b v = true.

(* variable blocks take the new value, constant ones keep the old one *)
Definition assigned (b : pblock V) (old new : list V) : list V :=
  if is_constant b then old else new.

(* a block whose state pointer is the user's array, which has the block's size *)
Definition at_user (w : world V) (b : pblock V) : Prop :=
  w_state w (pb_id b) = (User (pb_id b), 0) /\
  exists v, user_value w b = Some v /\ length v = pb_size b.

(* number of entries of the blocks in front of block number i *)
Definition entries_before (f : pblock V -> nat) (bs : list (pblock V)) (i : nat) : nat :=
  list_sum (map f (firstn i bs)).

(* the minimizer only touches blocks of its program *)
Definition op_in (bs : list (pblock V)) (o : op V) : Prop :=
  match o with OInner b _ _ => In b bs | _ => True end.

(* a pointer into memory that is still there, with room for the block *)
Definition valid_state (w : world V) (b : pblock V) : Prop :=
  exists v, value w b = Some v.

(* When may the minimizer perform an operation: the vectors it hands to the
   evaluator are alive and have the right length, and it only publishes
   (StateUpdatingCallback) points that every manifold accepts. *)
Definition op_allowed (bs : list (pblock V)) (o : op V) (w : world V) : Prop :=
  match o with
  | OStore _ _ => True
  | OFree _ => True
  | OEvaluate k =>
      exists vs, w_mem w (Vec k) = Some (concat vs) /\ sized bs vs
  | OUpdateUser =>
      exists vs, w_mem w (Vec 0) = Some (concat vs) /\ sized bs vs /\
                 Forall2 acceptable bs vs
  | OInner b k off =>
      In b bs /\ is_constant b = false /\
      exists v, w_mem w (Vec k) = Some v /\ off + pb_size b <= length v
  end.

Fixpoint ops_allowed (cb : bool) (bs : list (pblock V)) (os : list (op V))
    (w : world V) : Prop :=
  match os with
  | [] => True
  | o :: rest =>
      op_allowed bs o w /\
      forall w', run_op cb bs o w = Some w' -> ops_allowed cb bs rest w'
  end.

End Spec.
Arguments same_except {V}.
Arguments value {V}.
Arguments user_value {V}.
Arguments distinct {V}.
Arguments sized {V}.
Arguments acceptable {V}.
Arguments assigned {V}.
Arguments at_user {V}.
Arguments entries_before {V}.
Arguments op_in {V}.
Arguments valid_state {V}.
Arguments op_allowed {V}.
Arguments ops_allowed {V}.

(* Before and after a solve: distinct blocks, every block's state pointer is
   the user's array, and that array has the block's size. *)
Definition ready {V} (problem : list (pblock V)) (w : world V) : Prop :=
  distinct problem /\ forall b, In b problem -> at_user w b.

(* every manifold accepts the values the user supplied *)
Definition user_acceptable {V} (bs : list (pblock V)) (w : world V) : Prop :=
  forall b v, In b bs -> user_value w b = Some v -> acceptable b v.

(* the reduced program: some of the problem's blocks, in any order *)
Definition part_of {V} (bs problem : list (pblock V)) : Prop :=
  distinct bs /\ incl bs problem.

(* the situation in which the minimizer starts *)
Definition minimizer_start {V} (problem bs : list (pblock V)) (fill : V)
    (w w1 : world V) : Prop :=
  exists ok wa wb,
    set_ptrs_to_user problem w = Some (ok, wa) /\
    extract_parameters bs fill wa = Some wb /\
    w1 = mkworld (upd (w_mem wb) (Vec 1) (w_mem wb (Vec 0))) (w_state wb).

(* vs is what the minimizer leaves in the array it was given *)
Definition minimizer_result {V} (cb : bool) (problem bs : list (pblock V)) (fill : V)
    (os : list (op V)) (w : world V) (vs : list (list V)) : Prop :=
  forall w1 w2, minimizer_start problem bs fill w w1 ->
    run_ops cb bs os w1 = Some w2 ->
    w_mem w2 (Vec 0) = Some (concat vs) /\ sized bs vs /\ Forall2 acceptable bs vs.

(* x + delta block by block; None if some block's Plus fails *)
Fixpoint all_plus {V} (bs : list (pblock V)) (xs ds : list (list V))
  : option (list (list V)) :=
  match bs, xs, ds with
  | b :: bs', x :: xs', d :: ds' =>
      match pb_plus b x d, all_plus bs' xs' ds' with
      | Some y, Some ys => Some (y :: ys)
      | _, _ => None
      end
  | _, _, _ => Some []
  end.

(* Plus yields a value of the block's size *)
Definition plus_sized {V} (b : pblock V) : Prop :=
  forall x d y, pb_plus b x d = Some y -> length y = pb_size b.

(* the values after writing vs into blocks that had the values us *)
Fixpoint assigned_all {V} (bs : list (pblock V)) (us vs : list (list V)) : list (list V) :=
  match bs, us, vs with
  | b :: bs', u :: us', v :: vs' => assigned b u v :: assigned_all bs' us' vs'
  | _, _, _ => []
  end.
