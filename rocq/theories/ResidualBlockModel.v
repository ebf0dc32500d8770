(** Evaluation of one residual block, with explicit memory.
    Source: internal/ceres/residual_block.cc 70-216, residual_block_utils.cc 46-62 and
    125-146, array_utils.cc 44-76.
    Simplified: a double is a real number or [NotFinite] (NaN and infinities); products and
    sums of finite numbers are real (no rounding, no overflow).  The caller's arrays are
    separate buffers.  The user's cost function is an oracle: for the current parameter
    values it says, for each requested array, which entries it writes and with what; it
    writes nothing else.  The loss function is a function from reals to reals. *)
Require Import List Reals Bool Arith.
From Verif Require Import LossModel.
Import ListNotations.
Open Scope R_scope.

(** a double *)
Inductive cell := Num (r : R) | NotFinite.
(** array_utils.h kImpossibleValue *)
Definition impossible : R := 10 ^ 302.
(** the number in a cell (only read after IsArrayValid succeeded) *)
Definition value (c : cell) : R := match c with Num r => r | NotFinite => 0 end.

(** the arrays passed to ResidualBlock::Evaluate: cost, residuals, jacobians[i], scratch *)
Inductive buffer := BCost | BResiduals | BJacobian (i : nat) | BScratch.
Definition buffer_eq_dec (a b : buffer) : {a = b} + {a <> b}.
Proof. decide equality. apply Nat.eq_dec. Defined.
Definition ptr : Type := (buffer * nat)%type.
Definition mem := buffer -> nat -> cell.
Definition read (m : mem) (p : ptr) (k : nat) : cell := m (fst p) (snd p + k)%nat.
(** for (k < n) if the oracle gives a value: p[k] = f(k) *)
Definition write (m : mem) (p : ptr) (n : nat) (f : nat -> option cell) : mem :=
  fun b j =>
    if buffer_eq_dec b (fst p) then
      if (snd p <=? j)%nat && (j <? snd p + n)%nat then
        match f (j - snd p)%nat with Some v => v | None => m b j end
      else m b j
    else m b j.

(** parameter_block.h: Size, TangentSize, PlusJacobian (row-major, None without manifold), state *)
Record pblock := mkPB { pb_size : nat; pb_tangent : nat; pb_plus : option (nat -> R); pb_state : nat -> R }.
(** what one call of CostFunction::Evaluate does *)
Record answer := mkAnswer { an_ok : bool; an_residuals : nat -> option cell; an_jacobians : nat -> nat -> option cell }.
(** the user's cost function: parameters, the requested jacobians (None: nullptr) *)
Definition cost_function := list (nat -> R) -> option (list bool) -> answer.
Record residual_block := mkRB { rb_cost : cost_function; rb_num : nat; rb_loss : option (R -> rho3); rb_params : list pblock }.

(** array_utils.cc:68-74 InvalidateArray *)
Definition invalidate_array (n : nat) (p : ptr) (m : mem) : mem := write m p n (fun _ => Some (Num impossible)).
(** array_utils.cc:44-53 IsArrayValid *)
Definition cell_valid (c : cell) : bool :=
  match c with NotFinite => false | Num r => if Req_EM_T r impossible then false else true end.
Definition array_valid (n : nat) (p : ptr) (m : mem) : bool := forallb (fun k => cell_valid (read m p k)) (seq 0 n).

(** a parameter block together with its entry of global_jacobians (None: nullptr) *)
Record slot := mkSlot { sl_i : nat; sl_pb : pblock; sl_global : option ptr }.
(** residual_block.cc:87-99: the pointers and the advanced scratch pointer *)
Fixpoint make_slots (nr i : nat) (pbs : list pblock) (want : list bool) (sc : nat) : list slot * nat :=
  match pbs, want with
  | p :: ps, w :: ws =>
      let '(g, sc') :=
        if w then match pb_plus p with
                  | Some _ => (Some (BScratch, sc), (sc + nr * pb_size p)%nat)
                  | None => (Some (BJacobian i, 0%nat), sc)
                  end
        else (None, sc) in
      let '(l, e) := make_slots nr (S i) ps ws sc' in (mkSlot i p g :: l, e)
  | _, _ => ([], sc)
  end.

(** residual_block_utils.cc:46-62 InvalidateEvaluation *)
Definition invalidate_evaluation (nr : nat) (rp : ptr) (slots : list slot) (m : mem) : mem :=
  fold_left (fun m s => match sl_global s with
                        | None => m | Some p => invalidate_array (nr * pb_size (sl_pb s)) p m end)
    slots (invalidate_array nr rp (invalidate_array 1 (BCost, 0%nat) m)).
(** the writes of cost_function_->Evaluate *)
Definition call (nr : nat) (rp : ptr) (slots : list slot) (a : answer) (m : mem) : mem :=
  fold_left (fun m s => match sl_global s with
                        | None => m | Some p => write m p (nr * pb_size (sl_pb s)) (an_jacobians a (sl_i s)) end)
    slots (write m rp nr (an_residuals a)).
(** residual_block_utils.cc:125-146 IsEvaluationValid *)
Definition evaluation_valid (nr : nat) (rp : ptr) (slots : list slot) (m : mem) : bool :=
  array_valid nr rp m &&
  forallb (fun s => match sl_global s with
                    | None => true | Some p => array_valid (nr * pb_size (sl_pb s)) p m end) slots.

(** squaredNorm() *)
Fixpoint squared_norm (n : nat) (p : ptr) (m : mem) : R :=
  match n with O => 0 | S k => squared_norm k p m + value (read m p k) * value (read m p k) end.
(** small_blas.h MatrixMatrixMultiply, C = A * B: entry k of A (nr x size) * B (size x tangent) *)
Fixpoint product_entry (tangent row col n : nat) (size : nat) (A B : nat -> R) : R :=
  match n with
  | O => 0
  | S k => product_entry tangent row col k size A B + A (row * size + k)%nat * B (k * tangent + col)%nat
  end.
Definition matrix_product (size tangent : nat) (A B : nat -> R) (k : nat) : R :=
  product_entry tangent (k / tangent) (k mod tangent) size size A B.
(** an array as numbers *)
Definition view (m : mem) (p : ptr) : nat -> R := fun k => value (read m p k).

(** residual_block.cc:133-156: project to the tangent space *)
Definition project_one (nr : nat) (m : mem) (s : slot) : mem :=
  match sl_global s with
  | None => m
  | Some p =>
      match pb_plus (sl_pb s) with
      | None => m
      | Some P =>
          let A := view m p in
          write m (BJacobian (sl_i s), 0%nat) (nr * pb_tangent (sl_pb s))
            (fun k => Some (Num (matrix_product (pb_size (sl_pb s)) (pb_tangent (sl_pb s)) A P k)))
      end
  end.
(** residual_block.cc:177-189: CorrectJacobian on jacobians[i] *)
Definition correct_one (c : corrector) (nr : nat) (rp : ptr) (m : mem) (s : slot) : mem :=
  match sl_global s with
  | None => m
  | Some _ =>
      let t := pb_tangent (sl_pb s) in
      let J := correct_jacobian c nr t (view m rp) (view m (BJacobian (sl_i s), 0%nat)) in
      write m (BJacobian (sl_i s), 0%nat) (nr * t) (fun k => Some (Num (J k)))
  end.

(** residual_block.cc:200-216 NumScratchDoublesForEvaluate *)
Definition num_scratch (b : residual_block) : nat :=
  fold_left (fun n p => match pb_plus p with Some _ => (n + pb_size p)%nat | None => n end) (rb_params b) 1%nat * rb_num b.

(** *cost = v *)
Definition set_cost (m : mem) (v : R) : mem := write m (BCost, 0%nat) 1 (fun _ => Some (Num v)).

(** residual_block.cc:70-198 Evaluate; [scratch]: the number of doubles the scratch pointer has.
    None: out of bounds access or a CHECK failure. *)
Definition evaluate (b : residual_block) (apply_loss want_residuals : bool) (jacobians : option (list bool))
    (scratch : nat) (m : mem) : option (bool * mem) :=
  let nr := rb_num b in
  let '(slots, sc) := match jacobians with None => ([], 0%nat) | Some w => make_slots nr 0 (rb_params b) w 0 end in
  let rp := if want_residuals then (BResiduals, 0%nat) else (BScratch, sc) in
  let needed := if want_residuals then sc else (sc + nr)%nat in
  if (scratch <? needed)%nat then None
  else
    let m := invalidate_evaluation nr rp slots m in
    let a := rb_cost b (map pb_state (rb_params b)) jacobians in
    let m := call nr rp slots a m in
    if negb (an_ok a) then Some (false, m)
    else if negb (evaluation_valid nr rp slots m) then Some (false, m)
    else
      let sq := squared_norm nr rp m in
      let m := fold_left (project_one nr) slots m in
      match (if apply_loss then rb_loss b else None) with
      | None => Some (true, set_cost m (1 / 2 * sq))
      | Some loss =>
          let rho := loss sq in
          let m := set_cost m (1 / 2 * rho0 rho) in
          match jacobians, want_residuals with
          | None, false => Some (true, m)
          | _, _ =>
              match corrector_new sq rho with
              | None => None
              | Some c =>
                  let m := fold_left (correct_one c nr rp) slots m in
                  let m := if want_residuals
                           then let r := correct_residuals c nr (view m rp) in
                                write m rp nr (fun k => Some (Num (r k)))
                           else m in
                  Some (true, m)
              end
          end
      end.
