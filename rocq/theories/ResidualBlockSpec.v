(** Vocabulary for the statements about evaluating a residual block. *)
Require Import List Reals Bool Arith.
From Verif Require Import LossModel LossSpec ResidualBlockModel.
Import ListNotations.
Open Scope R_scope.

(** jacobian i was asked for *)
Definition wanted (jacobians : option (list bool)) (i : nat) : Prop :=
  exists l, jacobians = Some l /\ nth_error l i = Some true.

(** the cost function succeeded, wrote every requested entry, and all of them are finite (and not the marker 1e302):
    the residuals are r and the jacobians J *)
Definition complete (nr : nat) (pbs : list pblock) (jacobians : option (list bool)) (a : answer)
    (r : nat -> R) (J : nat -> nat -> R) : Prop :=
  an_ok a = true /\
  (forall k, (k < nr)%nat -> an_residuals a k = Some (Num (r k)) /\ r k <> impossible) /\
  (forall i p k, wanted jacobians i -> nth_error pbs i = Some p -> (k < nr * pb_size p)%nat ->
     an_jacobians a i k = Some (Num (J i k)) /\ J i k <> impossible).

(** the size invariant of a parameter block without manifold *)
Definition pblock_ok (p : pblock) : Prop := pb_plus p = None -> pb_tangent p = pb_size p.

(** |r|^2 *)
Definition norm2 (nr : nat) (r : nat -> R) : R := sum_n_of (fun k => r k * r k) nr.
(** entry (row, col) of J * PlusJacobian *)
Definition tangent_entry (p : pblock) (J : nat -> R) (row col : nat) : R :=
  match pb_plus p with
  | None => J (row * pb_size p + col)%nat
  | Some P => sum_n_of (fun a => J (row * pb_size p + a)%nat * P (a * pb_tangent p + col)%nat) (pb_size p)
  end.

(** the loss that applies *)
Definition active_loss (b : residual_block) (apply_loss : bool) : option (R -> rho3) :=
  if apply_loss then rb_loss b else None.
Definition block_cost (loss : option (R -> rho3)) (s : R) : R :=
  match loss with None => 1 / 2 * s | Some f => 1 / 2 * rho0 (f s) end.

(** the clamped Triggs correction: alpha, and the corrected residuals and jacobians *)
Definition alpha (s : R) (rho : rho3) : R :=
  if Req_EM_T s 0 then 0 else if Rle_dec (rho2 rho) 0 then 0 else 1 - sqrt (1 + 2 * s * rho2 rho / rho1 rho).
Definition expected_residual (loss : option (R -> rho3)) (s rk : R) : R :=
  match loss with None => rk | Some f => sqrt (rho1 (f s)) / (1 - alpha s (f s)) * rk end.
Definition expected_jacobian (loss : option (R -> rho3)) (nr : nat) (r : nat -> R) (D : nat -> nat -> R) (row col : nat) : R :=
  match loss with
  | None => D row col
  | Some f => let s := norm2 nr r in
      sqrt (rho1 (f s)) * (D row col - alpha s (f s) / s * r row * sum_n_of (fun q => D q col * r q) nr)
  end.
(** the derivatives of the loss never make the correction abort *)
Definition loss_usable (loss : option (R -> rho3)) (s : R) : Prop :=
  match loss with None => True | Some f => sane (f s) end.

(** the memory locations a call may change besides cost and scratch *)
Definition requested (b : residual_block) (want_residuals : bool) (jacobians : option (list bool)) (bf : buffer) (j : nat) : Prop :=
  match bf with
  | BCost => j = 0%nat
  | BScratch => True
  | BResiduals => want_residuals = true /\ (j < rb_num b)%nat
  | BJacobian i => wanted jacobians i /\ exists p, nth_error (rb_params b) i = Some p /\
                   (j < rb_num b * pb_size p \/ j < rb_num b * pb_tangent p)%nat
  end.
Definition request_ok (b : residual_block) (jacobians : option (list bool)) : Prop :=
  forall l, jacobians = Some l -> length l = length (rb_params b).
