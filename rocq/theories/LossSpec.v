(** Vocabulary for the statements about loss functions and the corrector. *)
Require Import Reals Lra.
From Coquelicot Require Import Coquelicot.
From Verif Require Import LossModel.
Open Scope R_scope.

(** out[1] and out[2] are the first and second derivative of out[0] at s *)
Definition true_derivatives (f : R -> rho3) (s : R) : Prop :=
  is_derive (fun t => rho0 (f t)) s (rho1 (f s)) /\ is_derive (fun t => rho1 (f t)) s (rho2 (f s)).

(** the scale parameters the constructors are documented for *)
Fixpoint loss_ok (l : loss) : Prop :=
  match l with
  | Trivial => True
  | Huber a | Arctan a => 0 < a
  | SoftLOne a | Cauchy a | Tukey a => a <> 0
  | Tolerant a b => 0 <= a /\ 0 < b
  | Custom _ => True
  | Composed f g => loss_ok f /\ loss_ok g
  | Scaled None _ => True
  | Scaled (Some r) _ => loss_ok r
  end.

(** s is not a branch point, and the slope is above the smallest normal double
    (so that the clamp of the slope is not active) *)
Fixpoint regular (l : loss) (s : R) : Prop :=
  match l with
  | Trivial => True
  | Huber a => s <> a * a /\ (a * a < s -> DBL_MINR < a / sqrt s)
  | SoftLOne a => 0 <= s /\ DBL_MINR < 1 / sqrt (1 + s / (a * a))
  | Cauchy a => 0 <= s /\ DBL_MINR < 1 / (1 + s / (a * a))
  | Arctan a => DBL_MINR < 1 / (1 + s * s / (a * a))
  | Tolerant a b => (s - a) / b <> 367 / 10 /\
      ((s - a) / b < 367 / 10 -> DBL_MINR < exp ((s - a) / b) / (1 + exp ((s - a) / b)))
  | Tukey a => True
  | Custom f => true_derivatives f s
  | Composed f g => regular g s /\ regular f (rho0 (loss_eval g s))
  | Scaled None _ => True
  | Scaled (Some r) _ => regular r s
  end.

(** the sum over k < n *)
Fixpoint sum_n_of (f : nat -> R) (n : nat) : R :=
  match n with O => 0 | S k => sum_n_of f k + f k end.

(** below the identity, slope in [0, 1], concave *)
Definition shape (s : R) (r : rho3) : Prop :=
  0 <= rho0 r <= s /\ 0 <= rho1 r <= 1 /\ rho2 r <= 0.

(** robust losses: the six documented ones, their compositions and scalings with a
    factor in [0, 1] *)
Fixpoint robust (l : loss) : Prop :=
  match l with
  | Trivial => True
  | Huber a | Arctan a => 0 < a
  | SoftLOne a | Cauchy a | Tukey a => a <> 0
  | Tolerant _ _ | Custom _ => False
  | Composed f g => robust f /\ robust g
  | Scaled None a => 0 <= a <= 1
  | Scaled (Some r) a => robust r /\ 0 <= a <= 1
  end.

(** robust losses without scaling *)
Fixpoint unscaled (l : loss) : Prop :=
  match l with
  | Composed f g => unscaled f /\ unscaled g
  | Scaled _ _ | Tolerant _ _ | Custom _ => False
  | _ => True
  end.

(** the derivatives the corrector can work with, and the conditions on scale
    factors and user losses under which all values are of that kind *)
Definition sane (r : rho3) : Prop := 0 <= rho1 r /\ (rho1 r = 0 -> rho2 r <= 0).
Fixpoint weights_ok (l : loss) : Prop :=
  match l with
  | Custom f => forall s, 0 <= s -> sane (f s)
  | Composed f g => weights_ok f /\ weights_ok g /\ (forall s, 0 <= s -> 0 <= rho0 (loss_eval g s))
  | Scaled None a => 0 <= a
  | Scaled (Some r) a => weights_ok r /\ 0 <= a
  | _ => True
  end.
