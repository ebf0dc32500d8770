(** What gradient checking is supposed to do, in terms of numbers, of the
    user's function, and of what a Problem answers. *)
Require Import ZArith List Bool Reals.
From Verif Require Import Dbl ProblemModel ProblemSpec GckModel.
Import ListNotations.

(** Two numbers agree to relative precision [p]; if one of them is zero, the
    absolute difference counts. *)
Definition agree (p x y : R) : Prop :=
  ((x = 0 \/ y = 0) /\ Rabs (x - y) < Rabs p \/
   x <> 0 /\ y <> 0 /\ Rabs (x - y) < Rabs p * Rmax (Rabs x) (Rabs y))%R.

(** [e] is the relative error between [x] and [y]. *)
Definition error_is (x y e : R) : Prop :=
  ((x = 0 \/ y = 0) /\ e = Rabs (x - y) \/
   x <> 0 /\ y <> 0 /\ e * Rmax (Rabs x) (Rabs y) = Rabs (x - y))%R.

Section Probe.
Context {X : Type}.

(** Sum of [f] over [0 .. n-1]. *)
Definition total (n : nat) (f : nat -> R) : R := fold_right Rplus 0%R (map f (seq 0 n)).

(** Entry [(i, j)] of the derivative of block [k] with respect to the tangent
    space, given the derivative [J] with respect to the coordinates. *)
Definition tangent_is (K : checker X) (x : X) (J : nat -> nat -> nat -> R) (k i j : nat) (d : R) : Prop :=
  match nth k (k_manifolds K) None with
  | None => d = J k i j
  | Some m => exists P, m_plus m x = Some P /\ d = total (m_ambient m) (fun l => J k i l * P l j)%R
  end.

(** An entry of a tangent space Jacobian: block, row, column. *)
Definition entry (K : checker X) (k i j : nat) : Prop :=
  (k < length (c_sizes (k_cost K)) /\ i < c_residuals (k_cost K) /\
   j < match nth k (k_manifolds K) None with Some m => m_tangent m | None => nth k (c_sizes (k_cost K)) 0 end)%nat.

(** The object is used as documented: there are residuals, manifolds have the
    size of their blocks and their Plus can be differentiated. *)
Definition usable_checker (K : checker X) (x : X) : Prop :=
  c_residuals (k_cost K) <> 0%nat /\
  forall k m, (k < length (c_sizes (k_cost K)))%nat -> nth k (k_manifolds K) None = Some m ->
    m_ambient m = nth k (c_sizes (k_cost K)) 0%nat /\ m_plus m x <> None.

(** The user's derivatives are right, as far as they can be told. *)
Definition derivatives_agree (K : checker X) (x : X) (p : R) (J J' : nat -> nat -> nat -> R) : Prop :=
  forall k i j, entry K k i j -> forall d d', tangent_is K x J k i j d -> tangent_is K x J' k i j d' -> agree p d d'.

(** The function without Jacobians. *)
Definition plain (K : checker X) (x : X) : option (nat -> R) := option_map fst (c_evaluate (k_cost K) x false).
End Probe.

(** ** The copy of a problem *)
Open Scope Z_scope.

(** The bound reported by the copy: the same, or both say "no bound". *)
Definition same_lower (y y' : dbl) : Prop := y' = y \/ (dle y DBL_LOWEST = true /\ y' = DBL_LOWEST).
Definition same_upper (y y' : dbl) : Prop := y' = y \/ (dle DBL_MAX y = true /\ y' = DBL_MAX).

(** Copy [s'] of [s]: the residual blocks of [s'] are [ids] and their cost
    functions [wraps] (address, wrapped cost function, manifolds given to the
    checker). *)
Record copied (mf_tan : Z -> Z) (s s' : problem) (ids : list Z) (wraps : list (Z * Z * list Z)) : Prop := mkCopied {
  cp_blocks : get_parameter_blocks s' = get_parameter_blocks s;
  (* the order in which the blocks enter the state vector *)
  cp_order : user_states (p_pvec s') s' = user_states (p_pvec s) s;
  cp_attr : forall v, In v (get_parameter_blocks s) ->
    get_size v s' = get_size v s /\ get_manifold v s' = get_manifold v s /\
    get_tangent_size mf_tan v s' = get_tangent_size mf_tan v s /\
    get_constant mf_tan v s' = get_constant mf_tan v s;
  cp_bounds : forall v n k, get_size v s = Ok n -> (Z.of_nat k < n) ->
    exists y y' z z', get_lower v k s = Ok y /\ get_lower v k s' = Ok y' /\ same_lower y y' /\
                      get_upper v k s = Ok z /\ get_upper v k s' = Ok z' /\ same_upper z z';
  cp_residuals : get_residual_blocks s' = ids;
  cp_lengths : length ids = length (get_residual_blocks s) /\ length wraps = length ids;
  (* the i-th residual block of the copy stands for the i-th of the original *)
  cp_same : forall i r id w c ms, nth_error (get_residual_blocks s) i = Some r ->
    nth_error ids i = Some id -> nth_error wraps i = Some (w, c, ms) ->
    exists l vs, get_residual r s = Ok (c, l, vs) /\ get_residual id s' = Ok (w, l, vs) /\
                 Forall2 (fun v m => get_manifold v s = Ok m) vs ms }.
