(** Vocabulary for the statements about quasi Newton directions. *)
Require Import List Reals Bool Arith.
From Verif Require Import QuasiNewtonModel.
Import ListNotations.
Open Scope R_scope.

(** equal / non zero in the first n entries *)
Definition veq (n : nat) (u v : vec) : Prop := forall i, (i < n)%nat -> u i = v i.
Definition nonzero (n : nat) (v : vec) : Prop := exists i, (i < n)%nat /\ v i <> 0.

(** the textbook BFGS update of an inverse Hessian H (Nocedal and Wright, 6.17):
    (I - rho s y') H (I - rho y s') + rho s s', rho = 1 / (s'y), as an operator on vectors *)
Definition bfgs_step (n : nat) (s y : vec) (H : vec -> vec) (v : vec) : vec :=
  let rho := 1 / dot n s y in
  let r := H (fun i => v i - rho * dot n s v * y i) in
  fun i => r i - rho * dot n y r * s i + rho * dot n s v * s i.

(** gamma I updated by the pairs (s, y), oldest first *)
Definition bfgs_op (n : nat) (gamma : R) (pairs : list (vec * vec)) : vec -> vec :=
  fold_left (fun H p => bfgs_step n (fst p) (snd p) H) pairs (fun v i => gamma * v i).

(** pairs that meet the curvature condition, and the last m of a list *)
Definition curved (n : nat) (p : vec * vec) : bool := if Rle_dec (dot n (fst p) (snd p)) secant_tolerance then false else true.
Definition lastn {A} (m : nat) (l : list A) : list A := skipn (length l - m) l.

(** linear, symmetric, positive definite *)
Record spd (n : nat) (H : vec -> vec) : Prop := {
  spd_add : forall u v i, H (fun j => u j + v j) i = H u i + H v i;
  spd_mul : forall c v i, H (fun j => c * v j) i = c * H v i;
  spd_sym : forall u v, dot n u (H v) = dot n (H u) v;
  spd_pos : forall v, nonzero n v -> 0 < dot n v (H v) }.

(** s'y / y'y *)
Definition eigenvalue_scale (n : nat) (p : vec * vec) : R := dot n (fst p) (snd p) / dot n (snd p) (snd p).

(** the step and the change of gradient between two states *)
Definition pair_of (previous current : ls_state) : vec * vec :=
  (fun i => s_step previous * s_direction previous i, fun i => s_gradient current i - s_gradient previous i).

(** an L-BFGS (BFGS) direction after any number of successful calls, with the pairs it was offered *)
Inductive lbfgs_reach (n m : nat) (scaling : bool) : lbfgs -> list (vec * vec) -> Prop :=
| lb_start : forall junk, lbfgs_reach n m scaling (mkLB (lr_new n m scaling junk) true) []
| lb_call : forall o l junk previous current o' d,
    lbfgs_reach n m scaling o l -> lbfgs_next o junk previous current = Some (o', d, true) ->
    lbfgs_reach n m scaling o' (l ++ [pair_of previous current]).
Inductive bfgs_reach (n : nat) (scaling : bool) : bfgs -> list (vec * vec) -> Prop :=
| bf_start : bfgs_reach n scaling (bfgs_new n scaling) []
| bf_call : forall o l previous current o' d,
    bfgs_reach n scaling o l -> bfgs_next o previous current = Some (o', d, true) ->
    bfgs_reach n scaling o' (l ++ [pair_of previous current]).

(** initial scalings: L-BFGS uses the newest accepted pair, BFGS the first one *)
Definition lbfgs_gamma (n : nat) (scaling : bool) (accepted : list (vec * vec)) : R :=
  match scaling, rev accepted with true, p :: _ => eigenvalue_scale n p | _, _ => 1 end.
Definition bfgs_gamma (n : nat) (scaling : bool) (accepted : list (vec * vec)) : R :=
  match scaling, accepted with true, p :: _ => eigenvalue_scale n p | _, _ => 1 end.
