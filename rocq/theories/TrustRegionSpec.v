(** What the trust region theorems say, in terms of a solve's observable
    history only: the list of costs of the accepted points (starting point first),
    the list of iteration summaries, the calls of the evaluation callback. *)
Require Import List ZArith Bool.
From Verif Require Import Dbl.
Import ListNotations.

(** every cost is strictly below all earlier ones *)
Definition descending (h : list dbl) : Prop :=
  forall pre c post, h = pre ++ c :: post -> forall d, In d pre -> dlt c d = true.

(** every later cost is strictly below the first *)
Definition below_first (h : list dbl) : Prop :=
  forall c0 r, h = c0 :: r -> forall c, In c r -> dlt c c0 = true.

(** Once [w] accepted points in a row have failed to improve on the best cost
    [m] so far, every further accepted cost, until the next improvement, is below
    the largest cost seen since [m]. *)
Definition forced_descent (w : Z) (h : list dbl) : Prop :=
  forall pre m mid c post,
    h = pre ++ m :: mid ++ c :: post ->
    (forall d, In d pre -> dlt m d = true) ->
    (forall d, In d mid -> dlt d m = false) ->
    (w <= Z.of_nat (length mid))%Z ->
    exists d, In d (m :: mid) /\ dlt c d = true.

(** an evaluation announced as "same point as before" is preceded immediately by
    an evaluation of the same point *)
Definition same_point_honest {X} (t : list (X * bool)) : Prop :=
  forall pre x post, t = pre ++ (x, false) :: post -> exists pre' b, pre = pre' ++ [(x, b)].
