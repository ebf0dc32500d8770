(** Vocabulary for the statements about the line searches. *)
Require Import List ZArith Bool.
From Verif Require Import Dbl DblArith LineSearchModel.
Import ListNotations.
Open Scope Z_scope.

(** 0 <= a (in particular not NaN) *)
Definition nonneg (a : dbl) : Prop := dle (Fin 0) a = true.

Section Spec.
Variable E : ls_env.
Variable Op : ls_options.
Variable position : pt E.
Variable direction : vec E.

(** the sample was produced by evaluating the cost (and, if [g], the gradient) at the point
    position + x * direction, and the cost there is finite *)
Definition evaluated (g : bool) (s : sample E) : Prop :=
  fs_value_valid E s = true /\
  exists y gr, plus E position (scale E (fs_x E s) direction) = Some y /\
    fs_vector_x E s = Some y /\
    eval E y g = Some (fs_value E s, gr) /\ is_fin (fs_value E s) = true /\
    (g = true -> fs_gradient E s = dot E direction gr /\
                 fs_gradient_valid E s = is_fin (dot E direction gr) /\
                 fs_vector_gradient E s = if is_fin (dot E direction gr) then Some gr else None) /\
    (g = false -> fs_vector_gradient E s = None).

(** the sample is the starting point of the search *)
Definition at_start (c0 g0 : dbl) (s : sample E) : Prop :=
  fs_x E s = Fin 0 /\ fs_vector_x E s = Some position /\ fs_value E s = c0 /\ fs_gradient E s = g0 /\
  fs_value_valid E s = true /\ fs_vector_gradient E s = None.

(** not (f(x) > f(0) + c1 f'(0) x), as computed *)
Definition sufficient_decrease (c0 g0 : dbl) (s : sample E) : Prop :=
  dlt (dadd c0 (dmul (dmul (lo_decrease Op) g0) (fs_x E s))) (fs_value E s) = false.
(** |f'(x)| <= -c2 f'(0), as computed *)
Definition strong_curvature (g0 : dbl) (s : sample E) : Prop :=
  dle (dabs (fs_gradient E s)) (dmul (dneg (lo_curvature Op)) g0) = true.

(** two of the points 0, x1, x2, ... are closer than min_step_size *)
Definition narrow_bracket (steps : list dbl) : Prop :=
  exists i j a b, i <> j /\ nth_error (Fin 0 :: steps) i = Some a /\ nth_error (Fin 0 :: steps) j = Some b /\
    dlt (dmul (dabs (dsub a b)) (inf_norm E direction)) (lo_min_step Op) = true.

(** every finite cost comes with a finite directional derivative *)
Definition finite_slopes : Prop :=
  forall y v gr, eval E y true = Some (v, gr) -> is_fin v = true -> is_fin (dot E direction gr) = true.

(** the cost is finite only at finite steps *)
Definition finite_steps_only : Prop :=
  forall x y g v gr, plus E position (scale E x direction) = Some y -> eval E y g = Some (v, gr) ->
    is_fin v = true -> is_fin x = true.

(** the polynomial minimizer stays in its interval *)
Definition poly_min_in : Prop :=
  forall l a b, dle a b = true -> dle a (poly_min E l a b) = true /\ dle (poly_min E l a b) b = true.

(** the polynomial minimizer never returns a negative step or NaN on an interval of non negative numbers *)
Definition poly_min_nonneg : Prop := forall l a b, nonneg a -> nonneg b -> nonneg (poly_min E l a b).

(** options the solver accepts *)
Record good_options : Prop := {
  go_maxc : dlt (Fin 0) (lo_max_contraction Op) = true /\ is_fin (lo_max_contraction Op) = true;
  go_minc : dlt (Fin 0) (lo_min_contraction Op) = true /\ is_fin (lo_min_contraction Op) = true;
  go_cc : dle (lo_max_contraction Op) (lo_min_contraction Op) = true;
  go_exp : dlt (Fin 0) (lo_expansion Op) = true /\ is_fin (lo_expansion Op) = true }.

(** each step is between max_step_contraction and min_step_contraction times the one before *)
Definition contracting (l : list dbl) : Prop :=
  forall l1 a b l2, l = l1 ++ a :: b :: l2 ->
    dle (dmul (lo_max_contraction Op) a) b = true /\ dle b (dmul (lo_min_contraction Op) a) = true.
End Spec.
