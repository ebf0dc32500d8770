(** Specification of the dogleg step, in terms of elementary vector algebra. *)
Require Import Reals List.
From Verif Require Import DoglegModel.
Import ListNotations.
Open Scope R_scope.

(** change of the linearised least squares cost ½|r + J s|² along s, where g = J'r *)
Definition model_change (J : list vec) (g s : vec) : R :=
  dot g s + (1 / 2) * dot (mulv J s) (mulv J s).

(** (J'J + D²) s = -g, tested against every vector *)
Definition normal_equations (J : list vec) (g D s : vec) : Prop :=
  forall v, length v = length s ->
    dot (mulv J s) (mulv J v) + dot (vmul D s) (vmul D v) = - dot g v.

(** p + t (q - p) *)
Definition on_segment (p q s : vec) : Prop :=
  exists t, 0 <= t <= 1 /\ s = vadd (scale (1 - t) p) (scale t q).

(** (B + y I) x = -g *)
Definition kkt (p : sub2) (y : R) (x : v2) : Prop :=
  fst (mulB p x) + y * fst x = - g0 p /\ snd (mulB p x) + y * snd x = - g1 p.

(** x minimises the two dimensional model in the disc of radius r *)
Definition minimises (r : R) (p : sub2) (x : v2) : Prop :=
  norm2 x <= r /\ forall z, norm2 z <= r -> sub_model p x <= sub_model p z.

(** B + y I is positive definite *)
Definition pos_def (p : sub2) (y : R) : Prop :=
  forall x : v2, x <> (0, 0) -> 0 < dot2 x (mulB p x) + y * dot2 x x.
