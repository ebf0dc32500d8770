(* Specification of C49. *)
From Coq Require Import Reals List Arith.
From Verif Require Import RotationModel.
Import ListNotations.
Open Scope R_scope.

(* 3-vectors and 3 x 3 matrices *)
Definition veq3 (a b : arr) : Prop := forall i, (i < 3)%nat -> a i = b i.
Definition meq3 (a b : mat) : Prop := forall i j, (i < 3)%nat -> (j < 3)%nat -> a i j = b i j.
Definition sum3 (f : nat -> R) : R := f 0%nat + f 1%nat + f 2%nat.
Definition mulm (a b : mat) : mat := fun i j => sum3 (fun k => a i k * b k j).
Definition mulv (a : mat) (p : arr) : arr := fun i => sum3 (fun k => a i k * p k).
Definition transpose (a : mat) : mat := fun i j => a j i.
Definition ident : mat := fun i j => if Nat.eqb i j then 1 else 0.
Definition scalem (c : R) (a : mat) : mat := fun i j => c * a i j.
Definition det3 (a : mat) : R :=
  a 0%nat 0%nat * (a 1%nat 1%nat * a 2%nat 2%nat - a 1%nat 2%nat * a 2%nat 1%nat)
  - a 0%nat 1%nat * (a 1%nat 0%nat * a 2%nat 2%nat - a 1%nat 2%nat * a 2%nat 0%nat)
  + a 0%nat 2%nat * (a 1%nat 0%nat * a 2%nat 1%nat - a 1%nat 1%nat * a 2%nat 0%nat).
Definition is_rotation (a : mat) : Prop := meq3 (mulm (transpose a) a) ident /\ det3 a = 1.

(* quaternions: w + x i + y j + z k with i i = j j = k k = i j k = -1 *)
Record quat : Type := mkq { qw : R; qx : R; qy : R; qz : R }.
Definition quat_of (o : order) (q : arr) : quat := mkq (q (kW o)) (q (kX o)) (q (kY o)) (q (kZ o)).
Definition qadd (a b : quat) : quat := mkq (qw a + qw b) (qx a + qx b) (qy a + qy b) (qz a + qz b).
Definition qscale (c : R) (a : quat) : quat := mkq (c * qw a) (c * qx a) (c * qy a) (c * qz a).
Definition qneg (a : quat) : quat := qscale (-1) a.
Definition qnorm2 (a : quat) : R := qw a * qw a + qx a * qx a + qy a * qy a + qz a * qz a.
Definition q1 := mkq 1 0 0 0.
Definition qi := mkq 0 1 0 0.
Definition qj := mkq 0 0 1 0.
Definition qk := mkq 0 0 0 1.
(* the product: bilinear, with 1 as unit and i i = j j = k k = -1, i j = k = - j i,
   j k = i = - k j, k i = j = - i k *)
Record is_quaternion_product (mul : quat -> quat -> quat) : Prop := {
  mul_add_l : forall a b c, mul (qadd a b) c = qadd (mul a c) (mul b c);
  mul_add_r : forall a b c, mul a (qadd b c) = qadd (mul a b) (mul a c);
  mul_scale_l : forall s a b, mul (qscale s a) b = qscale s (mul a b);
  mul_scale_r : forall s a b, mul a (qscale s b) = qscale s (mul a b);
  mul_1_l : forall a, mul q1 a = a;
  mul_1_r : forall a, mul a q1 = a;
  mul_ii : mul qi qi = qneg q1;
  mul_jj : mul qj qj = qneg q1;
  mul_kk : mul qk qk = qneg q1;
  mul_ij : mul qi qj = qk;
  mul_ji : mul qj qi = qneg qk;
  mul_jk : mul qj qk = qi;
  mul_kj : mul qk qj = qneg qi;
  mul_ki : mul qk qi = qj;
  mul_ik : mul qi qk = qneg qj
}.
Definition pure (p : arr) : quat := mkq 0 (p 0%nat) (p 1%nat) (p 2%nat).

(* the rotation by |a| about the axis a, right handed: the map f which is linear, keeps
   a, and turns every vector p perpendicular to a in the plane perpendicular to a:
   f(p) = cos|a| p + sin|a| (a/|a|) x p *)
Definition norm3 (a : arr) : R := sqrt (a 0%nat * a 0%nat + a 1%nat * a 1%nat + a 2%nat * a 2%nat).
Definition vadd (a b : arr) : arr := fun i => a i + b i.
Definition vscale (c : R) (a : arr) : arr := fun i => c * a i.
Definition perpendicular (a b : arr) : Prop := a 0%nat * b 0%nat + a 1%nat * b 1%nat + a 2%nat * b 2%nat = 0.
Definition cross (a b : arr) : arr := fun i => match i with
  | 0%nat => a 1%nat * b 2%nat - a 2%nat * b 1%nat
  | 1%nat => a 2%nat * b 0%nat - a 0%nat * b 2%nat
  | _ => a 0%nat * b 1%nat - a 1%nat * b 0%nat
  end.
Record rotates_about (a : arr) (f : arr -> arr) : Prop := {
  ra_add : forall p q, veq3 (f (vadd p q)) (vadd (f p) (f q));
  ra_scale : forall c p, veq3 (f (vscale c p)) (vscale c (f p));
  ra_axis : veq3 (f a) a;
  ra_perp : forall p, perpendicular a p ->
    exists s, s * norm3 a = sin (norm3 a) /\
      veq3 (f p) (vadd (vscale (cos (norm3 a)) p) (vscale s (cross a p)))
}.

(* rotations about the coordinate axes *)
Definition axis_rotation (axis : nat) (t : R) : mat :=
  match axis with
  | 0%nat => fun i j => nth j (nth i [[1; 0; 0]; [0; cos t; - sin t]; [0; sin t; cos t]] []) 0
  | 1%nat => fun i j => nth j (nth i [[cos t; 0; sin t]; [0; 1; 0]; [- sin t; 0; cos t]] []) 0
  | _ => fun i j => nth j (nth i [[cos t; - sin t; 0]; [sin t; cos t; 0]; [0; 0; 1]] []) 0
  end.
(* fixed axes: the first rotation is applied first; moving axes: last *)
Definition extrinsic (a b c : nat) (e : arr) : mat :=
  mulm (axis_rotation c (e 2%nat)) (mulm (axis_rotation b (e 1%nat)) (axis_rotation a (e 0%nat))).
Definition intrinsic (a b c : nat) (e : arr) : mat :=
  mulm (axis_rotation a (e 0%nat)) (mulm (axis_rotation b (e 1%nat)) (axis_rotation c (e 2%nat))).

(* what the 24 names of Euler angle conventions mean *)
Definition named_systems : list (EulerSystem * (arr -> mat)) := [
  (ExtrinsicXYZ, extrinsic 0 1 2);
  (ExtrinsicXYX, extrinsic 0 1 0);
  (ExtrinsicXZY, extrinsic 0 2 1);
  (ExtrinsicXZX, extrinsic 0 2 0);
  (ExtrinsicYZX, extrinsic 1 2 0);
  (ExtrinsicYZY, extrinsic 1 2 1);
  (ExtrinsicYXZ, extrinsic 1 0 2);
  (ExtrinsicYXY, extrinsic 1 0 1);
  (ExtrinsicZXY, extrinsic 2 0 1);
  (ExtrinsicZXZ, extrinsic 2 0 2);
  (ExtrinsicZYX, extrinsic 2 1 0);
  (ExtrinsicZYZ, extrinsic 2 1 2);
  (IntrinsicXYZ, intrinsic 0 1 2);
  (IntrinsicXYX, intrinsic 0 1 0);
  (IntrinsicXZY, intrinsic 0 2 1);
  (IntrinsicXZX, intrinsic 0 2 0);
  (IntrinsicYZX, intrinsic 1 2 0);
  (IntrinsicYZY, intrinsic 1 2 1);
  (IntrinsicYXZ, intrinsic 1 0 2);
  (IntrinsicYXY, intrinsic 1 0 1);
  (IntrinsicZXY, intrinsic 2 0 1);
  (IntrinsicZXZ, intrinsic 2 0 2);
  (IntrinsicZYX, intrinsic 2 1 0);
  (IntrinsicZYZ, intrinsic 2 1 2)
]%nat.
