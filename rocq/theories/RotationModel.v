(* Rotations: include/ceres/rotation.h, include/ceres/internal/euler_angles.h.

   double is modelled by R; std::fpclassify(t) != FP_ZERO by t <> 0; constants::pi
   by PI.  An array (T* p) is a function from indices to values; an output array is
   the function with the values stored, 0 where nothing is stored. *)

From Coq Require Import Reals List Arith Bool.
Import ListNotations.
Open Scope R_scope.

Definition arr : Type := nat -> R.
Definition mat : Type := nat -> nat -> R.
Definition upd (a : arr) (i : nat) (v : R) : arr := fun j => if Nat.eqb j i then v else a j.
Definition zeros : arr := fun _ => 0.
Definition arr3 (a b c : R) : arr := upd (upd (upd zeros 0%nat a) 1%nat b) 2%nat c.

(* std::hypot with three and two arguments, std::atan2, std::copysign(1, x); signed zeros are not modelled *)
Definition hypot3 (a b c : R) : R := sqrt (a * a + b * b + c * c).
Definition hypot2 (a b : R) : R := sqrt (a * a + b * b).
Definition atan2 (y x : R) : R :=
  if Rlt_dec 0 x then atan (y / x)
  else if Rlt_dec x 0 then
    if Rle_dec 0 y then atan (y / x) + PI else atan (y / x) - PI
  else if Rlt_dec 0 y then PI / 2
  else if Rlt_dec y 0 then - (PI / 2) else 0.
Definition sign_of (x : R) : R := if Rlt_dec x 0 then -1 else 1.

(* rotation.h:85-98 *)
Inductive order : Type := CeresQuaternionOrder | EigenQuaternionOrder.
Definition kW (o : order) : nat := match o with CeresQuaternionOrder => 0 | EigenQuaternionOrder => 3 end.
Definition kX (o : order) : nat := match o with CeresQuaternionOrder => 1 | EigenQuaternionOrder => 0 end.
Definition kY (o : order) : nat := match o with CeresQuaternionOrder => 2 | EigenQuaternionOrder => 1 end.
Definition kZ (o : order) : nat := match o with CeresQuaternionOrder => 3 | EigenQuaternionOrder => 2 end.

(* rotation.h:101-116 MakeQuaternion, and four stores quaternion[Order::kW] = w, ... *)
Definition MakeQuaternion (o : order) (w x y z : R) : arr :=
  upd (upd (upd (upd zeros (kW o) w) (kX o) x) (kY o) y) (kZ o) z.
(* 118-132 ConvertQuaternion *)
Definition ConvertQuaternion (to from : order) (q : arr) : arr :=
  MakeQuaternion to (q (kW from)) (q (kX from)) (q (kY from)) (q (kZ from)).

(* 360-377 MatrixAdapter: reading and writing an array of 9 entries *)
Definition ColumnMajorAdapter3x3 (p : arr) : mat := fun r c => p (r * 1 + c * 3)%nat.
Definition RowMajorAdapter3x3 (p : arr) : mat := fun r c => p (r * 3 + c * 1)%nat.
Definition cells : list (nat * nat) := [(0,0);(0,1);(0,2);(1,0);(1,1);(1,2);(2,0);(2,1);(2,2)]%nat.
Definition write_column_major (m : mat) : arr :=
  fold_left (fun a rc => upd a (fst rc * 1 + snd rc * 3)%nat (m (fst rc) (snd rc))) cells zeros.
Definition write_row_major (m : mat) : arr :=
  fold_left (fun a rc => upd a (fst rc * 3 + snd rc * 1)%nat (m (fst rc) (snd rc))) cells zeros.
(* nine assignments R(r, c) = ... *)
Definition mat3 (a00 a01 a02 a10 a11 a12 a20 a21 a22 : R) : mat :=
  fun r c => match r, c with
    | 0, 0 => a00 | 0, 1 => a01 | 0, 2 => a02
    | 1, 0 => a10 | 1, 1 => a11 | 1, 2 => a12
    | 2, 0 => a20 | 2, 1 => a21 | 2, 2 => a22
    | _, _ => 0%R end%nat.

(* 379-407 *)
Definition AngleAxisToQuaternion (o : order) (angle_axis : arr) : arr :=
  let a0 := angle_axis 0%nat in let a1 := angle_axis 1%nat in let a2 := angle_axis 2%nat in
  let theta := hypot3 a0 a1 a2 in
  if Req_EM_T theta 0 then
    let k := 0.5 in MakeQuaternion o 1 (a0 * k) (a1 * k) (a2 * k)
  else
    let half_theta := theta * 0.5 in
    let k := sin half_theta / theta in
    MakeQuaternion o (cos half_theta) (a0 * k) (a1 * k) (a2 * k).

(* 409-452 *)
Definition QuaternionToAngleAxis (o : order) (quaternion : arr) : arr :=
  let q1 := quaternion (kX o) in let q2 := quaternion (kY o) in let q3 := quaternion (kZ o) in
  let sin_theta := hypot3 q1 q2 q3 in
  let k :=
    if Req_EM_T sin_theta 0 then 2
    else
      let cos_theta := quaternion (kW o) in
      let sign := sign_of cos_theta in
      let two_theta := 2 * atan2 (sign * sin_theta) (sign * cos_theta) in
      two_theta / sin_theta in
  arr3 (q1 * k) (q2 * k) (q3 * k).

(* 460-491; None: an entry of R or of the quaternion out of bounds is used *)
Definition get (m : mat) (i j : nat) : option R :=
  if (Nat.ltb i 3 && Nat.ltb j 3)%bool then Some (m i j) else None.
Definition RotationMatrixToQuaternion (o : order) (m : mat) : option arr :=
  let trace := m 0%nat 0%nat + m 1%nat 1%nat + m 2%nat 2%nat in
  if Rle_dec 0 trace then
    let t := sqrt (trace + 1) in
    let w := 0.5 * t in
    let t := 0.5 / t in
    Some (MakeQuaternion o w ((m 2%nat 1%nat - m 1%nat 2%nat) * t) ((m 0%nat 2%nat - m 2%nat 0%nat) * t) ((m 1%nat 0%nat - m 0%nat 1%nat) * t))
  else
    let i := kW o in
    let i := if Rlt_dec (m 0%nat 0%nat) (m 1%nat 1%nat) then kX o else i in
    match get m i i with
    | None => None
    | Some mii =>
        let i := if Rlt_dec mii (m 2%nat 2%nat) then kY o else i in
        let j := ((i + 1) mod 3)%nat in
        let k := ((j + 1) mod 3)%nat in
        match get m i i with
        | None => None
        | Some mii =>
            let t := sqrt (mii - m j j - m k k + 1) in
            let q := upd zeros (i + 1)%nat (0.5 * t) in
            let t := 0.5 / t in
            let q := upd q (kW o) ((m k j - m j k) * t) in
            let q := upd q (j + 1)%nat ((m j i + m i j) * t) in
            Some (upd q (k + 1)%nat ((m k i + m i k) * t))
        end
    end.
(* 454-457 *)
Definition RotationMatrixToQuaternion_pointer (o : order) (p : arr) : option arr :=
  RotationMatrixToQuaternion o (ColumnMajorAdapter3x3 p).

(* 498-510 *)
Definition RotationMatrixToAngleAxis (m : mat) : option arr :=
  match RotationMatrixToQuaternion CeresQuaternionOrder m with
  | None => None
  | Some q => Some (QuaternionToAngleAxis CeresQuaternionOrder q)
  end.
Definition RotationMatrixToAngleAxis_pointer (p : arr) : option arr :=
  RotationMatrixToAngleAxis (ColumnMajorAdapter3x3 p).

(* 517-558 *)
Definition AngleAxisToRotationMatrix (angle_axis : arr) : mat :=
  let a0 := angle_axis 0%nat in let a1 := angle_axis 1%nat in let a2 := angle_axis 2%nat in
  let theta := hypot3 a0 a1 a2 in
  if Req_EM_T theta 0 then
    mat3 1 (- a2) a1
         a2 1 (- a0)
         (- a1) a0 1
  else
    let wx := a0 / theta in let wy := a1 / theta in let wz := a2 / theta in
    let costheta := cos theta in let sintheta := sin theta in
    mat3 (costheta + wx*wx*(1 - costheta)) (wx*wy*(1 - costheta) - wz*sintheta) (wy*sintheta + wx*wz*(1 - costheta))
         (wz*sintheta + wx*wy*(1 - costheta)) (costheta + wy*wy*(1 - costheta)) (- wx*sintheta + wy*wz*(1 - costheta))
         (- wy*sintheta + wx*wz*(1 - costheta)) (wx*sintheta + wy*wz*(1 - costheta)) (costheta + wz*wz*(1 - costheta)).
(* 512-515 *)
Definition AngleAxisToRotationMatrix_pointer (angle_axis : arr) : arr :=
  write_column_major (AngleAxisToRotationMatrix angle_axis).

(* euler_angles.h:75-94 *)
Record EulerSystem : Type := mkEulerSystem {
  InnerAxis : nat;
  kIsParityOdd : bool;
  kIsProperEuler : bool;
  kIsIntrinsic : bool
}.
Definition kAxes (s : EulerSystem) : nat * nat * nat :=
  let odd := if kIsParityOdd s then 1%nat else 0%nat in
  (InnerAxis s, (InnerAxis s + 1 + odd) mod 3, (InnerAxis s + 2 - odd) mod 3)%nat.

(* R(a, b) = v for the nine positions of the axes i, j, k *)
Definition mat_axes (i j k : nat) (ii ij ik ji jj jk ki kj kk : R) : mat :=
  let set m r c v := fun r' c' => if (Nat.eqb r' r && Nat.eqb c' c)%bool then v else (m : mat) r' c' in
  set (set (set (set (set (set (set (set (set (fun _ _ => 0)
    i i ii) i j ij) i k ik) j i ji) j j jj) j k jk) k i ki) k j kj) k k kk.

(* rotation.h:565-618 *)
Definition EulerAnglesToRotation (s : EulerSystem) (euler : arr) : mat :=
  let '(i, j, k) := kAxes s in
  let ea1 := euler 1%nat in
  let ea0 := if kIsIntrinsic s then euler 2%nat else euler 0%nat in
  let ea2 := if kIsIntrinsic s then euler 0%nat else euler 2%nat in
  let neg x := if kIsParityOdd s then - x else x in
  let ea0 := neg ea0 in let ea1 := neg ea1 in let ea2 := neg ea2 in
  let ci := cos ea0 in let cj := cos ea1 in let ch := cos ea2 in
  let si := sin ea0 in let sj := sin ea1 in let sh := sin ea2 in
  let cc := ci * ch in let cs := ci * sh in let sc := si * ch in let ss := si * sh in
  if kIsProperEuler s then
    mat_axes i j k
      cj        (sj * si)          (sj * ci)
      (sj * sh) (- cj * ss + cc)   (- cj * cs - sc)
      (- sj * ch) (cj * sc + cs)   (cj * cc - ss)
  else
    mat_axes i j k
      (cj * ch) (sj * sc - cs)     (sj * cc + ss)
      (cj * sh) (sj * ss + cc)     (sj * cs - sc)
      (- sj)    (cj * si)          (cj * ci).
(* 560-563 *)
Definition EulerAnglesToRotation_pointer (s : EulerSystem) (euler : arr) : arr :=
  write_row_major (EulerAnglesToRotation s euler).

(* 626-693 *)
Definition RotationMatrixToEulerAngles (s : EulerSystem) (m : mat) : arr :=
  let '(i, j, k) := kAxes s in
  let '(ea0, ea1, ea2) :=
    if kIsProperEuler s then
      let sy := hypot2 (m i j) (m i k) in
      if Req_EM_T sy 0 then (atan2 (- m j k) (m j j), atan2 sy (m i i), 0)
      else (atan2 (m i j) (m i k), atan2 sy (m i i), atan2 (m j i) (- m k i))
    else
      let cy := hypot2 (m i i) (m j i) in
      if Req_EM_T cy 0 then (atan2 (- m j k) (m j j), atan2 (- m k i) cy, 0)
      else (atan2 (m k j) (m k k), atan2 (- m k i) cy, atan2 (m j i) (m i i)) in
  let neg x := if kIsParityOdd s then - x else x in
  let ea0 := neg ea0 in let ea1 := neg ea1 in let ea2 := neg ea2 in
  let e1 := ea1 in
  let e0 := if kIsIntrinsic s then ea2 else ea0 in
  let e2 := if kIsIntrinsic s then ea0 else ea2 in
  if kIsProperEuler s then
    let kPi := PI in let kTwoPi := 2 * kPi in
    let turn := if Rlt_dec e1 0 then true else if Rlt_dec kPi ea1 then true else false in
    let e0' := if turn then e0 + kPi else e0 in
    let e1' := if turn then - e1 else e1 in
    let e2' := if turn then e2 - kPi else e2 in
    let wrap x := if Rlt_dec x (- kPi) then x + kTwoPi else if Rlt_dec kPi x then x - kTwoPi else x in
    arr3 (wrap e0') (wrap e1') (wrap e2')
  else arr3 e0 e1 e2.
(* 621-624 *)
Definition RotationMatrixToEulerAngles_pointer (s : EulerSystem) (p : arr) : arr :=
  RotationMatrixToEulerAngles s (RowMajorAdapter3x3 p).

(* 702-730 *)
Definition EulerAnglesToRotationMatrix (euler : arr) : mat :=
  let degrees_to_radians := PI / 180 in
  let pitch := euler 0%nat * degrees_to_radians in
  let roll := euler 1%nat * degrees_to_radians in
  let yaw := euler 2%nat * degrees_to_radians in
  let c1 := cos yaw in let s1 := sin yaw in
  let c2 := cos roll in let s2 := sin roll in
  let c3 := cos pitch in let s3 := sin pitch in
  mat3 (c1 * c2) (- s1 * c3 + c1 * s2 * s3) (s1 * s3 + c1 * s2 * c3)
       (s1 * c2) (c1 * c3 + s1 * s2 * s3)   (- c1 * s3 + s1 * s2 * c3)
       (- s2)    (c2 * s3)                  (c2 * c3).
(* 695-700: row_stride_parameter is not used *)
Definition EulerAnglesToRotationMatrix_pointer (euler : arr) (row_stride_parameter : nat) : arr :=
  write_row_major (EulerAnglesToRotationMatrix euler).

(* 737-763 *)
Definition QuaternionToScaledRotation (o : order) (q : arr) : mat :=
  let a := q (kW o) in let b := q (kX o) in let c := q (kY o) in let d := q (kZ o) in
  let aa := a * a in let ab := a * b in let ac := a * c in let ad := a * d in
  let bb := b * b in let bc := b * c in let bd := b * d in
  let cc := c * c in let cd := c * d in let dd := d * d in
  mat3 (aa + bb - cc - dd) (2 * (bc - ad))     (2 * (ac + bd))
       (2 * (ad + bc))     (aa - bb + cc - dd) (2 * (cd - ab))
       (2 * (bd - ac))     (2 * (ab + cd))     (aa - bb - cc + dd).
Definition QuaternionToScaledRotation_pointer (o : order) (q : arr) : arr :=
  write_row_major (QuaternionToScaledRotation o q).

(* 770-784 *)
Definition QuaternionToRotation (o : order) (q : arr) : mat :=
  let m := QuaternionToScaledRotation o q in
  let normalizer := q (kW o) * q (kW o) + q (kX o) * q (kX o) + q (kY o) * q (kY o) + q (kZ o) * q (kZ o) in
  let normalizer := 1 / normalizer in
  fun i j => m i j * normalizer.
Definition QuaternionToRotation_pointer (o : order) (q : arr) : arr :=
  write_row_major (QuaternionToRotation o q).

(* 786-806 *)
Definition UnitQuaternionRotatePoint (o : order) (q pt : arr) : arr :=
  let uv0 := q (kY o) * pt 2%nat - q (kZ o) * pt 1%nat in
  let uv1 := q (kZ o) * pt 0%nat - q (kX o) * pt 2%nat in
  let uv2 := q (kX o) * pt 1%nat - q (kY o) * pt 0%nat in
  let uv0 := uv0 + uv0 in let uv1 := uv1 + uv1 in let uv2 := uv2 + uv2 in
  let r0 := pt 0%nat + q (kW o) * uv0 in
  let r1 := pt 1%nat + q (kW o) * uv1 in
  let r2 := pt 2%nat + q (kW o) * uv2 in
  arr3 (r0 + (q (kY o) * uv2 - q (kZ o) * uv1))
       (r1 + (q (kZ o) * uv0 - q (kX o) * uv2))
       (r2 + (q (kX o) * uv1 - q (kY o) * uv0)).

(* 808-824 *)
Definition QuaternionRotatePoint (o : order) (q pt : arr) : arr :=
  let scale := 1 / sqrt (q (kW o) * q (kW o) + q (kX o) * q (kX o) + q (kY o) * q (kY o) + q (kZ o) * q (kZ o)) in
  let unit := MakeQuaternion o (scale * q (kW o)) (scale * q (kX o)) (scale * q (kY o)) (scale * q (kZ o)) in
  UnitQuaternionRotatePoint o unit pt.

(* 826-837 *)
Definition QuaternionProduct (o : order) (z w : arr) : arr :=
  MakeQuaternion o
    (z (kW o) * w (kW o) - z (kX o) * w (kX o) - z (kY o) * w (kY o) - z (kZ o) * w (kZ o))
    (z (kW o) * w (kX o) + z (kX o) * w (kW o) + z (kY o) * w (kZ o) - z (kZ o) * w (kY o))
    (z (kW o) * w (kY o) - z (kX o) * w (kZ o) + z (kY o) * w (kW o) + z (kZ o) * w (kX o))
    (z (kW o) * w (kZ o) + z (kX o) * w (kY o) - z (kY o) * w (kX o) + z (kZ o) * w (kW o)).

(* 839-845 *)
Definition QuaternionConjugate (o : order) (q : arr) : arr :=
  MakeQuaternion o (q (kW o)) (- q (kX o)) (- q (kY o)) (- q (kZ o)).

(* 848-861 *)
Definition CrossProduct (x y : arr) : arr :=
  arr3 (x 1%nat * y 2%nat - x 2%nat * y 1%nat) (x 2%nat * y 0%nat - x 0%nat * y 2%nat) (x 0%nat * y 1%nat - x 1%nat * y 0%nat).
Definition DotProduct (x y : arr) : R := x 0%nat * y 0%nat + x 1%nat * y 1%nat + x 2%nat * y 2%nat.

(* 863-931 *)
Definition AngleAxisRotatePoint (angle_axis pt : arr) : arr :=
  let a0 := angle_axis 0%nat in let a1 := angle_axis 1%nat in let a2 := angle_axis 2%nat in
  let p0 := pt 0%nat in let p1 := pt 1%nat in let p2 := pt 2%nat in
  let theta := hypot3 a0 a1 a2 in
  if Req_EM_T theta 0 then
    let x0 := a1 * p2 - a2 * p1 in
    let x1 := a2 * p0 - a0 * p2 in
    let x2 := a0 * p1 - a1 * p0 in
    arr3 (p0 + x0) (p1 + x1) (p2 + x2)
  else
    let costheta := cos theta in let sintheta := sin theta in
    let theta_inverse := 1 / theta in
    let w0 := a0 * theta_inverse in let w1 := a1 * theta_inverse in let w2 := a2 * theta_inverse in
    let x0 := w1 * p2 - w2 * p1 in
    let x1 := w2 * p0 - w0 * p2 in
    let x2 := w0 * p1 - w1 * p0 in
    let tmp := (w0 * p0 + w1 * p1 + w2 * p2) * (1 - costheta) in
    arr3 (p0 * costheta + x0 * sintheta + w0 * tmp)
         (p1 * costheta + x1 * sintheta + w1 * tmp)
         (p2 * costheta + x2 * sintheta + w2 * tmp).

(* euler_angles.h:98-195: the names *)
Definition ExtrinsicXYZ := mkEulerSystem 0 false false false.
Definition ExtrinsicXYX := mkEulerSystem 0 false true false.
Definition ExtrinsicXZY := mkEulerSystem 0 true false false.
Definition ExtrinsicXZX := mkEulerSystem 0 true true false.
Definition ExtrinsicYZX := mkEulerSystem 1 false false false.
Definition ExtrinsicYZY := mkEulerSystem 1 false true false.
Definition ExtrinsicYXZ := mkEulerSystem 1 true false false.
Definition ExtrinsicYXY := mkEulerSystem 1 true true false.
Definition ExtrinsicZXY := mkEulerSystem 2 false false false.
Definition ExtrinsicZXZ := mkEulerSystem 2 false true false.
Definition ExtrinsicZYX := mkEulerSystem 2 true false false.
Definition ExtrinsicZYZ := mkEulerSystem 2 true true false.
Definition IntrinsicZYX := mkEulerSystem 0 false false true.
Definition IntrinsicXYX := mkEulerSystem 0 false true true.
Definition IntrinsicYZX := mkEulerSystem 0 true false true.
Definition IntrinsicXZX := mkEulerSystem 0 true true true.
Definition IntrinsicXZY := mkEulerSystem 1 false false true.
Definition IntrinsicYZY := mkEulerSystem 1 false true true.
Definition IntrinsicZXY := mkEulerSystem 1 true false true.
Definition IntrinsicYXY := mkEulerSystem 1 true true true.
Definition IntrinsicYXZ := mkEulerSystem 2 false false true.
Definition IntrinsicZXZ := mkEulerSystem 2 false true true.
Definition IntrinsicXYZ := mkEulerSystem 2 true false true.
Definition IntrinsicZYZ := mkEulerSystem 2 true true true.
