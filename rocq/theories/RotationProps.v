(* C49: rotation conversions. *)
From Coq Require Import Reals List Arith Lia Lra.
From Verif Require Import RotationModel RotationSpec RotationProofs RotationProofs2 RotationProofs3 RotationProofs4 RotationProofs5.
Import ListNotations.
Open Scope R_scope.

(* There is exactly one product of quaternions, and QuaternionProduct is it, in either
   order of the coefficients. *)
Theorem C49_product_is_the_quaternion_product :
  (exists mul, is_quaternion_product mul) /\
  forall mul, is_quaternion_product mul ->
  forall o a b, quat_of o (QuaternionProduct o a b) = mul (quat_of o a) (quat_of o b).
Proof.
  split; [exists hmul; exact hmul_is_product|]. intros mul H o a b. rewrite (product_unique mul H). apply product_hmul.
Qed.
Print Assumptions C49_product_is_the_quaternion_product.

(* The matrix of a non-zero quaternion is a rotation; the unnormalised one is |q|^2 times
   it; it maps p to q p q^-1; products of quaternions become products of matrices. *)
Theorem C49_quaternion_to_matrix : forall o q, quat_of o q <> mkq 0 0 0 0 ->
  is_rotation (QuaternionToRotation o q) /\
  meq3 (QuaternionToScaledRotation o q) (scalem (qnorm2 (quat_of o q)) (QuaternionToRotation o q)) /\
  (forall mul, is_quaternion_product mul -> forall p,
     mul (mul (quat_of o q) (pure p)) (quat_of o (QuaternionConjugate o q))
     = qscale (qnorm2 (quat_of o q)) (pure (mulv (QuaternionToRotation o q) p))) /\
  (forall q', quat_of o q' <> mkq 0 0 0 0 ->
     meq3 (QuaternionToRotation o (QuaternionProduct o q q')) (mulm (QuaternionToRotation o q) (QuaternionToRotation o q'))).
Proof.
  intros o q H. assert (forall x, quat_of o x <> mkq 0 0 0 0 -> qnorm2 (quat_of o x) <> 0) as NZ
    by (intros x Hx E; apply Hx; apply qnorm2_zero; exact E).
  specialize (NZ q H) as N. split; [apply rotation_is_rotation; exact N|]. split; [|split].
  - intros i j Hi Hj. unfold scalem. rewrite rotation_entry. field. exact N.
  - intros mul M p. rewrite !(product_unique mul M), conj_hconj, scaled_sandwich.
    unfold pure, qscale; cbn [qw qx qy qz]. unfold mulv, sum3. rewrite !rotation_entry. f_equal; field; exact N.
  - intros q' H'. apply rotation_product; [exact N|apply NZ; exact H'].
Qed.
Print Assumptions C49_quaternion_to_matrix.

(* Rotating a point by a quaternion is multiplying it by the matrix. *)
Theorem C49_quaternion_rotates_points : forall o q p,
  (quat_of o q <> mkq 0 0 0 0 -> veq3 (QuaternionRotatePoint o q p) (mulv (QuaternionToRotation o q) p)) /\
  (qnorm2 (quat_of o q) = 1 -> veq3 (UnitQuaternionRotatePoint o q p) (mulv (QuaternionToRotation o q) p)).
Proof.
  intros o q p. split; intro H.
  - apply rotate_point. intro E. apply H, qnorm2_zero, E.
  - apply unit_rotate_point. exact H.
Qed.
Print Assumptions C49_quaternion_rotates_points.

(* AngleAxisRotatePoint is the rotation by |a| about a (the right-hand rule), for every a,
   and the matrix and the quaternion of a give the same map. *)
Theorem C49_angle_axis_rotates : forall a, rotates_about a (AngleAxisRotatePoint a).
Proof. exact rotate_point_rotates. Qed.
Print Assumptions C49_angle_axis_rotates.

Theorem C49_angle_axis_agrees : forall o a,
  qnorm2 (quat_of o (AngleAxisToQuaternion o a)) = 1 /\
  is_rotation (AngleAxisToRotationMatrix a) /\
  meq3 (QuaternionToRotation o (AngleAxisToQuaternion o a)) (AngleAxisToRotationMatrix a) /\
  forall p, veq3 (AngleAxisRotatePoint a p) (mulv (AngleAxisToRotationMatrix a) p) /\
            veq3 (AngleAxisRotatePoint a p) (UnitQuaternionRotatePoint o (AngleAxisToQuaternion o a) p).
Proof.
  intros o a. pose proof (angle_axis_unit o a) as U. split; [exact U|]. split; [|split].
  - eapply meq3_rotation; [apply (angle_axis_matrix o)|apply rotation_is_rotation; rewrite U; lra].
  - intros i j Hi Hj. symmetry. apply angle_axis_matrix; assumption.
  - intro p. split; [apply rotate_point_matrix|]. intros i Hi. rewrite (rotate_point_matrix a p i Hi), (unit_rotate_point o _ p U i Hi).
    unfold mulv, sum3. rewrite !(angle_axis_matrix o a) by lia. reflexivity.
Qed.
Print Assumptions C49_angle_axis_agrees.

(* Round trips between quaternions and angle-axis vectors. *)
Theorem C49_angle_axis_round_trips : forall o,
  (forall a, norm3 a <= PI -> veq3 (QuaternionToAngleAxis o (AngleAxisToQuaternion o a)) a) /\
  (forall q, qnorm2 (quat_of o q) = 1 ->
     norm3 (QuaternionToAngleAxis o q) <= PI /\
     (quat_of o (AngleAxisToQuaternion o (QuaternionToAngleAxis o q)) = quat_of o q \/
      quat_of o (AngleAxisToQuaternion o (QuaternionToAngleAxis o q)) = qneg (quat_of o q))).
Proof. intro o. split; [apply angle_axis_round_trip|apply to_angle_axis_spec]. Qed.
Print Assumptions C49_angle_axis_round_trips.

(* Matrices to quaternions (order w, x, y, z) and back, for every rotation. *)
Theorem C49_matrix_to_quaternion : forall m, is_rotation m ->
  exists q, RotationMatrixToQuaternion CeresQuaternionOrder m = Some q /\
    qnorm2 (quat_of CeresQuaternionOrder q) = 1 /\ meq3 (QuaternionToRotation CeresQuaternionOrder q) m.
Proof. exact matrix_to_quaternion. Qed.
Print Assumptions C49_matrix_to_quaternion.

Theorem C49_quaternion_matrix_round_trip : forall o q, qnorm2 (quat_of o q) = 1 ->
  exists q', RotationMatrixToQuaternion CeresQuaternionOrder (QuaternionToRotation o q) = Some q' /\
    (quat_of CeresQuaternionOrder q' = quat_of o q \/ quat_of CeresQuaternionOrder q' = qneg (quat_of o q)).
Proof.
  intros o q U. destruct (matrix_to_quaternion (QuaternionToRotation o q)) as (q' & E & U' & M);
    [apply rotation_is_rotation; rewrite U; lra|].
  exists q'. split; [exact E|]. apply same_matrix; [exact U|exact U'|]. intros i j Hi Hj. symmetry. apply M; assumption.
Qed.
Print Assumptions C49_quaternion_matrix_round_trip.

(* Matrices to angle-axis vectors and back; a vector shorter than pi comes back itself. *)
Theorem C49_matrix_angle_axis_round_trips :
  (forall m, is_rotation m -> exists a, RotationMatrixToAngleAxis m = Some a /\ norm3 a <= PI /\ meq3 (AngleAxisToRotationMatrix a) m) /\
  (forall a, norm3 a < PI -> exists b, RotationMatrixToAngleAxis (AngleAxisToRotationMatrix a) = Some b /\ veq3 b a).
Proof. split; [exact matrix_to_angle_axis|exact angle_axis_from_matrix]. Qed.
Print Assumptions C49_matrix_angle_axis_round_trips.

(* The overloads on plain arrays: the column-major and row-major ones are consistent. *)
Theorem C49_arrays :
  (forall a, norm3 a < PI -> exists b,
     RotationMatrixToAngleAxis_pointer (AngleAxisToRotationMatrix_pointer a) = Some b /\ veq3 b a) /\
  (forall a, meq3 (ColumnMajorAdapter3x3 (AngleAxisToRotationMatrix_pointer a)) (AngleAxisToRotationMatrix a)) /\
  (forall o q, meq3 (RowMajorAdapter3x3 (QuaternionToRotation_pointer o q)) (QuaternionToRotation o q)) /\
  (forall s e, meq3 (RowMajorAdapter3x3 (EulerAnglesToRotation_pointer s e)) (EulerAnglesToRotation s e)) /\
  (forall o q, qnorm2 (quat_of o q) = 1 ->
     exists q', RotationMatrixToQuaternion_pointer CeresQuaternionOrder (QuaternionToRotation_pointer o q) = Some q' /\
       meq3 (QuaternionToRotation CeresQuaternionOrder q') (transpose (QuaternionToRotation o q))).
Proof.
  split; [|split; [|split; [|split]]].
  - intros a H. unfold RotationMatrixToAngleAxis_pointer, RotationMatrixToAngleAxis.
    rewrite (matrix_to_quaternion_ext _ _ _ (write_read_column (AngleAxisToRotationMatrix a) : meq3 (ColumnMajorAdapter3x3 (AngleAxisToRotationMatrix_pointer a)) _)).
    exact (angle_axis_from_matrix a H).
  - intro a. apply write_read_column.
  - intros o q. apply write_read_row.
  - intros s e. apply write_read_row.
  - intros o q U. unfold RotationMatrixToQuaternion_pointer, QuaternionToRotation_pointer.
    assert (is_rotation (ColumnMajorAdapter3x3 (write_row_major (QuaternionToRotation o q)))) as HR.
    { assert (is_rotation (QuaternionToRotation o q)) as H by (apply rotation_is_rotation; rewrite U; lra).
      eapply meq3_rotation; [apply write_row_read_column|].
      destruct (rows _ H) as (R1 & R2 & R3 & R4 & R5 & R6). destruct H as [_ D]. split.
      - mcase; unfold mulm, transpose, sum3, ident; cbn [Nat.eqb]; lra.
      - rewrite <- D. unfold det3, transpose. ring. }
    destruct (matrix_to_quaternion _ HR) as (q' & E & _ & M). exists q'. split; [exact E|].
    intros i j Hi Hj. rewrite (M i j Hi Hj). apply write_row_read_column; assumption.
Qed.
Print Assumptions C49_arrays.

(* With the coefficients in Eigen's order, RotationMatrixToQuaternion is right when the
   trace is not negative; otherwise it reads outside the matrix. *)
Theorem C49_matrix_to_quaternion_any_order_nonnegative_trace : forall o m, is_rotation m ->
  0 <= m 0%nat 0%nat + m 1%nat 1%nat + m 2%nat 2%nat ->
  exists q, RotationMatrixToQuaternion o m = Some q /\ qnorm2 (quat_of o q) = 1 /\ meq3 (QuaternionToRotation o q) m.
Proof. exact matrix_to_quaternion_order. Qed.
Print Assumptions C49_matrix_to_quaternion_any_order_nonnegative_trace.

Theorem C49_matrix_to_quaternion_eigen_order_refuted :
  exists m, is_rotation m /\ RotationMatrixToQuaternion EigenQuaternionOrder m = None.
Proof. exists half_turn_x. split; [exact half_turn_is_rotation|exact eigen_half_turn]. Qed.
Print Assumptions C49_matrix_to_quaternion_eigen_order_refuted.

(* The 24 Euler angle conventions mean what their names say, and are all there are. *)
Theorem C49_euler_meaning :
  (forall s f e, In (s, f) named_systems -> meq3 (EulerAnglesToRotation s e) (f e) /\ is_rotation (f e)) /\
  (forall s, (InnerAxis s < 3)%nat -> exists f, In (s, f) named_systems).
Proof. split; [intros; split; [apply named_meaning; assumption|eapply named_rotation; eassumption]|exact all_named]. Qed.
Print Assumptions C49_euler_meaning.

(* Euler angles of every rotation, the singular ones included, give back that rotation,
   and are in the canonical ranges. *)
Theorem C49_euler_round_trip : forall s f m, In (s, f) named_systems -> is_rotation m ->
  let e := RotationMatrixToEulerAngles s m in
  meq3 (f e) m /\ - PI <= e 0%nat <= PI /\ - PI <= e 2%nat <= PI /\
  (if kIsProperEuler s then 0 <= e 1%nat <= PI else - (PI / 2) <= e 1%nat <= PI / 2).
Proof.
  intros s f m Hs HR. pose proof (named_inner s f Hs) as HI. cbv zeta. split; [|exact (euler_ranges s m HI HR)].
  intros i j Hi Hj. rewrite <- (named_meaning s f _ Hs i j Hi Hj). apply euler_round_trip; assumption.
Qed.
Print Assumptions C49_euler_round_trip.

(* Away from the singular positions the angles themselves come back. *)
Theorem C49_euler_angles_round_trip : forall s f e, In (s, f) named_systems ->
  - PI < e 0%nat < PI -> - PI < e 2%nat < PI ->
  (if kIsProperEuler s then 0 < e 1%nat < PI else - (PI / 2) < e 1%nat < PI / 2) ->
  veq3 (RotationMatrixToEulerAngles s (EulerAnglesToRotation s e)) e.
Proof. intros s f e Hs. apply euler_angles_unique, (named_inner s f Hs). Qed.
Print Assumptions C49_euler_angles_round_trip.

(* The older function: angles in degrees, about the fixed axes x, y, z in this order; the
   parameter row_stride is ignored, so only 3 gives the documented layout. *)
Theorem C49_euler_degrees : forall e,
  meq3 (EulerAnglesToRotationMatrix e) (extrinsic 0 1 2 (fun i => e i * (PI / 180))) /\
  (forall i j, (i < 3)%nat -> (j < 3)%nat -> EulerAnglesToRotationMatrix_pointer e 3 (i * 3 + j)%nat = EulerAnglesToRotationMatrix e i j).
Proof.
  intro e. split; [exact (euler_degrees e)|]. intros i j Hi Hj. rewrite <- (write_read_row (EulerAnglesToRotationMatrix e) i j Hi Hj).
  unfold RowMajorAdapter3x3, EulerAnglesToRotationMatrix_pointer. rewrite Nat.mul_1_r. reflexivity.
Qed.
Print Assumptions C49_euler_degrees.

Theorem C49_euler_row_stride_refuted :
  exists e stride i j, (i < 3)%nat /\ (j < 3)%nat /\
    EulerAnglesToRotationMatrix_pointer e stride (i * stride + j)%nat <> EulerAnglesToRotationMatrix e i j.
Proof.
  exists zeros, 4%nat, 1%nat, 0%nat. split; [lia|]. split; [lia|].
  unfold EulerAnglesToRotationMatrix_pointer, EulerAnglesToRotationMatrix, zeros. cbv zeta.
  change (write_row_major ?m (1 * 4 + 0)%nat) with (m 1%nat 1%nat). unfold mat3.
  rewrite !Rmult_0_l, sin_0, cos_0. lra.
Qed.
Print Assumptions C49_euler_row_stride_refuted.

(* Concrete cases. *)
Example C49_identity_example : is_rotation ident /\ is_rotation half_turn_x /\ is_rotation (axis_rotation 1 2).
Proof.
  split; [|split; [exact half_turn_is_rotation|apply axis_is_rotation]].
  split; [mcase; unfold mulm, transpose, sum3, ident; cbn [Nat.eqb]; ring|unfold det3, ident; cbn [Nat.eqb]; ring].
Qed.

(* a half turn about x: negative trace, first branch of the largest diagonal *)
Example C49_half_turn_example :
  exists q, RotationMatrixToQuaternion CeresQuaternionOrder half_turn_x = Some q /\ quat_of CeresQuaternionOrder q = mkq 0 1 0 0.
Proof.
  unfold RotationMatrixToQuaternion, half_turn_x, mat3. cbv zeta. destruct (Rle_dec 0 _) as [L|L]; [lra|].
  destruct (Rlt_dec 1 (-1)) as [L2|L2]; [lra|]. cbn [kW get Nat.ltb Nat.leb andb].
  destruct (Rlt_dec 1 (-1)); [lra|]. eexists. split; [reflexivity|].
  unfold quat_of, kW, kX, kY, kZ, upd. cbn [Nat.eqb Nat.add Nat.modulo Nat.divmod fst snd Nat.sub].
  match goal with |- context [sqrt ?x] => assert (sqrt x = 2) as -> by (apply sqrt_uniq; [lra|cbv iota; lra]) end. f_equal; cbv iota; lra.
Qed.

(* a quarter turn about z moves x to y *)
Example C49_quarter_turn_example : veq3 (AngleAxisRotatePoint (arr3 0 0 (PI / 2)) (arr3 1 0 0)) (arr3 0 1 0).
Proof.
  pose proof PI_RGT_0 as HP.
  assert (norm3 (arr3 0 0 (PI / 2)) = PI / 2) as N.
  { unfold norm3. rewrite arr3_0, arr3_1, arr3_2. rewrite !Rmult_0_l, !Rplus_0_l. apply sqrt_square. lra. }
  intros i Hi. destruct (C49_angle_axis_agrees CeresQuaternionOrder (arr3 0 0 (PI / 2))) as (_ & _ & _ & H).
  rewrite (proj1 (H (arr3 1 0 0)) i Hi). unfold mulv, sum3, AngleAxisToRotationMatrix. cbv zeta. rewrite hypot3_norm, N.
  destruct (Req_EM_T (PI / 2) 0); [lra|]. rewrite cos_PI2, sin_PI2, !arr3_0, !arr3_1, !arr3_2.
  revert i Hi. vcase; unfold mat3, arr3, upd; cbn [Nat.eqb]; field; lra.
Qed.

Example C49_euler_example : veq3 (RotationMatrixToEulerAngles IntrinsicZXZ (EulerAnglesToRotation IntrinsicZXZ (arr3 1 1 (-1)))) (arr3 1 1 (-1)).
Proof.
  pose proof PI2_1 as H. assert (exists f, In (IntrinsicZXZ, f) named_systems) as [f Hf] by (apply C49_euler_meaning; cbn; lia).
  apply (C49_euler_angles_round_trip _ f); [exact Hf|rewrite arr3_0; lra|rewrite arr3_2; lra|]. cbn [kIsProperEuler IntrinsicZXZ]. rewrite arr3_1. lra.
Qed.
