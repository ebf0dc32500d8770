(* Euler systems by name, uniqueness of Euler angles, layouts, counterexamples. *)
From Coq Require Import Reals List Arith Lia Lra Psatz.
From Verif Require Import RotationModel RotationSpec RotationProofs RotationProofs2 RotationProofs3 RotationProofs4.
Import ListNotations.
Open Scope R_scope.

Lemma axis_is_rotation a t : is_rotation (axis_rotation a t).
Proof.
  pose proof (cs1 t) as H. unfold axis_rotation.
  destruct a as [|[|a]]; (split; [mcase; unfold mulm, transpose, sum3, ident; cbn [nth Nat.eqb]; lra|unfold det3; cbn [nth]; lra]).
Qed.

Lemma mulm_rotation a b : is_rotation a -> is_rotation b -> is_rotation (mulm a b).
Proof.
  intros Ha Hb. destruct (columns a Ha) as (A1 & A2 & A3 & A4 & A5 & A6). destruct (columns b Hb) as (B1 & B2 & B3 & B4 & B5 & B6).
  destruct Ha as [Ha Da]. destruct Hb as [Hb Db]. split.
  - intros i j Hi Hj. rewrite <- (Hb i j Hi Hj).
    assert (forall k l, (k < 3)%nat -> (l < 3)%nat -> b k i * mulm (transpose a) a k l * b l j = b k i * ident k l * b l j) as E
      by (intros k l Hk Hl; rewrite (Ha k l Hk Hl); reflexivity).
    pose proof (E 0 0 ltac:(lia) ltac:(lia))%nat as E00. pose proof (E 0 1 ltac:(lia) ltac:(lia))%nat as E01.
    pose proof (E 0 2 ltac:(lia) ltac:(lia))%nat as E02. pose proof (E 1 0 ltac:(lia) ltac:(lia))%nat as E10.
    pose proof (E 1 1 ltac:(lia) ltac:(lia))%nat as E11. pose proof (E 1 2 ltac:(lia) ltac:(lia))%nat as E12.
    pose proof (E 2 0 ltac:(lia) ltac:(lia))%nat as E20. pose proof (E 2 1 ltac:(lia) ltac:(lia))%nat as E21.
    pose proof (E 2 2 ltac:(lia) ltac:(lia))%nat as E22. clear - E00 E01 E02 E10 E11 E12 E20 E21 E22.
    unfold ident, mulm, transpose, sum3 in *. cbn [Nat.eqb] in *. lra.
  - transitivity (det3 a * det3 b); [unfold det3, mulm, sum3; ring|rewrite Da, Db; ring].
Qed.

Lemma meq3_rotation a b : meq3 a b -> is_rotation b -> is_rotation a.
Proof.
  intros E [O D]. split.
  - intros i j Hi Hj. rewrite <- (O i j Hi Hj). unfold mulm, transpose, sum3. rewrite !E by lia. reflexivity.
  - rewrite <- D. unfold det3. rewrite !E by lia. reflexivity.
Qed.

Lemma named_meaning s f e : In (s, f) named_systems -> meq3 (EulerAnglesToRotation s e) (f e).
Proof.
  intro H. unfold named_systems in H. cbn [In] in H.
  repeat (destruct H as [H|H]; [injection H as <- <-;
    mcase; unfold EulerAnglesToRotation, kAxes, extrinsic, intrinsic, mulm, sum3, axis_rotation; cbn -[cos sin Rmult Rplus Ropp]; rewrite ?cos_neg, ?sin_neg; ring|]).
  destruct H.
Qed.

Lemma all_named s : (InnerAxis s < 3)%nat -> exists f, In (s, f) named_systems.
Proof.
  destruct s as [n o p i]. cbn [InnerAxis]. intro H.
  assert (n = 0 \/ n = 1 \/ n = 2)%nat as [-> | [-> | ->]] by lia; destruct o, p, i; eexists; unfold named_systems; cbn [In];
  repeat first [left; reflexivity|right].
Qed.

Lemma named_rotation s f e : In (s, f) named_systems -> is_rotation (f e).
Proof.
  intro H. unfold named_systems in H. cbn [In] in H.
  repeat (destruct H as [H|H]; [injection H as <- <-; repeat apply mulm_rotation; apply axis_is_rotation|]).
  destruct H.
Qed.

Lemma named_inner s f : In (s, f) named_systems -> (InnerAxis s < 3)%nat.
Proof.
  intro H. unfold named_systems in H. cbn [In] in H. repeat (destruct H as [H|H]; [injection H as <- <-; cbn; lia|]). destruct H.
Qed.

(* angles are unique away from the singular positions *)
Lemma angle_closed s t : - PI <= s <= PI -> - PI < t < PI -> cos s = cos t -> sin s = sin t -> s = t.
Proof.
  intros Hs Ht C S. destruct (Req_dec s (- PI)) as [E|E].
  - exfalso. assert (t = PI) as X.
    { apply angle_unique; [lra|lra| |].
      - rewrite <- C, E, cos_neg. reflexivity.
      - rewrite <- S, E, sin_neg, sin_PI. ring. }
    lra.
  - apply angle_unique; lra.
Qed.

Lemma cos_inj_0_PI x y : 0 <= x <= PI -> 0 <= y <= PI -> cos x = cos y -> x = y.
Proof.
  intros Hx Hy E. destruct (Rtotal_order x y) as [L|[L|L]]; [|exact L|].
  - pose proof (cos_decreasing_1 x y ltac:(lra) ltac:(lra) ltac:(lra) ltac:(lra) L). lra.
  - pose proof (cos_decreasing_1 y x ltac:(lra) ltac:(lra) ltac:(lra) ltac:(lra) L). lra.
Qed.
Lemma sin_inj_half x y : - (PI / 2) <= x <= PI / 2 -> - (PI / 2) <= y <= PI / 2 -> sin x = sin y -> x = y.
Proof.
  intros Hx Hy E. destruct (Rtotal_order x y) as [L|[L|L]]; [|exact L|].
  - pose proof (sin_increasing_1 x y ltac:(lra) ltac:(lra) ltac:(lra) ltac:(lra) L). lra.
  - pose proof (sin_increasing_1 y x ltac:(lra) ltac:(lra) ltac:(lra) ltac:(lra) L). lra.
Qed.

Lemma negs_cos s x y : cos (negs s x) = cos (negs s y) -> cos x = cos y.
Proof. unfold negs. destruct (kIsParityOdd s); rewrite ?cos_neg; auto. Qed.
Lemma negs_sin s x y : sin (negs s x) = sin (negs s y) -> sin x = sin y.
Proof. unfold negs. destruct (kIsParityOdd s); rewrite ?sin_neg; lra. Qed.

Lemma first_last s e e' :
  cos (fst_angle s e) = cos (fst_angle s e') -> sin (fst_angle s e) = sin (fst_angle s e') ->
  cos (lst_angle s e) = cos (lst_angle s e') -> sin (lst_angle s e) = sin (lst_angle s e') ->
  (cos (e 0%nat) = cos (e' 0%nat) /\ sin (e 0%nat) = sin (e' 0%nat)) /\
  (cos (e 2%nat) = cos (e' 2%nat) /\ sin (e 2%nat) = sin (e' 2%nat)).
Proof.
  unfold fst_angle, lst_angle. intros A B C D.
  apply negs_cos in A, C. apply negs_sin in B, D. destruct (kIsIntrinsic s); tauto.
Qed.

Lemma euler_angles_unique s e : (InnerAxis s < 3)%nat ->
  - PI < e 0%nat < PI -> - PI < e 2%nat < PI ->
  (if kIsProperEuler s then 0 < e 1%nat < PI else - (PI / 2) < e 1%nat < PI / 2) ->
  veq3 (RotationMatrixToEulerAngles s (EulerAnglesToRotation s e)) e.
Proof.
  intros Hs H0 H2 H1. destruct (all_named s Hs) as [f Hf].
  assert (is_rotation (EulerAnglesToRotation s e)) as HR
    by (eapply meq3_rotation; [apply (named_meaning s f e Hf)|apply (named_rotation s f e Hf)]).
  pose proof (euler_round_trip s _ Hs HR) as RT. pose proof (euler_ranges s _ Hs HR) as RG. cbv zeta in RG.
  set (e' := RotationMatrixToEulerAngles s (EulerAnglesToRotation s e)) in *. clearbody e'.
  assert (forall p q, (p < 3)%nat -> (q < 3)%nat ->
    (if kIsProperEuler s then core_proper else core_tb) (fst_angle s e') (mid_angle s e') (lst_angle s e') p q
    = (if kIsProperEuler s then core_proper else core_tb) (fst_angle s e) (mid_angle s e) (lst_angle s e) p q) as K.
  { intros p q Hp Hq. rewrite <- !ea_core by assumption. apply RT.
    - clear - Hs. destruct s as [n o pr it]. unfold ax, kAxes. cbn [InnerAxis kIsParityOdd] in *.
      destruct p as [|[|p]]; [exact Hs| |]; apply Nat.mod_upper_bound; lia.
    - clear - Hs. destruct s as [n o pr it]. unfold ax, kAxes. cbn [InnerAxis kIsParityOdd] in *.
      destruct q as [|[|q]]; [exact Hs| |]; apply Nat.mod_upper_bound; lia. }
  destruct RG as (G0 & G2 & G1).
  assert (forall c x y, c <> 0 -> c * x = c * y -> x = y) as CA by (intros c x y Hc E; apply (Rmult_eq_reg_l c); assumption).
  assert (e' 1%nat = e 1%nat /\ cos (fst_angle s e') = cos (fst_angle s e) /\ sin (fst_angle s e') = sin (fst_angle s e) /\
    cos (lst_angle s e') = cos (lst_angle s e) /\ sin (lst_angle s e') = sin (lst_angle s e)) as (E1 & A & B & C & D).
  { destruct (kIsProperEuler s).
    - pose proof (K 0 0 ltac:(lia) ltac:(lia))%nat as K00. pose proof (K 0 1 ltac:(lia) ltac:(lia))%nat as K01.
      pose proof (K 0 2 ltac:(lia) ltac:(lia))%nat as K02. pose proof (K 1 0 ltac:(lia) ltac:(lia))%nat as K10.
      pose proof (K 2 0 ltac:(lia) ltac:(lia))%nat as K20. clear K. unfold core_proper, mat3 in *.
      assert (e' 1%nat = e 1%nat) as E1 by (apply cos_inj_0_PI; [lra|lra|apply (negs_cos s); exact K00]).
      assert (mid_angle s e' = mid_angle s e) as EM by (unfold mid_angle; rewrite E1; reflexivity). rewrite EM in *.
      assert (sin (mid_angle s e) <> 0) as NZ.
      { assert (0 < sin (e 1%nat)) by (apply sin_gt_0; lra). unfold mid_angle, negs. destruct (kIsParityOdd s); rewrite ?sin_neg; lra. }
      split; [exact E1|]. split; [apply (CA _ _ _ NZ K02)|]. split; [apply (CA _ _ _ NZ K01)|].
      split; [|apply (CA _ _ _ NZ K10)]. apply (CA (- sin (mid_angle s e))); [lra|exact K20].
    - pose proof (K 0 0 ltac:(lia) ltac:(lia))%nat as K00. pose proof (K 1 0 ltac:(lia) ltac:(lia))%nat as K10.
      pose proof (K 2 0 ltac:(lia) ltac:(lia))%nat as K20. pose proof (K 2 1 ltac:(lia) ltac:(lia))%nat as K21.
      pose proof (K 2 2 ltac:(lia) ltac:(lia))%nat as K22. clear K. unfold core_tb, mat3 in *.
      assert (e' 1%nat = e 1%nat) as E1 by (apply sin_inj_half; [lra|lra|apply (negs_sin s); unfold mid_angle in K20; lra]).
      assert (mid_angle s e' = mid_angle s e) as EM by (unfold mid_angle; rewrite E1; reflexivity). rewrite EM in *.
      assert (cos (mid_angle s e) <> 0) as NZ.
      { assert (0 < cos (e 1%nat)) by (apply cos_gt_0; lra). unfold mid_angle, negs. destruct (kIsParityOdd s); rewrite ?cos_neg; lra. }
      split; [exact E1|]. split; [apply (CA _ _ _ NZ K22)|]. split; [apply (CA _ _ _ NZ K21)|].
      split; [apply (CA _ _ _ NZ K00)|apply (CA _ _ _ NZ K10)]. }
  destruct (first_last s e' e A B C D) as [[X1 X2] [Y1 Y2]].
  vcase; [apply angle_closed; assumption|exact E1|apply angle_closed; assumption].
Qed.

Lemma euler_degrees e : meq3 (EulerAnglesToRotationMatrix e)
  (mulm (axis_rotation 2 (e 2%nat * (PI / 180))) (mulm (axis_rotation 1 (e 1%nat * (PI / 180))) (axis_rotation 0 (e 0%nat * (PI / 180))))).
Proof. mcase; unfold EulerAnglesToRotationMatrix, mat3, mulm, sum3, axis_rotation; cbn [nth]; ring. Qed.

Lemma write_read_column m : meq3 (ColumnMajorAdapter3x3 (write_column_major m)) m.
Proof. mcase; reflexivity. Qed.
Lemma write_read_row m : meq3 (RowMajorAdapter3x3 (write_row_major m)) m.
Proof. mcase; reflexivity. Qed.
Lemma write_row_read_column m : meq3 (ColumnMajorAdapter3x3 (write_row_major m)) (transpose m).
Proof. mcase; reflexivity. Qed.

(* matrices to angle-axis vectors *)
Lemma quat_same_rotation o o' q q' : qnorm2 (quat_of o q) = 1 ->
  quat_of o' q' = quat_of o q \/ quat_of o' q' = qneg (quat_of o q) ->
  meq3 (QuaternionToRotation o' q') (QuaternionToRotation o q).
Proof.
  intros U H. assert (qnorm2 (quat_of o' q') = 1) as U'.
  { destruct H as [-> | ->]; [exact U|]. rewrite <- U. unfold qnorm2, qneg, qscale. cbn [qw qx qy qz]. ring. }
  intros i j Hi Hj. rewrite !rotation_unit by assumption.
  unfold qneg, qscale, quat_of in H. cbn [qw qx qy qz] in H.
  destruct H as [H|H]; injection H as E0 E1 E2 E3; revert i j Hi Hj; mcase; unfold QuaternionToScaledRotation, mat3; rewrite E0, E1, E2, E3; ring.
Qed.

Lemma matrix_to_angle_axis m : is_rotation m ->
  exists a, RotationMatrixToAngleAxis m = Some a /\ norm3 a <= PI /\ meq3 (AngleAxisToRotationMatrix a) m.
Proof.
  intro H. destruct (matrix_to_quaternion m H) as (q & E & U & M). unfold RotationMatrixToAngleAxis. rewrite E.
  eexists. split; [reflexivity|].
  pose proof (to_angle_axis_spec CeresQuaternionOrder q U) as T. cbv zeta in T. destruct T as [T1 T2]. split; [exact T1|].
  intros i j Hi Hj. rewrite (angle_axis_matrix CeresQuaternionOrder _ i j Hi Hj).
  rewrite (quat_same_rotation CeresQuaternionOrder CeresQuaternionOrder q _ U T2 i j Hi Hj). apply M; assumption.
Qed.

(* angle-axis vectors shorter than pi come back from their matrix *)
Lemma to_angle_axis_sign o q q' : qnorm2 (quat_of o q) = 1 -> q (kW o) <> 0 ->
  quat_of o q' = qneg (quat_of o q) -> veq3 (QuaternionToAngleAxis o q') (QuaternionToAngleAxis o q).
Proof.
  intros U W H. unfold qneg, qscale, quat_of in H. cbn [qw qx qy qz] in H. injection H as E0 E1 E2 E3.
  unfold QuaternionToAngleAxis. cbv zeta. rewrite E0, E1, E2, E3.
  set (w := q (kW o)) in *. set (x := q (kX o)). set (y := q (kY o)). set (z := q (kZ o)).
  assert (hypot3 (-1 * x) (-1 * y) (-1 * z) = hypot3 x y z) as EH by (unfold hypot3; f_equal; ring). rewrite EH.
  set (n := hypot3 x y z). destruct (Req_EM_T n 0) as [Z|Z].
  - assert (x * x + y * y + z * z = 0) as S by (apply sqrt_eq_0; [nra|exact Z]).
    assert (x = 0) as -> by nra. assert (y = 0) as -> by nra. assert (z = 0) as -> by nra.
    vcase; rewrite ?arr3_0, ?arr3_1, ?arr3_2; ring.
  - assert (sign_of (-1 * w) = - sign_of w) as ES by (unfold sign_of; destruct (Rlt_dec (-1 * w) 0), (Rlt_dec w 0); lra).
    rewrite ES. replace (- sign_of w * (-1 * w)) with (sign_of w * w) by ring.
    assert (sign_of w * w = Rabs w) as EA by (unfold sign_of, Rabs; destruct (Rlt_dec w 0), (Rcase_abs w); lra).
    rewrite EA. assert (0 < Rabs w) as PA by (apply Rabs_pos_lt; exact W).
    assert (atan2 (- sign_of w * n) (Rabs w) = - atan2 (sign_of w * n) (Rabs w)) as EN.
    { unfold atan2. destruct (Rlt_dec 0 (Rabs w)); [|lra].
      replace (- sign_of w * n / Rabs w) with (- (sign_of w * n / Rabs w)) by (field; lra). apply atan_opp. }
    rewrite EN. vcase; rewrite ?arr3_0, ?arr3_1, ?arr3_2; field; exact Z.
Qed.

Lemma to_angle_axis_ext o q q' : quat_of o q' = quat_of o q -> QuaternionToAngleAxis o q' = QuaternionToAngleAxis o q.
Proof.
  intro H. unfold quat_of in H. injection H as E0 E1 E2 E3. unfold QuaternionToAngleAxis. cbv zeta. rewrite E0, E1, E2, E3. reflexivity.
Qed.

Lemma angle_axis_from_matrix a : norm3 a < PI ->
  exists b, RotationMatrixToAngleAxis (AngleAxisToRotationMatrix a) = Some b /\ veq3 b a.
Proof.
  intro HP.   pose proof (angle_axis_unit CeresQuaternionOrder a) as U.
  assert (is_rotation (AngleAxisToRotationMatrix a)) as HR
    by (eapply meq3_rotation; [apply (angle_axis_matrix CeresQuaternionOrder)|apply rotation_is_rotation; rewrite U; lra]).
  destruct (matrix_to_quaternion _ HR) as (q & E & Uq & M). unfold RotationMatrixToAngleAxis. rewrite E.
  eexists. split; [reflexivity|].
  assert (meq3 (QuaternionToRotation CeresQuaternionOrder (AngleAxisToQuaternion CeresQuaternionOrder a)) (QuaternionToRotation CeresQuaternionOrder q)) as S.
  { intros i j Hi Hj. rewrite (M i j Hi Hj). symmetry. apply angle_axis_matrix; assumption. }
  assert (0 < AngleAxisToQuaternion CeresQuaternionOrder a (kW CeresQuaternionOrder)) as W.
  { unfold AngleAxisToQuaternion. cbv zeta. rewrite hypot3_norm. pose proof (norm3_nonneg a) as N. pose proof PI_RGT_0.
    destruct (Req_EM_T (norm3 a) 0); unfold MakeQuaternion, kW, kX, kY, kZ, upd; cbn [Nat.eqb]; [lra|].
    apply cos_gt_0; lra. }
  pose proof (angle_axis_round_trip CeresQuaternionOrder a ltac:(lra)) as RT.
  destruct (same_matrix CeresQuaternionOrder CeresQuaternionOrder _ _ U Uq S) as [Q|Q].
  - intros i Hi. rewrite <- (RT i Hi). rewrite (to_angle_axis_ext _ _ _ Q). reflexivity.
  - intros i Hi. rewrite <- (RT i Hi). apply to_angle_axis_sign; [exact U|lra|exact Q|exact Hi].
Qed.

Lemma matrix_to_quaternion_order o m : is_rotation m -> 0 <= m 0%nat 0%nat + m 1%nat 1%nat + m 2%nat 2%nat ->
  exists q, RotationMatrixToQuaternion o m = Some q /\ qnorm2 (quat_of o q) = 1 /\ meq3 (QuaternionToRotation o q) m.
Proof.
  intros H T. destruct (matrix_to_quaternion m H) as (q & E & U & M). destruct o; [exists q; auto|].
  unfold RotationMatrixToQuaternion in *. cbv zeta in *. destruct (Rle_dec 0 _) as [L|L]; [|lra].
  injection E as E. subst q. eexists. split; [reflexivity|]. rewrite make_of in *. split; [exact U|].
  intros i j Hi Hj. rewrite <- (M i j Hi Hj). unfold QuaternionToRotation, QuaternionToScaledRotation. reflexivity.
Qed.

Lemma get_ext m m' i : meq3 m m' -> get m i i = get m' i i.
Proof. intro H. unfold get. destruct (Nat.ltb_spec i 3) as [L|L]; cbn [andb]; [rewrite (H i i L L)|]; reflexivity. Qed.
Lemma matrix_to_quaternion_ext o m m' : meq3 m m' -> RotationMatrixToQuaternion o m = RotationMatrixToQuaternion o m'.
Proof.
  intro H. unfold RotationMatrixToQuaternion. cbv zeta.
  rewrite (H 0 0)%nat, (H 0 1)%nat, (H 0 2)%nat, (H 1 0)%nat, (H 1 1)%nat, (H 1 2)%nat, (H 2 0)%nat, (H 2 1)%nat, (H 2 2)%nat by lia.
  destruct (Rle_dec 0 _); [reflexivity|].
  set (i := if Rlt_dec _ _ then kX o else kW o). rewrite (get_ext m m' i H). destruct (get m' i i) as [x|]; [|reflexivity].
  set (i' := if Rlt_dec _ _ then kY o else i). rewrite (get_ext m m' i' H). destruct (get m' i' i') as [y|] eqn:G; [|reflexivity].
  assert (i' < 3)%nat as Hi by (unfold get in G; destruct (Nat.ltb_spec i' 3); [assumption|discriminate]). clearbody i'.
  assert ((i' + 1) mod 3 < 3)%nat as Hj by (apply Nat.mod_upper_bound; lia). set (j := ((i' + 1) mod 3)%nat) in *. clearbody j.
  assert ((j + 1) mod 3 < 3)%nat as Hk by (apply Nat.mod_upper_bound; lia). set (k := ((j + 1) mod 3)%nat) in *. clearbody k.
  rewrite !H by assumption. reflexivity.
Qed.

Definition half_turn_x : mat := mat3 1 0 0  0 (-1) 0  0 0 (-1).
Lemma half_turn_is_rotation : is_rotation half_turn_x.
Proof. unfold half_turn_x. split; [mcase; unfold mulm, transpose, sum3, ident, mat3; cbn [Nat.eqb]; ring|unfold det3, mat3; ring]. Qed.
Lemma eigen_half_turn : RotationMatrixToQuaternion EigenQuaternionOrder half_turn_x = None.
Proof.
  unfold RotationMatrixToQuaternion, half_turn_x, mat3. cbv zeta.
  destruct (Rle_dec 0 _) as [L|L]; [lra|]. destruct (Rlt_dec 1 (-1)) as [L2|L2]; [lra|]. reflexivity.
Qed.
