(* atan2; quaternion algebra; matrices of quaternions and of angle-axis vectors. *)
From Coq Require Import Reals List Arith Lia Lra Psatz.
From Verif Require Import RotationModel RotationSpec.
Import ListNotations.
Open Scope R_scope.

(* ---------------- angles ---------------- *)

Lemma sin_zero_inside x : - PI < x < PI -> sin x = 0 -> x = 0.
Proof.
  intros [H1 H2] E. destruct (Rtotal_order x 0) as [L|[L|L]]; [|exact L|].
  - exfalso. assert (0 < sin (- x)) by (apply sin_gt_0; lra). rewrite sin_neg in H. lra.
  - exfalso. assert (0 < sin x) by (apply sin_gt_0; lra). lra.
Qed.
Lemma angle_unique s t : - PI < s <= PI -> - PI < t <= PI -> cos s = cos t -> sin s = sin t -> s = t.
Proof.
  intros Hs Ht C S.
  assert (cos (s - t) = 1) as E.
  { rewrite cos_minus, C, S. pose proof (sin2_cos2 t) as H. unfold Rsqr in H. lra. }
  assert (sin ((s - t) / 2) = 0) as E2.
  { assert (sin ((s - t) / 2) * sin ((s - t) / 2) = 0) as Z.
    { replace (s - t) with (2 * ((s - t) / 2)) in E by field. rewrite cos_2a_sin in E. lra. }
    apply Rmult_integral in Z. destruct Z; assumption. }
  apply sin_zero_inside in E2; lra.
Qed.

Lemma sqrt_pos_arg a : 0 < a -> 0 < sqrt a.
Proof. apply sqrt_lt_R0. Qed.
Lemma sqrt_sq a : 0 <= a -> sqrt a * sqrt a = a.
Proof. apply sqrt_sqrt. Qed.
Lemma sqrt_uniq a r : 0 <= r -> r * r = a -> sqrt a = r.
Proof. intros H <-. apply sqrt_square, H. Qed.

Lemma atan_div y x : 0 < x ->
  cos (atan (y / x)) = x / sqrt (x * x + y * y) /\ sin (atan (y / x)) = y / sqrt (x * x + y * y).
Proof.
  intro Hx. assert (0 < x * x + y * y) as HP by nra.
  pose proof (sqrt_pos_arg _ HP) as HS. pose proof (sqrt_sq _ (Rlt_le _ _ HP)) as HQ.
  assert (sqrt (1 + (y / x)²) = sqrt (x * x + y * y) / x) as E.
  { apply sqrt_uniq.
    - apply Rlt_le, Rdiv_lt_0_compat; assumption.
    - unfold Rsqr. field_simplify_eq; [|lra]. replace (sqrt (x * x + y * y) ^ 2) with (sqrt (x * x + y * y) * sqrt (x * x + y * y)) by ring.
      rewrite HQ. ring. }
  rewrite cos_atan, sin_atan, E. split; field; split; lra.
Qed.

Lemma atan2_spec y x r : 0 < r -> r * r = x * x + y * y ->
  cos (atan2 y x) = x / r /\ sin (atan2 y x) = y / r /\ - PI < atan2 y x <= PI.
Proof.
  intros Hr E. assert (sqrt (x * x + y * y) = r) as ES by (apply sqrt_uniq; lra).
  assert (0 < PI) as HPI by apply PI_RGT_0. unfold atan2.
  pose proof (atan_bound (y / x)) as AB.
  destruct (Rlt_dec 0 x) as [P|P].
  - destruct (atan_div y x P) as [C S]. rewrite ES in C, S. rewrite C, S. split; [reflexivity|]. split; [reflexivity|]. lra.
  - destruct (Rlt_dec x 0) as [N|N].
    + assert (y / x = (- y) / (- x)) as EQ by (field; lra).
      destruct (atan_div (- y) (- x)) as [C S]; [lra|].
      replace (- x * - x + - y * - y) with (x * x + y * y) in C, S by ring. rewrite ES in C, S. rewrite <- EQ in C, S.
      destruct (Rle_dec 0 y) as [Y|Y].
      * rewrite cos_plus, sin_plus, cos_PI, sin_PI, C, S. split; [field; lra|]. split; [field; lra|].
        assert (atan (y / x) <= 0).
        { destruct (Req_dec y 0) as [->|Ny].
          - replace (0 / x) with 0 by (field; lra). rewrite atan_0. lra.
          - rewrite <- atan_0. left. apply atan_increasing. rewrite EQ.
            replace (- y / - x) with (- (y / - x)) by (field; lra). assert (0 < y / - x) by (apply Rdiv_lt_0_compat; lra). lra. }
        lra.
      * rewrite cos_minus, sin_minus, cos_PI, sin_PI, C, S. split; [field; lra|]. split; [field; lra|].
        assert (0 < atan (y / x)).
        { rewrite <- atan_0. apply atan_increasing. rewrite EQ. apply Rdiv_lt_0_compat; lra. }
        lra.
    + assert (x = 0) as -> by lra. destruct (Rlt_dec 0 y) as [Y|Y].
      * assert (y = r) as -> by nra. rewrite cos_PI2, sin_PI2. split; [field; lra|]. split; [field; lra|]. lra.
      * destruct (Rlt_dec y 0) as [Y2|Y2]; [|nra].
        assert (y = - r) as -> by nra. rewrite cos_neg, sin_neg, cos_PI2, sin_PI2. split; [field; lra|]. split; [field; lra|]. lra.
Qed.

Lemma atan2_polar r t : 0 < r -> - PI < t <= PI -> atan2 (r * sin t) (r * cos t) = t.
Proof.
  intros Hr Ht. pose proof (sin2_cos2 t) as H. unfold Rsqr in H.
  destruct (atan2_spec (r * sin t) (r * cos t) r Hr) as (C & S & B).
  { replace (r * cos t * (r * cos t) + r * sin t * (r * sin t)) with (r * r * (sin t * sin t + cos t * cos t)) by ring. rewrite H. ring. }
  apply angle_unique; [exact B|exact Ht| |].
  - rewrite C. field. lra.
  - rewrite S. field. lra.
Qed.

Lemma cs1 t : cos t * cos t + sin t * sin t = 1.
Proof. pose proof (sin2_cos2 t) as H. unfold Rsqr in H. lra. Qed.

(* ---------------- arrays ---------------- *)

Ltac three i := destruct i as [|[|[|i]]]; [| | |exfalso; lia].
Ltac vcase := let i := fresh "i" in let H := fresh "H" in intros i H; three i; clear H.
Ltac mcase := let i := fresh "i" in let j := fresh "j" in let H := fresh "H" in let H' := fresh "H'" in
  intros i j H H'; three i; three j; clear H H'.
Ltac rot_unfold :=
  cbv beta iota zeta delta [mulm mulv transpose ident scalem sum3 mat3 arr3 upd zeros Nat.eqb
    MakeQuaternion kW kX kY kZ quat_of qw qx qy qz QuaternionProduct QuaternionConjugate QuaternionToScaledRotation
    UnitQuaternionRotatePoint pure vadd vscale cross qadd qscale qneg q1 qi qj qk qnorm2 det3 CrossProduct DotProduct] in *.

Lemma make_of o w x y z : quat_of o (MakeQuaternion o w x y z) = mkq w x y z.
Proof. destruct o; reflexivity. Qed.
Lemma quat_eta q : mkq (qw q) (qx q) (qy q) (qz q) = q.
Proof. destruct q; reflexivity. Qed.

(* ---------------- the product ---------------- *)

Definition hmul (a b : quat) : quat :=
  mkq (qw a * qw b - qx a * qx b - qy a * qy b - qz a * qz b)
      (qw a * qx b + qx a * qw b + qy a * qz b - qz a * qy b)
      (qw a * qy b - qx a * qz b + qy a * qw b + qz a * qx b)
      (qw a * qz b + qx a * qy b - qy a * qx b + qz a * qw b).
Definition hconj (a : quat) : quat := mkq (qw a) (- qx a) (- qy a) (- qz a).
Lemma product_hmul o a b : quat_of o (QuaternionProduct o a b) = hmul (quat_of o a) (quat_of o b).
Proof. unfold QuaternionProduct. rewrite make_of. reflexivity. Qed.
Lemma conj_hconj o a : quat_of o (QuaternionConjugate o a) = hconj (quat_of o a).
Proof. unfold QuaternionConjugate. rewrite make_of. reflexivity. Qed.

Ltac qring := cbv beta iota delta [hmul hconj qadd qneg qscale q1 qi qj qk qnorm2 pure qw qx qy qz]; try (f_equal; ring).

Lemma hmul_is_product : is_quaternion_product hmul.
Proof. constructor; intros; try destruct a as [a0 a1 a2 a3]; try destruct b as [b0 b1 b2 b3]; try destruct c as [c0 c1 c2 c3]; qring. Qed.
Lemma product_unique mul : is_quaternion_product mul -> forall a b, mul a b = hmul a b.
Proof.
  intros H a b.
  assert (forall c, c = qadd (qscale (qw c) q1) (qadd (qscale (qx c) qi) (qadd (qscale (qy c) qj) (qscale (qz c) qk)))) as D.
  { intros [w x y z]. qring. }
  rewrite (D a), (D b) at 1.
  repeat (rewrite (mul_add_l mul H) || rewrite (mul_add_r mul H) || rewrite (mul_scale_l mul H) || rewrite (mul_scale_r mul H)).
  rewrite (mul_ii mul H), (mul_jj mul H), (mul_kk mul H), (mul_ij mul H), (mul_ji mul H), (mul_jk mul H), (mul_kj mul H), (mul_ki mul H), (mul_ik mul H).
  rewrite !(mul_1_l mul H), !(mul_1_r mul H). destruct a as [a0 a1 a2 a3], b as [b0 b1 b2 b3]. qring.
Qed.
Lemma hmul_assoc a b c : hmul a (hmul b c) = hmul (hmul a b) c.
Proof. destruct a as [a0 a1 a2 a3], b as [b0 b1 b2 b3], c as [c0 c1 c2 c3]. qring. Qed.
Lemma hmul_norm a b : qnorm2 (hmul a b) = qnorm2 a * qnorm2 b.
Proof. destruct a as [a0 a1 a2 a3], b as [b0 b1 b2 b3]. unfold qnorm2, hmul; cbn [qw qx qy qz]. ring. Qed.
Lemma hconj_norm a : qnorm2 (hconj a) = qnorm2 a.
Proof. destruct a as [a0 a1 a2 a3]. unfold qnorm2, hconj; cbn [qw qx qy qz]. ring. Qed.
Lemma hmul_conj_r a : hmul a (hconj a) = qscale (qnorm2 a) q1.
Proof. destruct a as [a0 a1 a2 a3]. qring. Qed.
Lemma hmul_conj_l a : hmul (hconj a) a = qscale (qnorm2 a) q1.
Proof. destruct a as [a0 a1 a2 a3]. qring. Qed.

(* ---------------- the matrix of a quaternion ---------------- *)

Lemma norm_entry o q : q (kW o) * q (kW o) + q (kX o) * q (kX o) + q (kY o) * q (kY o) + q (kZ o) * q (kZ o) = qnorm2 (quat_of o q).
Proof. reflexivity. Qed.

Lemma scaled_orthogonal o q :
  meq3 (mulm (transpose (QuaternionToScaledRotation o q)) (QuaternionToScaledRotation o q))
       (scalem (qnorm2 (quat_of o q) * qnorm2 (quat_of o q)) ident).
Proof. destruct o; mcase; rot_unfold; ring. Qed.
Lemma scaled_det o q :
  det3 (QuaternionToScaledRotation o q) = qnorm2 (quat_of o q) * qnorm2 (quat_of o q) * qnorm2 (quat_of o q).
Proof. destruct o; rot_unfold; ring. Qed.
Lemma scaled_product o a b :
  meq3 (QuaternionToScaledRotation o (QuaternionProduct o a b))
       (mulm (QuaternionToScaledRotation o a) (QuaternionToScaledRotation o b)).
Proof. destruct o; mcase; rot_unfold; ring. Qed.
(* the matrix applied to p is the vector part of q p q* *)
Lemma scaled_sandwich o q p :
  hmul (hmul (quat_of o q) (pure p)) (hconj (quat_of o q)) = pure (mulv (QuaternionToScaledRotation o q) p).
Proof. destruct o; unfold hmul, hconj; rot_unfold; f_equal; ring. Qed.

Lemma rotation_entry o q i j : QuaternionToRotation o q i j = QuaternionToScaledRotation o q i j * / qnorm2 (quat_of o q).
Proof. unfold QuaternionToRotation. rewrite norm_entry. unfold Rdiv. ring. Qed.
Lemma rotation_unit o q i j : qnorm2 (quat_of o q) = 1 -> QuaternionToRotation o q i j = QuaternionToScaledRotation o q i j.
Proof. intro H. rewrite rotation_entry, H. field. Qed.

Lemma rotation_is_rotation o q : qnorm2 (quat_of o q) <> 0 -> is_rotation (QuaternionToRotation o q).
Proof.
  intro H. split.
  - intros i j Hi Hj. unfold mulm, transpose, sum3. rewrite !rotation_entry.
    pose proof (scaled_orthogonal o q i j Hi Hj) as E. unfold mulm, transpose, scalem, sum3 in E.
    set (S := QuaternionToScaledRotation o q) in *. set (n := qnorm2 (quat_of o q)) in *.
    replace (S 0%nat i * / n * (S 0%nat j * / n) + S 1%nat i * / n * (S 1%nat j * / n) + S 2%nat i * / n * (S 2%nat j * / n))
      with ((S 0%nat i * S 0%nat j + S 1%nat i * S 1%nat j + S 2%nat i * S 2%nat j) * / n * / n) by ring.
    rewrite E. field. exact H.
  - pose proof (scaled_det o q) as E. unfold det3 in *. rewrite !rotation_entry.
    set (S := QuaternionToScaledRotation o q) in *. set (n := qnorm2 (quat_of o q)) in *.
    match type of E with ?l = _ => match goal with |- ?g = 1 => replace g with (l * / n * / n * / n) by ring end end.
    rewrite E. field. exact H.
Qed.
Lemma rotation_product o a b : qnorm2 (quat_of o a) <> 0 -> qnorm2 (quat_of o b) <> 0 ->
  meq3 (QuaternionToRotation o (QuaternionProduct o a b)) (mulm (QuaternionToRotation o a) (QuaternionToRotation o b)).
Proof.
  intros Ha Hb i j Hi Hj. unfold mulm, sum3. rewrite !rotation_entry, (scaled_product o a b i j Hi Hj).
  rewrite product_hmul, hmul_norm. unfold mulm, sum3. field. split; assumption.
Qed.

Lemma unit_rotate_point o q p : qnorm2 (quat_of o q) = 1 ->
  veq3 (UnitQuaternionRotatePoint o q p) (mulv (QuaternionToRotation o q) p).
Proof.
  intros H i Hi. unfold mulv, sum3. rewrite !rotation_unit by exact H. revert i Hi.
  destruct o; vcase; rot_unfold.
  1: assert (q 0%nat * q 0%nat = 1 - q 1%nat * q 1%nat - q 2%nat * q 2%nat - q 3%nat * q 3%nat) as E by lra; rewrite E; ring.
  1: assert (q 0%nat * q 0%nat = 1 - q 1%nat * q 1%nat - q 2%nat * q 2%nat - q 3%nat * q 3%nat) as E by lra; rewrite E; ring.
  1: assert (q 0%nat * q 0%nat = 1 - q 1%nat * q 1%nat - q 2%nat * q 2%nat - q 3%nat * q 3%nat) as E by lra; rewrite E; ring.
  all: assert (q 3%nat * q 3%nat = 1 - q 0%nat * q 0%nat - q 1%nat * q 1%nat - q 2%nat * q 2%nat) as E by lra; rewrite E; ring.
Qed.

Lemma qnorm2_nonneg q : 0 <= qnorm2 q.
Proof. unfold qnorm2. nra. Qed.
Lemma qnorm2_zero q : qnorm2 q = 0 -> q = mkq 0 0 0 0.
Proof.
  destruct q as [w x y z]. unfold qnorm2; cbn [qw qx qy qz]. intro H.
  assert (w = 0) as -> by nra. assert (x = 0) as -> by nra. assert (y = 0) as -> by nra. assert (z = 0) as -> by nra. reflexivity.
Qed.

Lemma scale_scaled o s q i j : (i < 3)%nat -> (j < 3)%nat ->
  QuaternionToScaledRotation o (MakeQuaternion o (s * q (kW o)) (s * q (kX o)) (s * q (kY o)) (s * q (kZ o))) i j =
  s * s * QuaternionToScaledRotation o q i j.
Proof. revert i j. destruct o; mcase; rot_unfold; ring. Qed.

Lemma rotate_point o q p : qnorm2 (quat_of o q) <> 0 ->
  veq3 (QuaternionRotatePoint o q p) (mulv (QuaternionToRotation o q) p).
Proof.
  intros H i Hi. unfold QuaternionRotatePoint. rewrite norm_entry.
  pose proof (qnorm2_nonneg (quat_of o q)) as H0. assert (0 < qnorm2 (quat_of o q)) as HP by lra.
  pose proof (sqrt_pos_arg _ HP) as HS. pose proof (sqrt_sq _ H0) as HQ.
  set (n := sqrt (qnorm2 (quat_of o q))) in *.
  assert (qnorm2 (quat_of o (MakeQuaternion o (1 / n * q (kW o)) (1 / n * q (kX o)) (1 / n * q (kY o)) (1 / n * q (kZ o)))) = 1) as U.
  { rewrite make_of. unfold qnorm2; cbn [qw qx qy qz].
    replace (1 / n * q (kW o) * (1 / n * q (kW o)) + 1 / n * q (kX o) * (1 / n * q (kX o)) + 1 / n * q (kY o) * (1 / n * q (kY o)) + 1 / n * q (kZ o) * (1 / n * q (kZ o)))
      with (/ n * / n * qnorm2 (quat_of o q)) by (unfold qnorm2, quat_of, Rdiv; cbn [qw qx qy qz]; ring).
    rewrite <- HQ. field. lra. }
  rewrite (unit_rotate_point o _ p U i Hi). unfold mulv, sum3.
  rewrite !(rotation_unit o _ i _ U), !scale_scaled, !rotation_entry by lia. rewrite <- HQ. field. lra.
Qed.

(* ---------------- angle-axis ---------------- *)

Lemma hypot3_norm a : hypot3 (a 0%nat) (a 1%nat) (a 2%nat) = norm3 a.
Proof. reflexivity. Qed.
Lemma norm3_sq a : norm3 a * norm3 a = a 0%nat * a 0%nat + a 1%nat * a 1%nat + a 2%nat * a 2%nat.
Proof. unfold norm3. apply sqrt_sq. nra. Qed.
Lemma norm3_nonneg a : 0 <= norm3 a.
Proof. apply sqrt_pos. Qed.
Lemma norm3_zero a : norm3 a = 0 -> a 0%nat = 0 /\ a 1%nat = 0 /\ a 2%nat = 0.
Proof. intro H. pose proof (norm3_sq a) as E. rewrite H in E. split; [nra|split; nra]. Qed.

Lemma angle_axis_unit o a : qnorm2 (quat_of o (AngleAxisToQuaternion o a)) = 1.
Proof.
  unfold AngleAxisToQuaternion. cbv zeta. rewrite hypot3_norm. destruct (Req_EM_T (norm3 a) 0) as [E|E]; rewrite make_of; unfold qnorm2; cbn [qw qx qy qz].
  - destruct (norm3_zero a E) as (-> & -> & ->). lra.
  - pose proof (norm3_sq a) as S. pose proof (cs1 (norm3 a * 0.5)) as C. set (c := cos (norm3 a * 0.5)) in *. set (s := sin (norm3 a * 0.5)) in *.
    replace (c * c + a 0%nat * (s / norm3 a) * (a 0%nat * (s / norm3 a)) + a 1%nat * (s / norm3 a) * (a 1%nat * (s / norm3 a)) + a 2%nat * (s / norm3 a) * (a 2%nat * (s / norm3 a)))
      with (c * c + (a 0%nat * a 0%nat + a 1%nat * a 1%nat + a 2%nat * a 2%nat) * (s * s / (norm3 a * norm3 a))) by (field; exact E).
    rewrite <- S. replace (norm3 a * norm3 a * (s * s / (norm3 a * norm3 a))) with (s * s) by (field; exact E). exact C.
Qed.

Lemma half_angles t : let c := cos (t * 0.5) in let s := sin (t * 0.5) in cos t = c * c - s * s /\ sin t = 2 * s * c /\ c * c + s * s = 1.
Proof.
  cbv zeta. pose proof (cos_2a (t * 0.5)) as C. pose proof (sin_2a (t * 0.5)) as S0.
  replace (2 * (t * 0.5)) with t in C, S0 by lra. split; [exact C|]. split; [exact S0|]. apply cs1.
Qed.

Lemma angle_axis_matrix o a :
  meq3 (AngleAxisToRotationMatrix a) (QuaternionToRotation o (AngleAxisToQuaternion o a)).
Proof.
  intros i j Hi Hj. rewrite rotation_unit by apply angle_axis_unit.
  unfold AngleAxisToRotationMatrix, AngleAxisToQuaternion. cbv zeta. rewrite hypot3_norm.
  destruct (Req_EM_T (norm3 a) 0) as [E|E].
  - destruct (norm3_zero a E) as (E0 & E1 & E2). revert i j Hi Hj. destruct o; mcase; rot_unfold; rewrite ?E0, ?E1, ?E2; field.
  - pose proof (norm3_sq a) as S. destruct (half_angles (norm3 a)) as (EC & ES & CS).
    set (c := cos (norm3 a * 0.5)) in *. set (s := sin (norm3 a * 0.5)) in *. set (t := norm3 a) in *. clearbody c s t.
    rewrite EC, ES. assert (c * c = 1 - s * s) as CC by lra.
    set (u := a 0%nat / t) in *. set (v := a 1%nat / t). set (w := a 2%nat / t).
    assert (a 0%nat = u * t) as A0 by (unfold u; field; exact E).
    assert (a 1%nat = v * t) as A1 by (unfold v; field; exact E).
    assert (a 2%nat = w * t) as A2 by (unfold w; field; exact E).
    assert (u * u + v * v + w * w = 1) as U.
    { rewrite A0, A1, A2 in S. apply Rmult_eq_reg_l with (t * t); [lra|]. intro Z. apply E. nra. }
    assert (forall x, x * t * (s / t) = x * s) as X by (intro x; field; exact E).
    rewrite A0, A1, A2, !X. clearbody u v w. clear X A0 A1 A2 S EC ES E.
    assert (w * w = 1 - u * u - v * v) as WW by lra.
    assert (w * s * (w * s) = (1 - u * u - v * v) * (s * s)) as WS by (rewrite <- WW; ring).
    revert i j Hi Hj. destruct o; mcase; rot_unfold; rewrite ?WS, ?CC, ?WW; ring.
Qed.
