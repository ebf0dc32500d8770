(* Points, round trips between quaternions, angle-axis vectors and matrices. *)
From Coq Require Import Reals List Arith Lia Lra Psatz.
From Verif Require Import RotationModel RotationSpec RotationProofs.
Import ListNotations.
Open Scope R_scope.

(* ---------------- rotating a point ---------------- *)

Lemma rotate_point_matrix a p : veq3 (AngleAxisRotatePoint a p) (mulv (AngleAxisToRotationMatrix a) p).
Proof.
  intros i Hi. unfold AngleAxisRotatePoint, AngleAxisToRotationMatrix. cbv zeta. rewrite hypot3_norm. unfold mulv.
  destruct (Req_EM_T (norm3 a) 0) as [E|E]; revert i Hi; vcase; rot_unfold; try ring; field; exact E.
Qed.

Lemma rotate_point_rotates a : rotates_about a (AngleAxisRotatePoint a).
Proof.
  constructor.
  - intros p q i Hi. unfold vadd. rewrite !(rotate_point_matrix a _ i Hi). unfold mulv, sum3. ring.
  - intros c p i Hi. unfold vscale. rewrite !(rotate_point_matrix a _ i Hi). unfold mulv, sum3. ring.
  - intros i Hi. rewrite (rotate_point_matrix a a i Hi). unfold mulv, AngleAxisToRotationMatrix. cbv zeta. rewrite hypot3_norm.
    pose proof (norm3_sq a) as S. destruct (Req_EM_T (norm3 a) 0) as [E|E].
    + destruct (norm3_zero a E) as (E0 & E1 & E2). revert i Hi. vcase; rot_unfold; rewrite ?E0, ?E1, ?E2; ring.
    + set (t := norm3 a) in *. set (c := cos t) in *. set (s := sin t) in *. clearbody c s.
      set (u := a 0%nat / t) in *. set (v := a 1%nat / t). set (w := a 2%nat / t).
      assert (a 0%nat = u * t) as A0 by (unfold u; field; exact E).
      assert (a 1%nat = v * t) as A1 by (unfold v; field; exact E).
      assert (a 2%nat = w * t) as A2 by (unfold w; field; exact E).
      assert (u * u + v * v + w * w = 1) as U.
      { rewrite A0, A1, A2 in S. apply Rmult_eq_reg_l with (t * t); [lra|]. intro Z. apply E. nra. }
      clearbody u v w. revert i Hi. vcase; rot_unfold; rewrite A0, A1, A2.
      * transitivity (u * t * (c + (1 - c) * (u * u + v * v + w * w))); [ring|rewrite U; ring].
      * transitivity (v * t * (c + (1 - c) * (u * u + v * v + w * w))); [ring|rewrite U; ring].
      * transitivity (w * t * (c + (1 - c) * (u * u + v * v + w * w))); [ring|rewrite U; ring].
  - intros p HP. unfold perpendicular in HP. unfold AngleAxisRotatePoint. cbv zeta. rewrite hypot3_norm.
    destruct (Req_EM_T (norm3 a) 0) as [E|E].
    + exists 1. rewrite E, sin_0, cos_0. split; [ring|]. destruct (norm3_zero a E) as (E0 & E1 & E2).
      vcase; rot_unfold; rewrite ?E0, ?E1, ?E2; ring.
    + exists (sin (norm3 a) / norm3 a). split; [field; exact E|].
      assert ((a 0%nat * (1 / norm3 a) * p 0%nat + a 1%nat * (1 / norm3 a) * p 1%nat + a 2%nat * (1 / norm3 a) * p 2%nat) = 0) as Z.
      { replace (a 0%nat * (1 / norm3 a) * p 0%nat + a 1%nat * (1 / norm3 a) * p 1%nat + a 2%nat * (1 / norm3 a) * p 2%nat)
          with ((a 0%nat * p 0%nat + a 1%nat * p 1%nat + a 2%nat * p 2%nat) / norm3 a) by (field; exact E).
        rewrite HP. field. exact E. }
      rewrite Z. vcase; rot_unfold; field; exact E.
Qed.

(* ---------------- quaternion and angle-axis ---------------- *)

Lemma to_angle_axis_spec o q : qnorm2 (quat_of o q) = 1 ->
  let a := QuaternionToAngleAxis o q in
  norm3 a <= PI /\
  (quat_of o (AngleAxisToQuaternion o a) = quat_of o q \/ quat_of o (AngleAxisToQuaternion o a) = qneg (quat_of o q)).
Proof.
  intros U a. pose proof PI_RGT_0 as HPI.
  set (w := q (kW o)). set (x := q (kX o)). set (y := q (kY o)). set (z := q (kZ o)).
  assert (quat_of o q = mkq w x y z) as EQ by reflexivity. rewrite EQ in *. unfold qnorm2 in U; cbn [qw qx qy qz] in U.
  set (n := hypot3 x y z).
  assert (n * n = x * x + y * y + z * z) as N by (apply sqrt_sq; nra).
  assert (0 <= n) as N0 by apply sqrt_pos.
  destruct (Req_EM_T n 0) as [E|E].
  - assert (x = 0) as X by nra. assert (y = 0) as Y by nra. assert (z = 0) as Z by nra.
    assert (a 0%nat = 0 /\ a 1%nat = 0 /\ a 2%nat = 0) as (A0 & A1 & A2).
    { unfold a, QuaternionToAngleAxis. fold x y z. fold n. destruct (Req_EM_T n 0); [|contradiction].
      rewrite X, Y, Z. cbn. split; [ring|split; ring]. }
    assert (norm3 a = 0) as NA. { unfold norm3. rewrite A0, A1, A2. replace (0 * 0 + 0 * 0 + 0 * 0) with 0 by ring. apply sqrt_0. }
    split; [rewrite NA; lra|].
    unfold AngleAxisToQuaternion. cbv zeta. rewrite hypot3_norm. destruct (Req_EM_T (norm3 a) 0); [|contradiction].
    rewrite make_of, A0, A1, A2, X, Y, Z. assert (w * w = 1) as W by nra.
    assert (w = 1 \/ w = -1) as [-> | ->] by (destruct (Rle_dec 0 w); [left|right]; nra).
    + left. f_equal; ring.
    + right. unfold qneg, qscale; cbn [qw qx qy qz]. f_equal; ring.
  - assert (0 < n) as NP by lra. set (sg := sign_of w). set (h := atan2 (sg * n) (sg * w)).
    assert (sg * sg = 1) as SG by (unfold sg, sign_of; destruct (Rlt_dec w 0); ring).
    assert (sg = 1 \/ sg = -1) as SG2 by (unfold sg, sign_of; destruct (Rlt_dec w 0); auto).
    assert (0 <= sg * w) as SW by (unfold sg, sign_of; destruct (Rlt_dec w 0); lra).
    destruct (atan2_spec (sg * n) (sg * w) 1) as (HC & HS & HB).
    { lra. } { replace (sg * w * (sg * w) + sg * n * (sg * n)) with (sg * sg * (w * w + n * n)) by ring. rewrite SG, N. lra. }
    fold h in HC, HS, HB. replace (sg * w / 1) with (sg * w) in HC by field. replace (sg * n / 1) with (sg * n) in HS by field.
    assert (- (PI / 2) <= h <= PI / 2) as HB2.
    { split.
      - destruct (Rle_dec (- (PI / 2)) h); [assumption|]. exfalso. assert (cos (- h) < 0) by (apply cos_lt_0; lra). rewrite cos_neg in H. lra.
      - destruct (Rle_dec h (PI / 2)); [assumption|]. exfalso. assert (cos h < 0) by (apply cos_lt_0; lra). lra. }
    assert (a 0%nat = x * (2 * h / n) /\ a 1%nat = y * (2 * h / n) /\ a 2%nat = z * (2 * h / n)) as (A0 & A1 & A2).
    { unfold a, QuaternionToAngleAxis. fold x y z w. fold n. destruct (Req_EM_T n 0); [contradiction|]. split; [|split]; reflexivity. }
    assert (norm3 a = 2 * Rabs h) as NA.
    { unfold norm3. apply sqrt_uniq; [pose proof (Rabs_pos h); lra|]. rewrite A0, A1, A2.
      replace (x * (2 * h / n) * (x * (2 * h / n)) + y * (2 * h / n) * (y * (2 * h / n)) + z * (2 * h / n) * (z * (2 * h / n)))
        with ((x * x + y * y + z * z) * (4 * (h * h) / (n * n))) by (field; exact E).
      rewrite <- N. replace (n * n * (4 * (h * h) / (n * n))) with (4 * (h * h)) by (field; exact E).
      replace (2 * Rabs h * (2 * Rabs h)) with (4 * (Rabs h * Rabs h)) by ring. rewrite <- Rabs_mult, Rabs_right; [ring|nra]. }
    split. { rewrite NA. unfold Rabs. destruct (Rcase_abs h); lra. }
    assert (h <> 0) as HN. { intro Z. rewrite Z, sin_0 in HS. destruct SG2 as [G|G]; rewrite G in HS; lra. }
    assert (norm3 a <> 0) as NAN. { rewrite NA. pose proof (Rabs_pos_lt h HN). lra. }
    unfold AngleAxisToQuaternion. cbv zeta. rewrite hypot3_norm. destruct (Req_EM_T (norm3 a) 0); [contradiction|].
    rewrite make_of.
    assert (cos (norm3 a * 0.5) = sg * w) as C2.
    { rewrite NA. replace (2 * Rabs h * 0.5) with (Rabs h) by lra. unfold Rabs. destruct (Rcase_abs h); [rewrite cos_neg|]; exact HC. }
    assert (forall v, v * (2 * h / n) * (sin (norm3 a * 0.5) / norm3 a) = sg * v) as S2.
    { intro v. rewrite NA. replace (2 * Rabs h * 0.5) with (Rabs h) by lra.
      assert (h * (sin (Rabs h) / Rabs h) = sg * n) as Q.
      { unfold Rabs. destruct (Rcase_abs h); [rewrite sin_neg|]; rewrite <- HS; field; lra. }
      replace (v * (2 * h / n) * (sin (Rabs h) / (2 * Rabs h))) with (v / n * (h * (sin (Rabs h) / Rabs h))).
      - rewrite Q. field. exact E.
      - field. split; [|exact E]. apply Rabs_no_R0, HN. }
    rewrite C2, A0, A1, A2, !S2. destruct SG2 as [-> | ->].
    + left. f_equal; ring.
    + right. unfold qneg, qscale; cbn [qw qx qy qz]. reflexivity.
Qed.

Lemma angle_axis_round_trip o a : norm3 a <= PI -> veq3 (QuaternionToAngleAxis o (AngleAxisToQuaternion o a)) a.
Proof.
  intro HP. pose proof PI_RGT_0 as HPI. unfold AngleAxisToQuaternion. cbv zeta. rewrite hypot3_norm.
  pose proof (norm3_sq a) as S. pose proof (norm3_nonneg a) as S0.
  destruct (Req_EM_T (norm3 a) 0) as [E|E].
  - destruct (norm3_zero a E) as (E0 & E1 & E2).
    unfold QuaternionToAngleAxis. cbv zeta.
    assert (forall w x y z, let q := MakeQuaternion o w x y z in q (kW o) = w /\ q (kX o) = x /\ q (kY o) = y /\ q (kZ o) = z) as M
      by (destruct o; intros; repeat split; reflexivity).
    destruct (M 1 (a 0%nat * 0.5) (a 1%nat * 0.5) (a 2%nat * 0.5)) as (-> & -> & -> & ->).
    rewrite E0, E1, E2. vcase; rot_unfold; rewrite ?E0, ?E1, ?E2; ring.
  - assert (0 < norm3 a) as TP by lra. set (t := norm3 a) in *.
    assert (0 < sin (t * 0.5)) as SP by (apply sin_gt_0; lra).
    assert (0 <= cos (t * 0.5)) as CP by (apply cos_ge_0; lra).
    unfold QuaternionToAngleAxis. cbv zeta.
    assert (forall w x y z, let q := MakeQuaternion o w x y z in q (kW o) = w /\ q (kX o) = x /\ q (kY o) = y /\ q (kZ o) = z) as M
      by (destruct o; intros; repeat split; reflexivity).
    set (k := sin (t * 0.5) / t).
    destruct (M (cos (t * 0.5)) (a 0%nat * k) (a 1%nat * k) (a 2%nat * k)) as (-> & -> & -> & ->).
    assert (hypot3 (a 0%nat * k) (a 1%nat * k) (a 2%nat * k) = sin (t * 0.5)) as H.
    { unfold hypot3. apply sqrt_uniq; [lra|].
      replace (a 0%nat * k * (a 0%nat * k) + a 1%nat * k * (a 1%nat * k) + a 2%nat * k * (a 2%nat * k))
        with ((a 0%nat * a 0%nat + a 1%nat * a 1%nat + a 2%nat * a 2%nat) * (k * k)) by ring.
      rewrite <- S. unfold k. field. exact E. }
    rewrite H. destruct (Req_EM_T (sin (t * 0.5)) 0) as [Z|Z]; [lra|].
    unfold sign_of. destruct (Rlt_dec (cos (t * 0.5)) 0) as [L|L]; [lra|].
    rewrite (atan2_polar 1 (t * 0.5)) by lra.
    vcase; rot_unfold; unfold k; field_simplify_eq; try (split; assumption); try lra.
Qed.

(* ---------------- rotation matrices ---------------- *)

Section Matrix.
Variable m : mat.
Hypothesis HR : is_rotation m.
Notation a := (m 0%nat 0%nat). Notation b := (m 0%nat 1%nat). Notation c := (m 0%nat 2%nat).
Notation d := (m 1%nat 0%nat). Notation e := (m 1%nat 1%nat). Notation f := (m 1%nat 2%nat).
Notation g := (m 2%nat 0%nat). Notation h := (m 2%nat 1%nat). Notation k := (m 2%nat 2%nat).

Lemma columns :
  a * a + d * d + g * g = 1 /\ b * b + e * e + h * h = 1 /\ c * c + f * f + k * k = 1 /\
  a * b + d * e + g * h = 0 /\ a * c + d * f + g * k = 0 /\ b * c + e * f + h * k = 0.
Proof.
  destruct HR as [H _].
  pose proof (H 0 0)%nat as H1. pose proof (H 1 1)%nat as H2. pose proof (H 2 2)%nat as H3.
  pose proof (H 0 1)%nat as H4. pose proof (H 0 2)%nat as H5. pose proof (H 1 2)%nat as H6.
  unfold mulm, transpose, ident, sum3 in *. cbn [Nat.eqb] in *.
  split; [apply H1; lia|]. split; [apply H2; lia|]. split; [apply H3; lia|]. split; [apply H4; lia|]. split; [apply H5; lia|apply H6; lia].
Qed.

Lemma cofactors :
  e * k - f * h = a /\ f * g - d * k = b /\ d * h - e * g = c /\
  h * c - b * k = d /\ a * k - c * g = e /\ b * g - a * h = f /\
  b * f - c * e = g /\ c * d - a * f = h /\ a * e - b * d = k.
Proof.
  destruct columns as (C1 & C2 & C3 & C4 & C5 & C6). destruct HR as [_ D]. unfold det3 in D.
  assert (forall x y, x - y = 0 -> x = y) as Z by (intros; lra).
  repeat split; apply Z.
  - transitivity ((e * k - f * h) * (1 - (a * a + d * d + g * g)) - (f * g - d * k) * (a * b + d * e + g * h) - (d * h - e * g) * (a * c + d * f + g * k)
        + a * (a * (e * k - f * h) - b * (d * k - f * g) + c * (d * h - e * g) - 1)); [ring|rewrite C1, C4, C5, D; ring].
  - transitivity ((f * g - d * k) * (1 - (b * b + e * e + h * h)) - (e * k - f * h) * (a * b + d * e + g * h) - (d * h - e * g) * (b * c + e * f + h * k)
        + b * (a * (e * k - f * h) - b * (d * k - f * g) + c * (d * h - e * g) - 1)); [ring|rewrite C2, C4, C6, D; ring].
  - transitivity ((d * h - e * g) * (1 - (c * c + f * f + k * k)) - (e * k - f * h) * (a * c + d * f + g * k) - (f * g - d * k) * (b * c + e * f + h * k)
        + c * (a * (e * k - f * h) - b * (d * k - f * g) + c * (d * h - e * g) - 1)); [ring|rewrite C3, C5, C6, D; ring].
  - transitivity ((h * c - b * k) * (1 - (a * a + d * d + g * g)) - (a * k - c * g) * (a * b + d * e + g * h) - (b * g - a * h) * (a * c + d * f + g * k)
        + d * (a * (e * k - f * h) - b * (d * k - f * g) + c * (d * h - e * g) - 1)); [ring|rewrite C1, C4, C5, D; ring].
  - transitivity ((a * k - c * g) * (1 - (b * b + e * e + h * h)) - (h * c - b * k) * (a * b + d * e + g * h) - (b * g - a * h) * (b * c + e * f + h * k)
        + e * (a * (e * k - f * h) - b * (d * k - f * g) + c * (d * h - e * g) - 1)); [ring|rewrite C2, C4, C6, D; ring].
  - transitivity ((b * g - a * h) * (1 - (c * c + f * f + k * k)) - (h * c - b * k) * (a * c + d * f + g * k) - (a * k - c * g) * (b * c + e * f + h * k)
        + f * (a * (e * k - f * h) - b * (d * k - f * g) + c * (d * h - e * g) - 1)); [ring|rewrite C3, C5, C6, D; ring].
  - transitivity ((b * f - c * e) * (1 - (a * a + d * d + g * g)) - (c * d - a * f) * (a * b + d * e + g * h) - (a * e - b * d) * (a * c + d * f + g * k)
        + g * (a * (e * k - f * h) - b * (d * k - f * g) + c * (d * h - e * g) - 1)); [ring|rewrite C1, C4, C5, D; ring].
  - transitivity ((c * d - a * f) * (1 - (b * b + e * e + h * h)) - (b * f - c * e) * (a * b + d * e + g * h) - (a * e - b * d) * (b * c + e * f + h * k)
        + h * (a * (e * k - f * h) - b * (d * k - f * g) + c * (d * h - e * g) - 1)); [ring|rewrite C2, C4, C6, D; ring].
  - transitivity ((a * e - b * d) * (1 - (c * c + f * f + k * k)) - (b * f - c * e) * (a * c + d * f + g * k) - (c * d - a * f) * (b * c + e * f + h * k)
        + k * (a * (e * k - f * h) - b * (d * k - f * g) + c * (d * h - e * g) - 1)); [ring|rewrite C3, C5, C6, D; ring].
Qed.

Lemma rows :
  a * a + b * b + c * c = 1 /\ d * d + e * e + f * f = 1 /\ g * g + h * h + k * k = 1 /\
  a * d + b * e + c * f = 0 /\ a * g + b * h + c * k = 0 /\ d * g + e * h + f * k = 0.
Proof.
  destruct cofactors as (A & B & C & D & E & F & G & H & K). destruct HR as [_ DT]. unfold det3 in DT.
  split; [|split; [|split; [|split; [|split]]]].
  - rewrite <- A at 1. rewrite <- B at 1. rewrite <- C at 1. lra.
  - rewrite <- D at 1. rewrite <- E at 1. rewrite <- F at 1. lra.
  - rewrite <- G at 1. rewrite <- H at 1. rewrite <- K at 1. lra.
  - rewrite <- A at 1. rewrite <- B at 1. rewrite <- C at 1. ring.
  - rewrite <- A at 1. rewrite <- B at 1. rewrite <- C at 1. ring.
  - rewrite <- D at 1. rewrite <- E at 1. rewrite <- F at 1. ring.
Qed.
End Matrix.
