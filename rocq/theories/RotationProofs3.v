(* Matrices to quaternions; Euler angles. *)
From Coq Require Import Reals List Arith Lia Lra Psatz.
From Verif Require Import RotationModel RotationSpec RotationProofs RotationProofs2.
Import ListNotations.
Open Scope R_scope.

(* ---------------- matrix to quaternion ---------------- *)

Section Matrix.
Variable m : mat.
Hypothesis HR : is_rotation m.
Notation a := (m 0%nat 0%nat). Notation b := (m 0%nat 1%nat). Notation c := (m 0%nat 2%nat).
Notation d := (m 1%nat 0%nat). Notation e := (m 1%nat 1%nat). Notation f := (m 1%nat 2%nat).
Notation g := (m 2%nat 0%nat). Notation h := (m 2%nat 1%nat). Notation k := (m 2%nat 2%nat).

Lemma minors :
  let W := 1 + a + e + k in let X := 1 + a - e - k in let Y := 1 - a + e - k in let Z := 1 - a - e + k in
  (h - f) * (h - f) = W * X /\ (c - g) * (c - g) = W * Y /\ (d - b) * (d - b) = W * Z /\
  (b + d) * (b + d) = X * Y /\ (c + g) * (c + g) = X * Z /\ (f + h) * (f + h) = Y * Z /\
  (h - f) * (c - g) = W * (b + d) /\ (h - f) * (d - b) = W * (c + g) /\ (c - g) * (d - b) = W * (f + h) /\
  (h - f) * (b + d) = X * (c - g) /\ (h - f) * (c + g) = X * (d - b) /\ (b + d) * (c + g) = X * (f + h) /\
  (c - g) * (b + d) = Y * (h - f) /\ (c - g) * (f + h) = Y * (d - b) /\ (b + d) * (f + h) = Y * (c + g) /\
  (d - b) * (c + g) = Z * (h - f) /\ (d - b) * (f + h) = Z * (c - g) /\ (c + g) * (f + h) = Z * (b + d).
Proof.
  cbv zeta. destruct (cofactors m HR) as (K1 & K2 & K3 & K4 & K5 & K6 & K7 & K8 & K9).
  destruct (columns m HR) as (C1 & C2 & C3 & C4 & C5 & C6). destruct (rows m HR) as (R1 & R2 & R3 & R4 & R5 & R6).
  repeat split; lra.
Qed.

(* the ten products of the entries determine the matrix *)
Lemma from_products q :
  let w := q 0%nat in let x := q 1%nat in let y := q 2%nat in let z := q 3%nat in
  4 * (w * w) = 1 + a + e + k -> 4 * (x * x) = 1 + a - e - k -> 4 * (y * y) = 1 - a + e - k -> 4 * (z * z) = 1 - a - e + k ->
  4 * (w * x) = h - f -> 4 * (w * y) = c - g -> 4 * (w * z) = d - b ->
  4 * (x * y) = b + d -> 4 * (x * z) = c + g -> 4 * (y * z) = f + h ->
  qnorm2 (quat_of CeresQuaternionOrder q) = 1 /\ meq3 (QuaternionToRotation CeresQuaternionOrder q) m.
Proof.
  cbv zeta. intros. assert (qnorm2 (quat_of CeresQuaternionOrder q) = 1) as U.
  { unfold qnorm2, quat_of, kW, kX, kY, kZ; cbn [qw qx qy qz]. lra. }
  split; [exact U|]. intros i j Hi Hj. rewrite rotation_unit by exact U. revert i j Hi Hj. mcase; rot_unfold; lra.
Qed.

Lemma pivot P p n t : 0 < P -> t = sqrt P -> p = 0.5 * t -> n = 0.5 / t ->
  4 * (p * p) = P /\ (forall N, 4 * (p * (N * n)) = N) /\ (forall N N' M, N * N' = P * M -> 4 * (N * n * (N' * n)) = M).
Proof.
  intros HP -> -> ->. assert (0.5 = / 2) as -> by lra. pose proof (sqrt_pos_arg P HP) as S. pose proof (sqrt_sq P (Rlt_le _ _ HP)) as Q.
  split; [lra|]. split.
  - intro N. field. lra.
  - intros N N' M E. replace (4 * (N * (/ 2 / sqrt P) * (N' * (/ 2 / sqrt P)))) with (N * N' / (sqrt P * sqrt P)) by (field; lra).
    rewrite E, Q. field. lra.
Qed.

Lemma matrix_to_quaternion :
  exists q, RotationMatrixToQuaternion CeresQuaternionOrder m = Some q /\
    qnorm2 (quat_of CeresQuaternionOrder q) = 1 /\ meq3 (QuaternionToRotation CeresQuaternionOrder q) m.
Proof.
  pose proof minors as MM. cbv zeta in MM.
  destruct MM as (M1 & M2 & M3 & M4 & M5 & M6 & M7 & M8 & M9 & M10 & M11 & M12 & M13 & M14 & M15 & M16 & M17 & M18).
  unfold RotationMatrixToQuaternion. cbv zeta.
  destruct (Rle_dec 0 (a + e + k)) as [T|T].
  - eexists. split; [reflexivity|].
    destruct (pivot (a + e + k + 1) _ _ _ ltac:(lra) eq_refl eq_refl eq_refl) as (Q1 & Q2 & Q3).
    apply from_products; unfold MakeQuaternion, kW, kX, kY, kZ, upd; cbn [Nat.eqb];
      [rewrite Q1; lra|apply Q3; lra|apply Q3; lra|apply Q3; lra|apply Q2|apply Q2|apply Q2|apply Q3; lra|apply Q3; lra|apply Q3; lra].
  - unfold kW, kX, kY. destruct (Rlt_dec a e) as [L|L]; cbn [get Nat.ltb Nat.leb andb].
    + change (get m 1 1) with (Some e). cbv iota beta. destruct (Rlt_dec e k) as [L2|L2].
      * change (get m 2 2) with (Some k). cbv iota beta. eexists. split; [reflexivity|].
        change ((2 + 1) mod 3)%nat with 0%nat. change ((0 + 1) mod 3)%nat with 1%nat.
        destruct (pivot (k - a - e + 1) _ _ _ ltac:(lra) eq_refl eq_refl eq_refl) as (Q1 & Q2 & Q3).
        apply from_products; unfold upd; cbn [Nat.eqb Nat.add].
        -- apply Q3. lra. -- apply Q3. lra. -- apply Q3. lra. -- rewrite Q1. lra.
        -- apply Q3. lra. -- apply Q3. lra. -- rewrite (Rmult_comm (_ * _)). apply Q2.
        -- apply Q3. lra. -- rewrite (Rmult_comm (_ * _)). rewrite Q2. lra. -- rewrite (Rmult_comm (_ * _)). rewrite Q2. lra.
      * change (get m 1 1) with (Some e). cbv iota beta. eexists. split; [reflexivity|].
        change ((1 + 1) mod 3)%nat with 2%nat. change ((2 + 1) mod 3)%nat with 0%nat.
        destruct (pivot (e - k - a + 1) _ _ _ ltac:(lra) eq_refl eq_refl eq_refl) as (Q1 & Q2 & Q3).
        apply from_products; unfold upd; cbn [Nat.eqb Nat.add].
        -- apply Q3. lra. -- apply Q3. lra. -- rewrite Q1. lra. -- apply Q3. lra.
        -- apply Q3. lra. -- rewrite (Rmult_comm (_ * _)). apply Q2. -- apply Q3. lra.
        -- rewrite (Rmult_comm (_ * _)). rewrite Q2. lra. -- apply Q3. lra. -- rewrite Q2. lra.
    + change (get m 0 0) with (Some a). cbv iota beta. destruct (Rlt_dec a k) as [L2|L2].
      * change (get m 2 2) with (Some k). cbv iota beta. eexists. split; [reflexivity|].
        change ((2 + 1) mod 3)%nat with 0%nat. change ((0 + 1) mod 3)%nat with 1%nat.
        destruct (pivot (k - a - e + 1) _ _ _ ltac:(lra) eq_refl eq_refl eq_refl) as (Q1 & Q2 & Q3).
        apply from_products; unfold upd; cbn [Nat.eqb Nat.add].
        -- apply Q3. lra. -- apply Q3. lra. -- apply Q3. lra. -- rewrite Q1. lra.
        -- apply Q3. lra. -- apply Q3. lra. -- rewrite (Rmult_comm (_ * _)). apply Q2.
        -- apply Q3. lra. -- rewrite (Rmult_comm (_ * _)). rewrite Q2. lra. -- rewrite (Rmult_comm (_ * _)). rewrite Q2. lra.
      * change (get m 0 0) with (Some a). cbv iota beta. eexists. split; [reflexivity|].
        change ((0 + 1) mod 3)%nat with 1%nat. change ((1 + 1) mod 3)%nat with 2%nat.
        destruct (pivot (a - e - k + 1) _ _ _ ltac:(lra) eq_refl eq_refl eq_refl) as (Q1 & Q2 & Q3).
        apply from_products; unfold upd; cbn [Nat.eqb Nat.add].
        -- apply Q3. lra. -- rewrite Q1. lra. -- apply Q3. lra. -- apply Q3. lra.
        -- rewrite (Rmult_comm (_ * _)). apply Q2. -- apply Q3. lra. -- apply Q3. lra.
        -- rewrite Q2. lra. -- rewrite Q2. lra. -- apply Q3. lra.
Qed.
End Matrix.

(* two unit quaternions with the same matrix are equal up to sign *)
Lemma same_matrix o o' q q' : qnorm2 (quat_of o q) = 1 -> qnorm2 (quat_of o' q') = 1 ->
  meq3 (QuaternionToRotation o q) (QuaternionToRotation o' q') ->
  quat_of o' q' = quat_of o q \/ quat_of o' q' = qneg (quat_of o q).
Proof.
  intros U U' H.
  assert (forall i j, (i < 3)%nat -> (j < 3)%nat -> QuaternionToScaledRotation o q i j = QuaternionToScaledRotation o' q' i j) as E.
  { intros i j Hi Hj. rewrite <- !rotation_unit by assumption. apply H; assumption. }
  pose proof (E 0 0 ltac:(lia) ltac:(lia))%nat as E00. pose proof (E 0 1 ltac:(lia) ltac:(lia))%nat as E01.
  pose proof (E 0 2 ltac:(lia) ltac:(lia))%nat as E02. pose proof (E 1 0 ltac:(lia) ltac:(lia))%nat as E10.
  pose proof (E 1 1 ltac:(lia) ltac:(lia))%nat as E11. pose proof (E 1 2 ltac:(lia) ltac:(lia))%nat as E12.
  pose proof (E 2 0 ltac:(lia) ltac:(lia))%nat as E20. pose proof (E 2 1 ltac:(lia) ltac:(lia))%nat as E21.
  pose proof (E 2 2 ltac:(lia) ltac:(lia))%nat as E22. clear E H.
  unfold QuaternionToScaledRotation, mat3 in *. unfold qnorm2, quat_of, qneg, qscale in *. cbn [qw qx qy qz] in *. cbv zeta beta iota in *.
  set (w := q (kW o)) in *. set (x := q (kX o)) in *. set (y := q (kY o)) in *. set (z := q (kZ o)) in *.
  set (w' := q' (kW o')) in *. set (x' := q' (kX o')) in *. set (y' := q' (kY o')) in *. set (z' := q' (kZ o')) in *.
  clearbody w x y z w' x' y' z'.
  assert (w * w = w' * w') as P0 by lra. assert (x * x = x' * x') as P1 by lra. assert (y * y = y' * y') as P2 by lra.
  assert (z * z = z' * z') as P3 by lra. assert (w * x = w' * x') as P4 by lra. assert (w * y = w' * y') as P5 by lra.
  assert (w * z = w' * z') as P6 by lra. assert (x * y = x' * y') as P7 by lra. assert (x * z = x' * z') as P8 by lra.
  assert (y * z = y' * z') as P9 by lra. clear E00 E01 E02 E10 E11 E12 E20 E21 E22.
  set (s := w * w' + x * x' + y * y' + z * z').
  assert (w' = s * w) as Ew by (unfold s; transitivity ((w * w) * w' + (w * x) * x' + (w * y) * y' + (w * z) * z'); [|ring];
    rewrite P0, P4, P5, P6; transitivity (w' * (w' * w' + x' * x' + y' * y' + z' * z')); [rewrite U'; ring|ring]).
  assert (x' = s * x) as Ex by (unfold s; transitivity ((w * x) * w' + (x * x) * x' + (x * y) * y' + (x * z) * z'); [|ring];
    rewrite P1, P4, P7, P8; transitivity (x' * (w' * w' + x' * x' + y' * y' + z' * z')); [rewrite U'; ring|ring]).
  assert (y' = s * y) as Ey by (unfold s; transitivity ((w * y) * w' + (x * y) * x' + (y * y) * y' + (y * z) * z'); [|ring];
    rewrite P2, P5, P7, P9; transitivity (y' * (w' * w' + x' * x' + y' * y' + z' * z')); [rewrite U'; ring|ring]).
  assert (z' = s * z) as Ez by (unfold s; transitivity ((w * z) * w' + (x * z) * x' + (y * z) * y' + (z * z) * z'); [|ring];
    rewrite P3, P6, P8, P9; transitivity (z' * (w' * w' + x' * x' + y' * y' + z' * z')); [rewrite U'; ring|ring]).
  assert (s * s = 1) as S1.
  { rewrite Ew, Ex, Ey, Ez in U'. transitivity (s * s * (w * w + x * x + y * y + z * z)); [rewrite U; ring|lra]. }
  clearbody s. assert (s = 1 \/ s = -1) as [-> | ->] by (destruct (Rle_dec 0 s); [left|right]; nra).
  - left. rewrite Ew, Ex, Ey, Ez. f_equal; ring.
  - right. rewrite Ew, Ex, Ey, Ez. reflexivity.
Qed.

(* ---------------- Euler angles ---------------- *)

Definition core_proper (e0 e1 e2 : R) : mat :=
  mat3 (cos e1) (sin e1 * sin e0) (sin e1 * cos e0)
       (sin e1 * sin e2) (- cos e1 * (sin e0 * sin e2) + cos e0 * cos e2) (- cos e1 * (cos e0 * sin e2) - sin e0 * cos e2)
       (- sin e1 * cos e2) (cos e1 * (sin e0 * cos e2) + cos e0 * sin e2) (cos e1 * (cos e0 * cos e2) - sin e0 * sin e2).
Definition core_tb (e0 e1 e2 : R) : mat :=
  mat3 (cos e1 * cos e2) (sin e1 * (sin e0 * cos e2) - cos e0 * sin e2) (sin e1 * (cos e0 * cos e2) + sin e0 * sin e2)
       (cos e1 * sin e2) (sin e1 * (sin e0 * sin e2) + cos e0 * cos e2) (sin e1 * (cos e0 * sin e2) - sin e0 * cos e2)
       (- sin e1) (cos e1 * sin e0) (cos e1 * cos e0).

Lemma sum_sq_pos x y : 0 <= x * x + y * y.
Proof. nra. Qed.
Lemma sum_sq_zero x y : 0 = x * x + y * y -> x = 0 /\ y = 0.
Proof. nra. Qed.

Lemma core_proper_of n : is_rotation n ->
  meq3 n (let sy := hypot2 (n 0%nat 1%nat) (n 0%nat 2%nat) in
    if Req_EM_T sy 0 then core_proper (atan2 (- n 1%nat 2%nat) (n 1%nat 1%nat)) (atan2 sy (n 0%nat 0%nat)) 0
    else core_proper (atan2 (n 0%nat 1%nat) (n 0%nat 2%nat)) (atan2 sy (n 0%nat 0%nat)) (atan2 (n 1%nat 0%nat) (- n 2%nat 0%nat))).
Proof.
  intro HR. destruct (cofactors n HR) as (K1 & K2 & K3 & K4 & K5 & K6 & K7 & K8 & K9).
  destruct (columns n HR) as (C1 & C2 & C3 & C4 & C5 & C6). destruct (rows n HR) as (R1 & R2 & R3 & R4 & R5 & R6).
  cbv zeta. set (sy := hypot2 (n 0%nat 1%nat) (n 0%nat 2%nat)).
  set (a := n 0%nat 0%nat) in *. set (b := n 0%nat 1%nat) in *. set (c := n 0%nat 2%nat) in *.
  set (d := n 1%nat 0%nat) in *. set (e := n 1%nat 1%nat) in *. set (f := n 1%nat 2%nat) in *.
  set (g := n 2%nat 0%nat) in *. set (h := n 2%nat 1%nat) in *. set (k := n 2%nat 2%nat) in *.
  assert (sy * sy = b * b + c * c) as S by (apply sqrt_sq, sum_sq_pos). assert (0 <= sy) as S0 by apply sqrt_pos.
  destruct (atan2_spec sy a 1 ltac:(lra) ltac:(lra)) as (A1 & A2 & _).
  destruct (Req_EM_T sy 0) as [E|E].
  - rewrite E, Rmult_0_l in S. destruct (sum_sq_zero _ _ S) as [Hb Hc]. assert (a * a = 1) as Ha by lra.
    destruct (sum_sq_zero d g ltac:(lra)) as [Hd Hg]. rewrite Hb, Hc, Hd, Hg in *.
    destruct (atan2_spec (- f) e 1 ltac:(lra) ltac:(lra)) as (B1 & B2 & _).
    mcase; unfold core_proper, mat3; rewrite ?A1, ?A2, ?B1, ?B2, ?sin_0, ?cos_0, ?E; fold a b c d e f g h k; rewrite ?Rdiv_1_r; lra.
  - destruct (atan2_spec b c sy ltac:(lra) ltac:(lra)) as (B1 & B2 & _).
    destruct (atan2_spec d (- g) sy ltac:(lra) ltac:(lra)) as (D1 & D2 & _).
    assert (sy * sy = 1 - a * a) as S2 by lra.
    assert (forall x y, x * (sy * sy) = y -> x = y / (sy * sy)) as DV by (intros x y <-; field; exact E).
    mcase; unfold core_proper, mat3; rewrite ?A1, ?A2, ?B1, ?B2, ?D1, ?D2; fold a b c d e f g h k; try (field; lra).
    + transitivity ((- a * (b * d) - c * g) / (sy * sy)); [|field; exact E]. apply DV. rewrite S2. assert (b * d = a * e - k) as -> by lra. assert (c * g = a * k - e) as -> by lra. ring.
    + transitivity ((- a * (c * d) + b * g) / (sy * sy)); [|field; exact E]. apply DV. rewrite S2. assert (c * d = h + a * f) as -> by lra. assert (b * g = f + a * h) as -> by lra. ring.
    + transitivity ((- a * (b * g) + c * d) / (sy * sy)); [|field; exact E]. apply DV. rewrite S2. assert (c * d = h + a * f) as -> by lra. assert (b * g = f + a * h) as -> by lra. ring.
    + transitivity ((- a * (c * g) - b * d) / (sy * sy)); [|field; exact E]. apply DV. rewrite S2. assert (b * d = a * e - k) as -> by lra. assert (c * g = a * k - e) as -> by lra. ring.
Qed.

Lemma core_tb_of n : is_rotation n ->
  meq3 n (let cy := hypot2 (n 0%nat 0%nat) (n 1%nat 0%nat) in
    if Req_EM_T cy 0 then core_tb (atan2 (- n 1%nat 2%nat) (n 1%nat 1%nat)) (atan2 (- n 2%nat 0%nat) cy) 0
    else core_tb (atan2 (n 2%nat 1%nat) (n 2%nat 2%nat)) (atan2 (- n 2%nat 0%nat) cy) (atan2 (n 1%nat 0%nat) (n 0%nat 0%nat))).
Proof.
  intro HR. destruct (cofactors n HR) as (K1 & K2 & K3 & K4 & K5 & K6 & K7 & K8 & K9).
  destruct (columns n HR) as (C1 & C2 & C3 & C4 & C5 & C6). destruct (rows n HR) as (R1 & R2 & R3 & R4 & R5 & R6).
  cbv zeta. set (cy := hypot2 (n 0%nat 0%nat) (n 1%nat 0%nat)).
  set (a := n 0%nat 0%nat) in *. set (b := n 0%nat 1%nat) in *. set (c := n 0%nat 2%nat) in *.
  set (d := n 1%nat 0%nat) in *. set (e := n 1%nat 1%nat) in *. set (f := n 1%nat 2%nat) in *.
  set (g := n 2%nat 0%nat) in *. set (h := n 2%nat 1%nat) in *. set (k := n 2%nat 2%nat) in *.
  assert (cy * cy = a * a + d * d) as S by (apply sqrt_sq, sum_sq_pos). assert (0 <= cy) as S0 by apply sqrt_pos.
  destruct (atan2_spec (- g) cy 1 ltac:(lra) ltac:(lra)) as (A1 & A2 & _).
  destruct (Req_EM_T cy 0) as [E|E].
  - rewrite E, Rmult_0_l in S. destruct (sum_sq_zero _ _ S) as [Ha Hd]. assert (g * g = 1) as Hg by lra.
    destruct (sum_sq_zero h k ltac:(lra)) as [Hh Hk]. rewrite Ha, Hd, Hh, Hk in *.
    destruct (atan2_spec (- f) e 1 ltac:(lra) ltac:(lra)) as (B1 & B2 & _).
    mcase; unfold core_tb, mat3; rewrite ?A1, ?A2, ?B1, ?B2, ?sin_0, ?cos_0, ?E; fold a b c d e f g h k; rewrite ?Rdiv_1_r; lra.
  - destruct (atan2_spec h k cy ltac:(lra) ltac:(lra)) as (B1 & B2 & _).
    destruct (atan2_spec d a cy ltac:(lra) ltac:(lra)) as (D1 & D2 & _).
    assert (cy * cy = 1 - g * g) as S2 by lra.
    assert (forall x y, x * (cy * cy) = y -> x = y / (cy * cy)) as DV by (intros x y <-; field; exact E).
    mcase; unfold core_tb, mat3; rewrite ?A1, ?A2, ?B1, ?B2, ?D1, ?D2; fold a b c d e f g h k; try (field; lra).
    + transitivity ((- g * (a * h) - k * d) / (cy * cy)); [|field; exact E]. apply DV. rewrite S2. assert (a * h = b * g - f) as -> by lra. assert (k * d = f * g - b) as -> by lra. ring.
    + transitivity ((- g * (a * k) + h * d) / (cy * cy)); [|field; exact E]. apply DV. rewrite S2. assert (a * k = e + c * g) as -> by lra. assert (h * d = c + e * g) as -> by lra. ring.
    + transitivity ((- g * (h * d) + a * k) / (cy * cy)); [|field; exact E]. apply DV. rewrite S2. assert (a * k = e + c * g) as -> by lra. assert (h * d = c + e * g) as -> by lra. ring.
    + transitivity ((- g * (k * d) - a * h) / (cy * cy)); [|field; exact E]. apply DV. rewrite S2. assert (a * h = b * g - f) as -> by lra. assert (k * d = f * g - b) as -> by lra. ring.
Qed.
