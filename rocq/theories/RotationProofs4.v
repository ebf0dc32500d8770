(* Euler angles. *)
From Coq Require Import Reals List Arith Lia Lra Psatz Nsatz.
From Verif Require Import RotationModel RotationSpec RotationProofs RotationProofs2 RotationProofs3.
Import ListNotations.
Open Scope R_scope.

Definition ax (s : EulerSystem) (p : nat) : nat :=
  let '(i, j, k) := kAxes s in match p with 0%nat => i | 1%nat => j | _ => k end.
Definition negs (s : EulerSystem) (x : R) : R := if kIsParityOdd s then - x else x.
Definition fst_angle (s : EulerSystem) (e : arr) : R := negs s (if kIsIntrinsic s then e 2%nat else e 0%nat).
Definition lst_angle (s : EulerSystem) (e : arr) : R := negs s (if kIsIntrinsic s then e 0%nat else e 2%nat).
Definition mid_angle (s : EulerSystem) (e : arr) : R := negs s (e 1%nat).

Lemma axis_cases s : (InnerAxis s < 3)%nat ->
  exists i od, InnerAxis s = i /\ kIsParityOdd s = od /\ (i = 0 \/ i = 1 \/ i = 2)%nat.
Proof. intro H. exists (InnerAxis s), (kIsParityOdd s). repeat split; lia. Qed.

Lemma ax_onto s i : (InnerAxis s < 3)%nat -> (i < 3)%nat -> exists p, (p < 3)%nat /\ ax s p = i.
Proof.
  intros Hs Hi. destruct s as [n o pr it]. cbn [InnerAxis] in Hs. unfold ax, kAxes. cbn [InnerAxis kIsParityOdd].
  assert (n = 0 \/ n = 1 \/ n = 2)%nat as [-> | [-> | ->]] by lia;
  assert (i = 0 \/ i = 1 \/ i = 2)%nat as [-> | [-> | ->]] by lia; destruct o; cbn;
  first [exists 0%nat; split; [lia|reflexivity]|exists 1%nat; split; [lia|reflexivity]|exists 2%nat; split; [lia|reflexivity]].
Qed.

Lemma ea_core s e : (InnerAxis s < 3)%nat -> forall p q, (p < 3)%nat -> (q < 3)%nat ->
  EulerAnglesToRotation s e (ax s p) (ax s q)
  = (if kIsProperEuler s then core_proper else core_tb) (fst_angle s e) (mid_angle s e) (lst_angle s e) p q.
Proof.
  intros Hs. destruct s as [n o pr it]. cbn [InnerAxis] in Hs.
  unfold EulerAnglesToRotation, fst_angle, mid_angle, lst_angle, negs, ax, kAxes. cbn [InnerAxis kIsParityOdd kIsProperEuler kIsIntrinsic].
  assert (n = 0 \/ n = 1 \/ n = 2)%nat as [-> | [-> | ->]] by lia; destruct o, pr; cbn [Nat.add Nat.sub Nat.modulo Nat.divmod fst snd];
  mcase; reflexivity.
Qed.

Lemma permuted s m : (InnerAxis s < 3)%nat -> is_rotation m -> is_rotation (fun p q => m (ax s p) (ax s q)).
Proof.
  intros Hs HR. destruct (columns m HR) as (C1 & C2 & C3 & C4 & C5 & C6). destruct (rows m HR) as (R1 & R2 & R3 & R4 & R5 & R6). destruct HR as [_ D]. unfold det3 in D.
  destruct s as [n o pr it]. cbn [InnerAxis] in Hs. unfold ax, kAxes. cbn [InnerAxis kIsParityOdd].
  assert (n = 0 \/ n = 1 \/ n = 2)%nat as [-> | [-> | ->]] by lia; destruct o; cbn [Nat.add Nat.sub Nat.modulo Nat.divmod fst snd];
  (split; [mcase; unfold mulm, transpose, sum3, ident; cbn [Nat.eqb]; lra|unfold det3; lra]).
Qed.

(* the angles before negation, exchange and normalisation *)
Definition raw (s : EulerSystem) (n : mat) : R * R * R :=
  if kIsProperEuler s then
    let sy := hypot2 (n 0%nat 1%nat) (n 0%nat 2%nat) in
    if Req_EM_T sy 0 then (atan2 (- n 1%nat 2%nat) (n 1%nat 1%nat), atan2 sy (n 0%nat 0%nat), 0)
    else (atan2 (n 0%nat 1%nat) (n 0%nat 2%nat), atan2 sy (n 0%nat 0%nat), atan2 (n 1%nat 0%nat) (- n 2%nat 0%nat))
  else
    let cy := hypot2 (n 0%nat 0%nat) (n 1%nat 0%nat) in
    if Req_EM_T cy 0 then (atan2 (- n 1%nat 2%nat) (n 1%nat 1%nat), atan2 (- n 2%nat 0%nat) cy, 0)
    else (atan2 (n 2%nat 1%nat) (n 2%nat 2%nat), atan2 (- n 2%nat 0%nat) cy, atan2 (n 1%nat 0%nat) (n 0%nat 0%nat)).

Lemma raw_core s n : is_rotation n ->
  let '(x0, x1, x2) := raw s n in
  meq3 n ((if kIsProperEuler s then core_proper else core_tb) x0 x1 x2).
Proof.
  intro H. unfold raw. destruct (kIsProperEuler s).
  - pose proof (core_proper_of n H) as C. cbv zeta in C |- *. destruct (Req_EM_T _ 0); exact C.
  - pose proof (core_tb_of n H) as C. cbv zeta in C |- *. destruct (Req_EM_T _ 0); exact C.
Qed.

Lemma atan2_range y x : - PI < atan2 y x <= PI.
Proof.
  destruct (Req_dec (x * x + y * y) 0) as [Z|Z].
  - assert (x = 0) as -> by nra. assert (y = 0) as -> by nra. unfold atan2.
    destruct (Rlt_dec 0 0); [lra|]. destruct (Rlt_dec 0 0); [lra|]. pose proof PI_RGT_0.
    repeat destruct (Rlt_dec _ _); repeat destruct (Rle_dec _ _); lra.
  - assert (0 < x * x + y * y) as P by nra.
    destruct (atan2_spec y x (sqrt (x * x + y * y))) as (_ & _ & B); [apply sqrt_pos_arg; exact P|rewrite sqrt_sq; lra|exact B].
Qed.

Lemma sin_neg_range t : - PI < t < 0 -> sin t < 0.
Proof. intros [A B]. assert (0 < sin (- t)) as H by (apply sin_gt_0; lra). rewrite sin_neg in H. lra. Qed.
Lemma cos_neg_left t : - PI < t -> t < - (PI / 2) -> cos t < 0.
Proof. intros A B. rewrite <- cos_neg. apply cos_lt_0; pose proof PI_RGT_0; lra. Qed.
Lemma cos_neg_right t : t <= PI -> PI / 2 < t -> cos t < 0.
Proof. intros A B. pose proof PI_RGT_0. apply cos_lt_0; lra. Qed.

Lemma raw_range s n : is_rotation n ->
  let '(x0, x1, x2) := raw s n in
  - PI < x0 <= PI /\ - PI < x2 <= PI /\
  (if kIsProperEuler s then 0 <= x1 <= PI else - (PI / 2) <= x1 <= PI / 2).
Proof.
  intro H. pose proof PI_RGT_0 as HPI.
  destruct (rows n H) as (R1 & R2 & R3 & R4 & R5 & R6). destruct (columns n H) as (C1 & C2 & C3 & C4 & C5 & C6).
  unfold raw. destruct (kIsProperEuler s); cbv zeta.
  - set (sy := hypot2 (n 0%nat 1%nat) (n 0%nat 2%nat)).
    assert (sy * sy = n 0%nat 1%nat * n 0%nat 1%nat + n 0%nat 2%nat * n 0%nat 2%nat) as S by (apply sqrt_sq, sum_sq_pos).
    assert (0 <= sy) as S0 by apply sqrt_pos.
    assert (0 <= atan2 sy (n 0%nat 0%nat) <= PI) as B.
    { destruct (atan2_spec sy (n 0%nat 0%nat) 1 ltac:(lra) ltac:(lra)) as (A1 & A2 & A3). split; [|lra].
      destruct (Rle_dec 0 (atan2 sy (n 0%nat 0%nat))) as [L|L]; [exact L|].
      pose proof (sin_neg_range (atan2 sy (n 0%nat 0%nat)) ltac:(lra)). lra. }
    destruct (Req_EM_T sy 0).
    + split; [apply atan2_range|]. split; [lra|exact B].
    + split; [apply atan2_range|]. split; [apply atan2_range|exact B].
  - set (cy := hypot2 (n 0%nat 0%nat) (n 1%nat 0%nat)).
    assert (cy * cy = n 0%nat 0%nat * n 0%nat 0%nat + n 1%nat 0%nat * n 1%nat 0%nat) as S by (apply sqrt_sq, sum_sq_pos).
    assert (0 <= cy) as S0 by apply sqrt_pos.
    assert (- (PI / 2) <= atan2 (- n 2%nat 0%nat) cy <= PI / 2) as B.
    { destruct (atan2_spec (- n 2%nat 0%nat) cy 1 ltac:(lra) ltac:(lra)) as (A1 & A2 & A3). set (t := atan2 (- n 2%nat 0%nat) cy) in *. split.
      - destruct (Rle_dec (- (PI / 2)) t) as [L|L]; [exact L|]. pose proof (cos_neg_left t ltac:(lra) ltac:(lra)). lra.
      - destruct (Rle_dec t (PI / 2)) as [L|L]; [exact L|]. pose proof (cos_neg_right t ltac:(lra) ltac:(lra)). lra. }
    destruct (Req_EM_T cy 0).
    + split; [apply atan2_range|]. split; [lra|exact B].
    + split; [apply atan2_range|]. split; [apply atan2_range|exact B].
Qed.

Lemma cos_2PI_shift x : cos (x + 2 * PI) = cos x.
Proof. rewrite cos_plus, cos_2PI, sin_2PI. ring. Qed.
Lemma sin_2PI_shift x : sin (x + 2 * PI) = sin x.
Proof. rewrite sin_plus, cos_2PI, sin_2PI. ring. Qed.

Lemma arr3_0 a b c : arr3 a b c 0%nat = a. Proof. reflexivity. Qed.
Lemma arr3_1 a b c : arr3 a b c 1%nat = b. Proof. reflexivity. Qed.
Lemma arr3_2 a b c : arr3 a b c 2%nat = c. Proof. reflexivity. Qed.

Definition turned (s : EulerSystem) (x1 : R) : R := if kIsProperEuler s then (if Rlt_dec (negs s x1) 0 then -1 else 1) else 1.

(* what the stored angles are, up to multiples of 2 pi *)
Lemma stored s m : (InnerAxis s < 3)%nat -> is_rotation m ->
  let '(x0, x1, x2) := raw s (fun p q => m (ax s p) (ax s q)) in
  let e := RotationMatrixToEulerAngles s m in
  let t := turned s x1 in
  t * t = 1 /\
  cos (mid_angle s e) = cos x1 /\ sin (mid_angle s e) = t * sin x1 /\
  cos (fst_angle s e) = t * cos x0 /\ sin (fst_angle s e) = t * sin x0 /\
  cos (lst_angle s e) = t * cos x2 /\ sin (lst_angle s e) = t * sin x2 /\
  (if kIsProperEuler s then - PI <= e 0%nat <= PI /\ 0 <= e 1%nat <= PI /\ - PI <= e 2%nat <= PI
   else - PI <= e 0%nat <= PI /\ - (PI / 2) <= e 1%nat <= PI / 2 /\ - PI <= e 2%nat <= PI).
Proof.
  intros Hs HR. pose proof (raw_range s _ (permuted s m Hs HR)) as RR.
  assert (RotationMatrixToEulerAngles s m =
    let '(ea0, ea1, ea2) := raw s (fun p q => m (ax s p) (ax s q)) in
    let ea0 := negs s ea0 in let ea1 := negs s ea1 in let ea2 := negs s ea2 in
    let e1 := ea1 in
    let e0 := if kIsIntrinsic s then ea2 else ea0 in
    let e2 := if kIsIntrinsic s then ea0 else ea2 in
    if kIsProperEuler s then
      let turn := if Rlt_dec e1 0 then true else if Rlt_dec PI ea1 then true else false in
      let e0' := if turn then e0 + PI else e0 in
      let e1' := if turn then - e1 else e1 in
      let e2' := if turn then e2 - PI else e2 in
      let wrap x := if Rlt_dec x (- PI) then x + 2 * PI else if Rlt_dec PI x then x - 2 * PI else x in
      arr3 (wrap e0') (wrap e1') (wrap e2')
    else arr3 e0 e1 e2) as E.
  { unfold RotationMatrixToEulerAngles, raw, ax, negs. destruct (kAxes s) as [[i j] k]. reflexivity. }
  rewrite E. clear E. destruct (raw s (fun p q => m (ax s p) (ax s q))) as [[x0 x1] x2]. destruct RR as (B0 & B2 & B1).
  pose proof PI_RGT_0 as HPI.
  assert (forall x, cos (if Rlt_dec x (- PI) then x + 2 * PI else if Rlt_dec PI x then x - 2 * PI else x) = cos x) as WC.
  { intro x. destruct (Rlt_dec x (- PI)); [apply cos_2PI_shift|]. destruct (Rlt_dec PI x); [|reflexivity].
    rewrite <- (cos_2PI_shift (x - 2 * PI)). f_equal. ring. }
  assert (forall x, sin (if Rlt_dec x (- PI) then x + 2 * PI else if Rlt_dec PI x then x - 2 * PI else x) = sin x) as WS.
  { intro x. destruct (Rlt_dec x (- PI)); [apply sin_2PI_shift|]. destruct (Rlt_dec PI x); [|reflexivity].
    rewrite <- (sin_2PI_shift (x - 2 * PI)). f_equal. ring. }
  assert (forall x, - 3 * PI <= x <= 3 * PI ->
    - PI <= (if Rlt_dec x (- PI) then x + 2 * PI else if Rlt_dec PI x then x - 2 * PI else x) <= PI) as WR.
  { intros x Hx. destruct (Rlt_dec x (- PI)); [lra|]. destruct (Rlt_dec PI x); lra. }
  destruct s as [n o pr it]. unfold turned, mid_angle, fst_angle, lst_angle, negs in *.
  cbn [InnerAxis kIsParityOdd kIsProperEuler kIsIntrinsic] in *. cbv zeta.
  destruct pr.
  - assert (forall y0 y1 y2, - PI <= y0 <= PI -> - PI <= y1 <= PI -> - PI <= y2 <= PI ->
       let t := if Rlt_dec y1 0 then -1 else 1 in
       let turn := if Rlt_dec y1 0 then true else if Rlt_dec PI y1 then true else false in
       let w x := if Rlt_dec x (- PI) then x + 2 * PI else if Rlt_dec PI x then x - 2 * PI else x in
       let z0 := w (if turn then y0 + PI else y0) in let z1 := w (if turn then - y1 else y1) in
       let z2 := w (if turn then y2 - PI else y2) in
       t * t = 1 /\ cos z1 = cos y1 /\ sin z1 = t * sin y1 /\ cos z0 = t * cos y0 /\ sin z0 = t * sin y0 /\
       cos z2 = t * cos y2 /\ sin z2 = t * sin y2 /\
       (- PI <= z0 <= PI /\ 0 <= z1 <= PI /\ - PI <= z2 <= PI)) as K.
    { intros y0 y1 y2 Y0 Y1 Y2. cbv zeta beta. rewrite !WC, !WS.
      destruct (Rlt_dec y1 0) as [L|L].
      - assert (forall x, cos (x + PI) = -1 * cos x /\ sin (x + PI) = -1 * sin x) as S1 by (intro; rewrite neg_cos, neg_sin; lra).
        assert (forall x, cos (x - PI) = -1 * cos x /\ sin (x - PI) = -1 * sin x) as S2.
        { intro x. destruct (S1 (x - PI)) as [P Q]. replace (x - PI + PI) with x in * by ring. lra. }
        destruct (S1 y0) as [-> ->]. destruct (S2 y2) as [-> ->]. rewrite cos_neg, sin_neg.
        split; [lra|]. repeat (split; [lra|]). split; [apply WR; lra|]. split; [|apply WR; lra].
        destruct (Rlt_dec (- y1) (- PI)); [lra|]. destruct (Rlt_dec PI (- y1)); lra.
      - destruct (Rlt_dec PI y1); [lra|]. split; [lra|]. repeat (split; [lra|]). split; [apply WR; lra|]. split; [|apply WR; lra].
        destruct (Rlt_dec y1 (- PI)); [lra|]. destruct (Rlt_dec PI y1); lra. }
    cbv zeta beta in K.
    destruct o, it; rewrite ?arr3_0, ?arr3_1, ?arr3_2.
    + destruct (K (- x2) (- x1) (- x0) ltac:(lra) ltac:(lra) ltac:(lra)) as (K0 & K1 & K2 & K3 & K4 & K5 & K6 & K7).
      rewrite !cos_neg, !sin_neg in *. rewrite K1, K2, K3, K4, K5, K6. split; [exact K0|]. do 6 (split; [lra|]). exact K7.
    + destruct (K (- x0) (- x1) (- x2) ltac:(lra) ltac:(lra) ltac:(lra)) as (K0 & K1 & K2 & K3 & K4 & K5 & K6 & K7).
      rewrite !cos_neg, !sin_neg in *. rewrite K1, K2, K3, K4, K5, K6. split; [exact K0|]. do 6 (split; [lra|]). exact K7.
    + destruct (K x2 x1 x0 ltac:(lra) ltac:(lra) ltac:(lra)) as (K0 & K1 & K2 & K3 & K4 & K5 & K6 & K7).
      rewrite K1, K2, K3, K4, K5, K6. split; [exact K0|]. do 6 (split; [lra|]). exact K7.
    + destruct (K x0 x1 x2 ltac:(lra) ltac:(lra) ltac:(lra)) as (K0 & K1 & K2 & K3 & K4 & K5 & K6 & K7).
      rewrite K1, K2, K3, K4, K5, K6. split; [exact K0|]. do 6 (split; [lra|]). exact K7.
  - destruct o, it; rewrite ?arr3_0, ?arr3_1, ?arr3_2; rewrite ?Ropp_involutive; (repeat (split; [lra|])); lra.
Qed.

Lemma euler_round_trip s m : (InnerAxis s < 3)%nat -> is_rotation m ->
  meq3 (EulerAnglesToRotation s (RotationMatrixToEulerAngles s m)) m.
Proof.
  intros Hs HR i j Hi Hj.
  destruct (ax_onto s i Hs Hi) as (p & Hp & <-). destruct (ax_onto s j Hs Hj) as (q & Hq & <-).
  rewrite ea_core by assumption.
  pose proof (raw_core s _ (permuted s m Hs HR)) as C. pose proof (stored s m Hs HR) as S.
  destruct (raw s (fun p q => m (ax s p) (ax s q))) as [[x0 x1] x2]. cbv zeta in S.
  destruct S as (T & S1 & S2 & S3 & S4 & S5 & S6 & _). rewrite (C p q Hp Hq). clear C.
  set (t := turned s x1) in *. unfold turned in t.
  destruct (kIsProperEuler s); unfold core_proper, core_tb; clear Hi Hj; revert p q Hp Hq; mcase; unfold mat3; rewrite ?S1, ?S2, ?S3, ?S4, ?S5, ?S6.
  1-9: first [ring|match goal with |- _ = ?x => transitivity (t * t * x); [ring|rewrite T; ring] end|idtac].
  all: try (subst t; ring).
Qed.

Lemma euler_ranges s m : (InnerAxis s < 3)%nat -> is_rotation m ->
  let e := RotationMatrixToEulerAngles s m in
  - PI <= e 0%nat <= PI /\ - PI <= e 2%nat <= PI /\
  (if kIsProperEuler s then 0 <= e 1%nat <= PI else - (PI / 2) <= e 1%nat <= PI / 2).
Proof.
  intros Hs HR. pose proof (stored s m Hs HR) as S. destruct (raw s (fun p q => m (ax s p) (ax s q))) as [[x0 x1] x2].
  cbv zeta in *. destruct S as (_ & _ & _ & _ & _ & _ & _ & S). destruct (kIsProperEuler s); tauto.
Qed.



Lemma core_proper_rotation e0 e1 e2 : is_rotation (core_proper e0 e1 e2).
Proof.
  pose proof (cs1 e0) as H0. pose proof (cs1 e1) as H1. pose proof (cs1 e2) as H2.
  unfold core_proper. set (c0 := cos e0) in *. set (s0 := sin e0) in *. set (c1 := cos e1) in *. set (s1 := sin e1) in *.
  set (c2 := cos e2) in *. set (s2 := sin e2) in *. clearbody c0 s0 c1 s1 c2 s2.
  split; [mcase; unfold mulm, transpose, sum3, ident, mat3; cbn [Nat.eqb]|unfold det3, mat3]; nsatz.
Qed.
