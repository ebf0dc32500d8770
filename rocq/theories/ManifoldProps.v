(* C48: every manifold satisfies the laws of a manifold. *)
From Coq Require Import Reals List Arith Lia Lra Psatz Bool ZArith.
From Verif Require Import RotationModel RotationSpec RotationProofs RotationProofs4 ManifoldModel ManifoldSpec ManifoldProofs ManifoldProofs2 ManifoldProofs3 ManifoldProofs4 ManifoldProofs5 ManifoldProofs6 ManifoldProofs7.
Import ListNotations.
Open Scope R_scope.

(* EuclideanManifold of any size: everywhere *)
Theorem euclidean_manifold : forall n, is_manifold (EuclideanManifold n) always always always2 always.
Proof. exact euclidean_is_manifold. Qed.
Print Assumptions euclidean_manifold.

(* SubsetManifold: accepted exactly when the constant indices are distinct and in range;
   then Minus(y, x) recovers y whenever y and x agree on the constant indices, and Plus
   never changes them *)
Theorem subset_manifold_accepted : forall n constant, (exists m, SubsetManifold n constant = Some m) <->
  (forall c, In c constant -> (0 <= c < Z.of_nat n)%Z) /\ NoDup constant.
Proof. exact subset_accepts. Qed.
Print Assumptions subset_manifold_accepted.
Theorem subset_manifold : forall n constant m, SubsetManifold n constant = Some m ->
  AmbientSize m = n /\ TangentSize m = (n - length constant)%nat /\
  is_manifold m always always (constant_equal n constant) always /\
  forall x d z i, Plus m x d = Some z -> (i < n)%nat -> In (Z.of_nat i) constant -> z i = x i.
Proof. exact subset_is_manifold. Qed.
Print Assumptions subset_manifold.
Example subset_example : exists m, SubsetManifold 3 [1%Z] = Some m /\ TangentSize m = 2%nat.
Proof. eexists. split; reflexivity. Qed.

(* both quaternion manifolds, on the unit quaternions, for y other than -x and deltas
   shorter than pi *)
Theorem quaternion_manifold : forall o, is_manifold (QuaternionManifold o) (unit_quaternion o) always (not_opposite o) (shorter 3 PI).
Proof. exact quat_is_manifold. Qed.
Print Assumptions quaternion_manifold.
Example quaternion_example : unit_quaternion CeresQuaternionOrder (MakeQuaternion CeresQuaternionOrder (3 / 5) 0 (4 / 5) 0) /\
  not_opposite CeresQuaternionOrder (MakeQuaternion CeresQuaternionOrder 1 0 0 0) (MakeQuaternion CeresQuaternionOrder (3 / 5) 0 (4 / 5) 0) /\
  shorter 3 PI (arr3 1 0 0).
Proof.
  split; [|split].
  - unfold unit_quaternion, qnorm2, quat_of. cbv [qw qx qy qz MakeQuaternion upd kW kX kY kZ Nat.eqb zeros]. lra.
  - unfold not_opposite, quat_of, qneg, qscale. intro H. apply (f_equal qw) in H. revert H. cbv [qw qx qy qz MakeQuaternion upd kW kX kY kZ Nat.eqb zeros]. lra.
  - unfold shorter. rewrite norm_3, arr3_0, arr3_1, arr3_2. unfold hypot3. replace (1 * 1 + 0 * 0 + 0 * 0) with 1 by ring. rewrite sqrt_1. pose proof PI2_1. lra.
Qed.
(* for y = -x (the same rotation) Plus(x, Minus(y, x)) is x, not y *)
Theorem quaternion_opposite_refuted : forall o x, unit_quaternion o x ->
  exists y d, unit_quaternion o y /\ Minus (QuaternionManifold o) y x = Some d /\
    quat_of o y = qneg (quat_of o x) /\ Plus (QuaternionManifold o) x d = Some x.
Proof. exact quat_opposite. Qed.
Print Assumptions quaternion_opposite_refuted.

(* SphereManifold of any size at least two, on the sphere of any radius, opposite points
   included, wherever x is on the last axis or at least sqrt(epsilon) away from it *)
Theorem sphere_manifold : forall n rho, (2 <= n)%nat -> 0 < rho ->
  exists m, SphereManifold n = Some m /\ AmbientSize m = n /\ TangentSize m = (n - 1)%nat /\
    is_manifold m (on_sphere n rho) (off_threshold n) always2 (shorter (n - 1) PI).
Proof. exact sphere_is_manifold. Qed.
Print Assumptions sphere_manifold.
Example sphere_example : on_sphere 3 1 (arr3 (3 / 5) 0 (4 / 5)) /\ off_threshold 3 (arr3 (3 / 5) 0 (4 / 5)).
Proof.
  split.
  - unfold on_sphere, norm, dot. cbn [sumn]. rewrite arr3_0, arr3_1, arr3_2. replace (_ + _) with 1 by field. apply sqrt_1.
  - right. unfold dot. cbn [sumn Nat.sub]. rewrite arr3_0, arr3_1. unfold epsilon. lra.
Qed.

(* close to the last axis the laws fail: the distance of a point from itself is not
   zero, and next to the negative end of the axis Plus leaves the sphere *)
Definition tiny : R := / 67108864.   (* 2^-26, its square is epsilon *)
Definition near_pole (s : R) : arr := fun i => match i with 0%nat => tiny | 1%nat => s * sqrt (1 - tiny * tiny) | _ => 0 end.
Lemma tiny_pos : 0 < tiny < 1.
Proof. unfold tiny. lra. Qed.
Lemma tiny_eps : tiny * tiny = epsilon.
Proof. unfold tiny, epsilon. field. Qed.
Lemma near_sq : sqrt (1 - tiny * tiny) * sqrt (1 - tiny * tiny) = 1 - tiny * tiny.
Proof. apply sqrt_sqrt. pose proof tiny_pos. nra. Qed.
Lemma near_on s : s * s = 1 -> on_sphere 2 1 (near_pole s).
Proof.
  intro Hs. unfold on_sphere, norm. replace (dot 2 (near_pole s) (near_pole s)) with 1; [apply sqrt_1|]. unfold dot. cbn [sumn near_pole].
  transitivity (tiny * tiny + (s * s) * (sqrt (1 - tiny * tiny) * sqrt (1 - tiny * tiny))); [rewrite Hs, near_sq; ring|ring].
Qed.
Theorem sphere_minus_itself_refuted : exists m x d, SphereManifold 2 = Some m /\ on_sphere 2 1 x /\ Minus m x x = Some d /\ d 0%nat <> 0.
Proof.
  eexists. exists (near_pole 1). eexists. split; [reflexivity|]. split; [apply near_on; ring|]. cbn [Minus].
  pose proof tiny_pos as TP. assert (dot 1 (near_pole 1) (near_pole 1) = epsilon) as DE by (unfold dot; cbn [sumn near_pole]; rewrite tiny_eps; ring).
  assert (0 < sqrt (1 - tiny * tiny)) as SP by (apply sqrt_lt_R0; nra).
  unfold ComputeHouseholderVector. cbn [Nat.sub]. cbv zeta. rewrite DE. destruct (Rle_dec epsilon epsilon) as [_|C]; [|lra].
  destruct (Rlt_dec (near_pole 1 1%nat) 0) as [C|_]; [cbn [near_pole] in C; lra|]. split; [reflexivity|].
  unfold ComputeSphereManifoldMinus. cbn [Nat.sub]. cbv zeta. rewrite (near_on 1) by ring.
  assert (forall i, ApplyHouseholderVector 2 (near_pole 1) (upd (near_pole 1) 1%nat 1) 0 i / 1 = near_pole 1 i) as EA.
  { intro i. unfold ApplyHouseholderVector. field. }
  rewrite (norm_ext 1 _ (near_pole 1)) by (intros i Hi; apply EA). rewrite !EA.
  assert (norm 1 (near_pole 1) = tiny) as N1. { unfold norm. rewrite DE, <- tiny_eps. apply sqrt_square. lra. }
  rewrite N1. destruct (Req_EM_T tiny 0) as [C|_]; [lra|]. cbn [near_pole].
  unfold atan2. destruct (Rlt_dec 0 (1 * sqrt (1 - tiny * tiny))) as [_|C]; [|lra].
  rewrite EA. cbn [near_pole]. intro Z. assert (0 < atan (tiny / (1 * sqrt (1 - tiny * tiny)))) as AP.
  { rewrite <- atan_0. apply atan_increasing. apply Rdiv_lt_0_compat; lra. }
  assert (0 < atan (tiny / (1 * sqrt (1 - tiny * tiny))) / tiny * tiny) by (apply Rmult_lt_0_compat; [apply Rdiv_lt_0_compat|]; lra). lra.
Qed.
Print Assumptions sphere_minus_itself_refuted.
Theorem sphere_plus_leaves_refuted : exists m x d z, SphereManifold 2 = Some m /\ on_sphere 2 1 x /\ Plus m x d = Some z /\ ~ on_sphere 2 1 z.
Proof.
  eexists. exists (near_pole (-1)). exists (fun _ => PI / 2). eexists. split; [reflexivity|]. split; [apply near_on; ring|]. cbn [Plus].
  pose proof tiny_pos as TP. pose proof PI_RGT_0 as PP. assert (norm (2 - 1) (fun _ : nat => PI / 2) = PI / 2) as ND.
  { unfold norm, dot. cbn [sumn Nat.sub]. rewrite Rplus_0_l. apply sqrt_square. lra. }
  rewrite ND. destruct (Req_EM_T (PI / 2) 0) as [C|_]; [lra|].
  assert (dot 1 (near_pole (-1)) (near_pole (-1)) = epsilon) as DE by (unfold dot; cbn [sumn near_pole]; rewrite tiny_eps; ring).
  assert (0 < sqrt (1 - tiny * tiny)) as SP by (apply sqrt_lt_R0; nra).
  unfold ComputeHouseholderVector. cbn [Nat.sub]. cbv zeta. rewrite DE. destruct (Rle_dec epsilon epsilon) as [_|C]; [|lra].
  destruct (Rlt_dec (near_pole (-1) 1%nat) 0) as [_|C]; [|exfalso; apply C; cbn [near_pole]; lra]. split; [reflexivity|].
  unfold on_sphere, ComputeSphereManifoldPlus. cbv zeta. rewrite (near_on (-1)) by ring. intro E.
  assert (dot 2 (fun i => 1 * ApplyHouseholderVector 2 (append (2 - 1) (fun i0 => sin (PI / 2) / (PI / 2) * (PI / 2)) (cos (PI / 2))) (upd (near_pole (-1)) 1%nat 1) 2 i)
    (fun i => 1 * ApplyHouseholderVector 2 (append (2 - 1) (fun i0 => sin (PI / 2) / (PI / 2) * (PI / 2)) (cos (PI / 2))) (upd (near_pole (-1)) 1%nat 1) 2 i) = 1) as D1.
  { rewrite <- norm_sq, E. ring. }
  unfold dot, ApplyHouseholderVector, dot in D1. cbn [sumn] in D1. unfold append, upd in D1. cbn [Nat.sub Nat.ltb Nat.leb Nat.eqb near_pole] in D1. rewrite sin_PI2, cos_PI2 in D1.
  replace (1 / (PI / 2) * (PI / 2)) with 1 in D1 by (field; lra).
  assert (1 + 4 * (tiny * tiny * (tiny * tiny)) = 1) as D2 by (rewrite <- D1 at 2; ring).
  assert (0 < tiny * tiny * (tiny * tiny)) by (repeat apply Rmult_lt_0_compat; lra). lra.
Qed.
Print Assumptions sphere_plus_leaves_refuted.

(* LineManifold, on pairs of a point and a direction of unit length: a point and
   direction y is recovered when its point is in the plane through the point of x
   perpendicular to the direction of x *)
Theorem line_manifold : forall n m, LineManifold n = Some m ->
  is_manifold m (on_lines n) (line_regular n) (perpendicular_offset n) (fun d => shorter (n - 1) PI (shift (n - 1) d)).
Proof. exact line_is_manifold. Qed.
Print Assumptions line_manifold.
(* in general the point of y is projected on that plane *)
Theorem line_plus_minus_projects : forall n m x y, LineManifold n = Some m -> on_lines n x -> line_regular n x -> on_lines n y ->
  exists d z, Minus m y x = Some d /\ Plus m x d = Some z /\
    eqn n z (fun i => y i - dot n (shift n x) (fun j => y j - x j) * shift n x i) /\ eqn n (shift n z) (shift n y).
Proof.
  intros n m x y E O G OY. pose proof (line_sizes n m E) as (N2 & _ & _). unfold LineManifold in E. destruct (Nat.leb_spec n 1); [discriminate|]. injection E as <-.
  cbn [Plus Minus]. eexists. eexists. split; [reflexivity|]. split; [reflexivity|]. pose proof (line_plus_minus n x y N2 O G OY) as L. split.
  - intros i Hi. rewrite (L i) by lia. apply join_lt. exact Hi.
  - intros i Hi. unfold shift at 1. rewrite (L (n + i)%nat) by lia. apply join_ge.
Qed.
Print Assumptions line_plus_minus_projects.
Definition arr4 (a b c d : R) : arr := fun i => match i with 0%nat => a | 1%nat => b | 2%nat => c | 3%nat => d | _ => 0 end.
Lemma arr4_on a b c d : c * c + d * d = 1 -> on_lines 2 (arr4 a b c d).
Proof. intro H. unfold on_lines, norm, dot, shift. cbn [sumn Nat.add arr4]. replace (0 + c * c + d * d) with 1 by lra. apply sqrt_1. Qed.
Lemma arr4_regular a b : line_regular 2 (arr4 a b 0 1).
Proof. left. unfold dot, shift. cbn [sumn Nat.sub Nat.add arr4]. ring. Qed.
Example line_example : on_lines 2 (arr4 5 7 0 1) /\ line_regular 2 (arr4 5 7 0 1) /\ on_lines 2 (arr4 6 7 (3 / 5) (4 / 5)) /\ perpendicular_offset 2 (arr4 6 7 (3 / 5) (4 / 5)) (arr4 5 7 0 1).
Proof.
  split; [apply arr4_on; lra|]. split; [apply arr4_regular|]. split; [apply arr4_on; lra|].
  unfold perpendicular_offset, shift. cbn [sumn Nat.add arr4]. ring.
Qed.
(* the line obtained is then another line: the point of y is not on it *)
Theorem line_plus_minus_refuted : exists m x y d z, LineManifold 2 = Some m /\ on_lines 2 x /\ on_lines 2 y /\
  Minus m y x = Some d /\ Plus m x d = Some z /\ forall s, ~ eqn 2 (fun i => z i + s * shift 2 z i) y.
Proof.
  eexists. exists (arr4 0 0 0 1), (arr4 0 1 1 0).
  destruct (line_plus_minus_projects 2 _ (arr4 0 0 0 1) (arr4 0 1 1 0) eq_refl) as (d & z & E1 & E2 & P & D); [apply arr4_on; ring|apply arr4_regular|apply arr4_on; ring|].
  exists d, z. split; [reflexivity|]. split; [apply arr4_on; ring|]. split; [apply arr4_on; ring|]. split; [exact E1|]. split; [exact E2|].
  intros s H. specialize (H 1%nat ltac:(lia)). cbv beta in H. rewrite (P 1%nat ltac:(lia)), (D 1%nat ltac:(lia)) in H. revert H. unfold dot, shift. cbn [sumn Nat.add arr4]. lra.
Qed.
Print Assumptions line_plus_minus_refuted.
(* with a direction that is not of unit length PlusJacobian is not the derivative of Plus *)
Theorem line_plus_jacobian_refuted : exists m x J, LineManifold 2 = Some m /\ PlusJacobian m x = Some J /\
  ~ derivative_at_zero 4 2 (fun d => Plus m x d) x J.
Proof.
  eexists. exists (arr4 0 0 0 2). eexists. split; [reflexivity|]. cbn [PlusJacobian Plus]. split; [reflexivity|]. intro D.
  assert (dot 1 (shift 2 (arr4 0 0 0 2)) (shift 2 (arr4 0 0 0 2)) = 0) as D0 by (unfold dot, shift; cbn [sumn Nat.add arr4]; ring).
  assert (norm 2 (shift 2 (arr4 0 0 0 2)) = 2) as N2.
  { unfold norm, dot, shift. cbn [sumn Nat.add arr4]. replace (0 + 0 * 0 + 2 * 2) with (2 * 2) by ring. apply sqrt_square. lra. }
  assert (ComputeHouseholderVector 2 (shift 2 (arr4 0 0 0 2)) = (upd (shift 2 (arr4 0 0 0 2)) 1%nat 1, 0)) as EH.
  { unfold ComputeHouseholderVector. cbn [Nat.sub]. cbv zeta. rewrite D0. pose proof eps_pos. destruct (Rle_dec 0 epsilon); [|lra].
    destruct (Rlt_dec _ 0) as [C|C]; [unfold shift in C; cbn [Nat.add arr4] in C; lra|reflexivity]. }
  destruct (D (1 / 2) ltac:(lra)) as (del & Hd & K). set (e := del / 2). assert (0 < e < del) as HE by (unfold e; lra).
  set (h := fun i : nat => match i with 0%nat => e | _ => 0 end).
  assert (norm 2 h = e) as NH. { unfold norm, dot. cbn [sumn h]. replace (0 + e * e + 0 * 0) with (e * e) by ring. apply sqrt_square. lra. }
  destruct (K h ltac:(lra)) as (z & Ez & Kz). injection Ez as <-. specialize (Kz 0%nat ltac:(lia)). rewrite NH in Kz. revert Kz.
  unfold mvec. cbn [sumn h]. unfold line_plus_jacobian, ComputeSphereManifoldPlusJacobian. cbv zeta. rewrite EH, N2. cbn [Nat.sub Nat.ltb Nat.leb andb Nat.eqb].
  unfold line_plus. cbv zeta. rewrite EH. cbn [Nat.sub]. unfold blit at 1. cbn [Nat.leb Nat.add andb]. unfold blit. cbn [Nat.leb Nat.ltb Nat.sub Nat.add andb].
  destruct (Req_EM_T (norm 1 (shift 1 h)) 0) as [_|C]; [|exfalso; apply C; unfold norm, dot, shift; cbn [sumn Nat.add h]; replace (0 + 0 * 0) with 0 by ring; apply sqrt_0].
  destruct (Req_EM_T (norm 1 h) 0) as [C|_].
  { exfalso. pose proof (norm_zero 1 h C 0%nat ltac:(lia)) as Z. cbn [h] in Z. lra. }
  unfold ApplyHouseholderVector. unfold append at 1. cbn [Nat.ltb Nat.leb h arr4]. unfold upd. cbn [Nat.eqb]. unfold shift. cbn [Nat.add arr4].
  match goal with |- Rabs ?q <= _ -> _ => replace q with (- e) by ring end. rewrite Rabs_Ropp, Rabs_pos_eq by lra. lra.
Qed.
Print Assumptions line_plus_jacobian_refuted.

(* ProductManifold of any list of manifolds: the product of their laws *)
Theorem product_manifold : forall fs, (forall f, In f fs -> is_factor f) ->
  is_manifold (ProductManifold (map f_m fs)) (prod_pred f_on AmbientSize fs) (prod_pred f_regular AmbientSize fs)
    (prod_pred2 f_reach fs) (prod_pred f_small TangentSize fs).
Proof. exact product_is_manifold. Qed.
Print Assumptions product_manifold.
(* a rigid body motion: a quaternion and a translation *)
Example product_example : exists fs, (forall f, In f fs -> is_factor f) /\
  AmbientSize (ProductManifold (map f_m fs)) = 7%nat /\ TangentSize (ProductManifold (map f_m fs)) = 6%nat.
Proof.
  exists [mkfactor (QuaternionManifold EigenQuaternionOrder) (unit_quaternion EigenQuaternionOrder) always (not_opposite EigenQuaternionOrder) (shorter 3 PI);
          mkfactor (EuclideanManifold 3) always always always2 always].
  split; [|split; reflexivity]. intros f [<-|[<-|[]]]; [apply quaternion_manifold|apply euclidean_manifold].
Qed.
