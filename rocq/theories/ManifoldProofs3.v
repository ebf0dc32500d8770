(* The quaternion and the sphere manifolds. *)
From Coq Require Import Reals List Arith Lia Lra Psatz Bool.
From Verif Require Import RotationModel RotationSpec RotationProofs RotationProofs4 ManifoldModel ManifoldSpec ManifoldProofs ManifoldProofs2.
Import ListNotations.
Open Scope R_scope.

Lemma norm_3 d : norm 3 d = hypot3 (d 0%nat) (d 1%nat) (d 2%nat).
Proof. unfold norm, hypot3, dot. cbn [sumn]. f_equal. ring. Qed.

Definition quatA (o : order) (x : arr) : mat := fun r c => if Nat.eqb c 3 then x r else QuaternionPlusJacobianImpl o x r c.
Definition quatB (o : order) (x : arr) : mat := fun r c => if Nat.eqb r 3 then x c else QuaternionMinusJacobianImpl o x r c.

Ltac qcompute := cbv [mvec mmul sumn quatA quatB QuaternionPlusJacobianImpl QuaternionMinusJacobianImpl rows4 arr3 upd MakeQuaternion
  QuaternionProduct QuaternionConjugate kW kX kY kZ Nat.eqb zeros].
Ltac four i Hi := destruct i as [|[|[|[|i]]]]; [| | | |exfalso; lia].

Definition unit4 (x : arr) : R := x 0%nat * x 0%nat + x 1%nat * x 1%nat + x 2%nat * x 2%nat + x 3%nat * x 3%nat.
Lemma unit4_of o x : unit_quaternion o x -> unit4 x = 1.
Proof. unfold unit_quaternion, unit4, qnorm2, quat_of. destruct o; cbn [kW kX kY kZ qw qx qy qz]; lra. Qed.
Lemma of_unit4 o x : unit4 x = 1 -> unit_quaternion o x.
Proof. unfold unit_quaternion, unit4, qnorm2, quat_of. destruct o; cbn [kW kX kY kZ qw qx qy qz]; lra. Qed.
Lemma unit4_norm x : unit4 x = norm 4 x * norm 4 x.
Proof. rewrite norm_sq. unfold unit4, dot. cbn [sumn]. ring. Qed.

Lemma quatBA o x z : unit4 x = 1 -> eqn 4 (mvec 4 (quatB o x) (mvec 4 (quatA o x) z)) z.
Proof.
  intros U i Hi. transitivity (unit4 x * z i); [|rewrite U; ring]. unfold unit4.
  destruct o; four i Hi; qcompute; ring.
Qed.
Lemma quatAB o x z : unit4 x = 1 -> eqn 4 (mvec 4 (quatA o x) (mvec 4 (quatB o x) z)) z.
Proof.
  intros U i Hi. transitivity (unit4 x * z i); [|rewrite U; ring]. unfold unit4.
  destruct o; four i Hi; qcompute; ring.
Qed.
Lemma quatA_norm o x z : unit4 (mvec 4 (quatA o x) z) = unit4 x * unit4 z.
Proof. unfold unit4. destruct o; qcompute; ring. Qed.
Lemma quatB_norm o x z : unit4 (mvec 4 (quatB o x) z) = unit4 x * unit4 z.
Proof. unfold unit4. destruct o; qcompute; ring. Qed.

Lemma exp3 d : exp_chart 3 d 0%nat = sin (norm 3 d) / norm 3 d * d 0%nat /\ exp_chart 3 d 1%nat = sin (norm 3 d) / norm 3 d * d 1%nat /\
  exp_chart 3 d 2%nat = sin (norm 3 d) / norm 3 d * d 2%nat /\ exp_chart 3 d 3%nat = cos (norm 3 d).
Proof. repeat split. Qed.

Lemma quat_plus_chart o x d : eqn 4 (QuaternionPlusImpl o x d) (chart_plus 3 x (quatA o x) d).
Proof.
  intros i Hi. unfold QuaternionPlusImpl, chart_plus. rewrite <- norm_3. cbv zeta. destruct (Req_EM_T (norm 3 d) 0) as [E|E]; [reflexivity|].
  destruct (exp3 d) as (E0 & E1 & E2 & E3). unfold mvec. cbn [sumn]. rewrite E0, E1, E2, E3.
  generalize (sin (norm 3 d) / norm 3 d) (cos (norm 3 d)). intros s c. clear - Hi.
  destruct o; four i Hi; qcompute; ring.
Qed.
Lemma quat_a_B o x y : let a := QuaternionProduct o y (QuaternionConjugate o x) in let u := mvec 4 (quatB o x) y in
  a (kX o) = u 0%nat /\ a (kY o) = u 1%nat /\ a (kZ o) = u 2%nat /\ a (kW o) = u 3%nat.
Proof. destruct o; do 3 (split; [qcompute; ring|]); qcompute; ring. Qed.
Lemma quat_minus_chart o x y : eqn 3 (QuaternionMinusImpl o y x) (chart_minus 3 (quatB o x) (fun _ => zeros) y).
Proof.
  intros i Hi. unfold QuaternionMinusImpl, chart_minus. pose proof (quat_a_B o x y) as Q. cbv zeta in Q. destruct Q as (Q0 & Q1 & Q2 & Q3).
  cbv zeta. rewrite Q0, Q1, Q2, Q3. rewrite <- norm_3. destruct (Req_EM_T _ 0) as [E|E]; [reflexivity|].
  unfold log_chart. destruct i as [|[|[|i]]]; [| | |lia]; rewrite ?arr3_0, ?arr3_1, ?arr3_2; unfold Rdiv; ring.
Qed.

Lemma quat_is_manifold o : is_manifold (QuaternionManifold o) (unit_quaternion o) always (not_opposite o) (shorter 3 PI).
Proof.
  assert (forall x i, (i < 4)%nat -> quatA o x i 3%nat = x i) as HX by reflexivity.
  assert (forall w, 0 <= w -> eqn 3 ((fun _ : R => zeros) w) zeros) as HD by (intros; intro; reflexivity).
  assert (forall x, eqm 4 3 (quatA o x) (QuaternionPlusJacobianImpl o x)) as JA.
  { intros x i j Hi Hj. unfold quatA. destruct (Nat.eqb_spec j 3); [lia|reflexivity]. }
  assert (forall x, eqm 3 4 (quatB o x) (QuaternionMinusJacobianImpl o x)) as JB.
  { intros x i j Hi Hj. unfold quatB. destruct (Nat.eqb_spec i 3); [lia|reflexivity]. }
  constructor; cbn [QuaternionManifold AmbientSize TangentSize Plus PlusJacobian Minus MinusJacobian RightMultiplyByPlusJacobian].
  - intros x x' H U. apply of_unit4. apply unit4_of in U. unfold unit4 in *. rewrite <- !H by lia. exact U.
  - intros x d U _. eexists. split; [reflexivity|]. apply of_unit4. apply unit4_of in U.
    rewrite unit4_norm, (norm_ext 4 _ _ (quat_plus_chart o x d)), <- unit4_norm. unfold chart_plus. destruct (Req_EM_T (norm 3 d) 0) as [E|E]; [exact U|].
    rewrite quatA_norm, U, unit4_norm, (exp_unit 3 d E). ring.
  - intros x d U _ H. cbn [eqo]. intros i Hi. rewrite (quat_plus_chart o x d i Hi), (chart_zero 3 x (quatA o x) d H). reflexivity.
  - intros x y U _ V R. apply unit4_of in U, V. eexists. split; [reflexivity|]. intros i Hi.
    rewrite (quat_plus_chart o x _ i Hi). set (u := mvec 4 (quatB o x) y).
    assert (unit4 u = 1) as U1 by (unfold u; rewrite quatB_norm, U, V; ring).
    assert (norm 4 u = 1) as N1. { rewrite unit4_norm in U1. pose proof (norm_nonneg 4 u). nra. }
    assert (forall d d', eqn 3 d d' -> eqn 4 (chart_plus 3 x (quatA o x) d) (chart_plus 3 x (quatA o x) d')) as EX.
    { intros d d' E j Hj. unfold chart_plus. rewrite (norm_ext 3 d d' E). destruct (Req_EM_T (norm 3 d') 0); [reflexivity|].
      apply mvec_ext. apply exp_ext. exact E. }
    rewrite (EX _ _ (quat_minus_chart o x y) i Hi).
    destruct (Req_EM_T (norm 3 u) 0) as [Z|Z].
    + (* y = x, as y = - x is excluded *)
      pose proof (norm_zero 3 u Z) as Z'. assert (u 3%nat * u 3%nat = 1) as W.
      { unfold unit4 in U1. rewrite (Z' 0%nat), (Z' 1%nat), (Z' 2%nat) in U1 by lia. lra. }
      assert (forall j, (j < 4)%nat -> y j = u 3%nat * x j) as EY.
      { intros j Hj. rewrite <- (quatAB o x y U j Hj). fold u. unfold mvec. cbn [sumn].
        rewrite (Z' 0%nat), (Z' 1%nat), (Z' 2%nat), HX by lia. ring. }
      assert (u 3%nat = 1) as W1.
      { destruct (Req_dec (u 3%nat) 1) as [E|E]; [exact E|]. exfalso. assert (u 3%nat = -1) as M by nra. apply R.
        unfold quat_of, qneg, qscale. cbn [qw qx qy qz]. rewrite <- M. f_equal; apply EY; destruct o; cbn; lia. }
      rewrite (EY i Hi), W1, Rmult_1_l. rewrite chart_zero; [reflexivity|]. unfold chart_minus. cbv zeta. fold u. rewrite Z.
      destruct (Req_EM_T 0 0); [|lra]. intros j Hj. reflexivity.
    + apply (chart_plus_minus 3 x (quatA o x) (quatB o x) (fun z => quatAB o x z U) (fun _ => zeros) y N1 Z i Hi).
  - intros x d U _ S. apply unit4_of in U. eexists. split; [reflexivity|]. intros i Hi.
    rewrite (quat_minus_chart o x _ i Hi).
    assert (forall y y', eqn 4 y y' -> chart_minus 3 (quatB o x) (fun _ => zeros) y i = chart_minus 3 (quatB o x) (fun _ => zeros) y' i) as EX.
    { intros y y' E. unfold chart_minus. cbv zeta. rewrite (norm_ext 3 _ (mvec 4 (quatB o x) y')) by (intros j Hj; apply mvec_ext; exact E).
      destruct (Req_EM_T _ 0); [reflexivity|]. apply log_ext; [|exact Hi]. intros j Hj. apply mvec_ext. exact E. }
    rewrite (EX _ _ (quat_plus_chart o x d)).
    apply (chart_minus_plus 3 x (quatA o x) (quatB o x) (fun z => quatBA o x z U) (HX x) (fun _ => zeros) HD d S i Hi).
  - intros x U _. apply unit4_of in U. eexists. split; [reflexivity|].
    apply (derivative_ext 4 3 (fun d => Some (chart_plus 3 x (quatA o x) d)) _ x x (quatA o x)).
    + intro h. cbn [eqo]. intros i Hi. symmetry. apply quat_plus_chart. exact Hi.
    + intros i Hi. reflexivity.
    + apply JA.
    + apply chart_plus_derivative. apply HX.
  - intros x U _. apply unit4_of in U. eexists. split; [reflexivity|].
    apply (derivative_ext 3 4 (fun h => Some (chart_minus 3 (quatB o x) (fun _ => zeros) (fun i => x i + h i))) _ zeros zeros (quatB o x)).
    + intro h. cbn [eqo]. intros i Hi. symmetry. apply quat_minus_chart. exact Hi.
    + intros i Hi. reflexivity.
    + apply JB.
    + apply (chart_minus_derivative 3 x (quatA o x) (quatB o x)); [intro z; apply quatBA; exact U|apply HX|exact HD].
  - intros x U _. apply unit4_of in U. eexists. eexists. split; [reflexivity|]. split; [reflexivity|].
    intros r c Hr Hc. rewrite <- (chart_inverse 3 (quatA o x) (quatB o x) (fun z => quatBA o x z U) r c Hr Hc).
    unfold mmul. apply sumn_ext. intros j Hj. rewrite (JA x j c Hj Hc), (JB x r j Hr Hj). reflexivity.
  - intros x a rows U _. eexists. destruct (default_right 4 3 (fun x => Some (QuaternionPlusJacobianImpl o x)) x _ a rows eq_refl) as (b & E & K).
    exists b. split; [reflexivity|]. split; [exact E|exact K].
  - intros x x' d d' Hx Hd. cbn [eqo]. intros i Hi. rewrite !(fun x d => quat_plus_chart o x d i Hi). unfold chart_plus.
    rewrite (norm_ext 3 d d' Hd). destruct (Req_EM_T (norm 3 d') 0); [apply Hx; exact Hi|].
    rewrite (mvec_ext 4 _ _ _ (exp_ext 3 d d' Hd)). unfold mvec. cbn [sumn].
    assert (forall j, (j < 4)%nat -> quatA o x i j = quatA o x' i j) as E; [|rewrite !E by lia; reflexivity].
    intros j Hj. unfold quatA. four i Hi; four j Hj; destruct o; qcompute; rewrite ?(Hx 0%nat), ?(Hx 1%nat), ?(Hx 2%nat), ?(Hx 3%nat) by lia; reflexivity.
  - intros x x' y y' Hx Hy. cbn [eqo]. intros i Hi. rewrite !(fun x d => quat_minus_chart o x d i Hi).
    assert (eqn 4 (mvec 4 (quatB o x) y) (mvec 4 (quatB o x') y')) as EU.
    { intros r Hr. rewrite (mvec_ext 4 _ _ _ Hy). unfold mvec. cbn [sumn].
      assert (forall j, (j < 4)%nat -> quatB o x r j = quatB o x' r j) as E; [|rewrite !E by lia; reflexivity].
      intros j Hj. unfold quatB. four r Hr; four j Hj; destruct o; qcompute; rewrite ?(Hx 0%nat), ?(Hx 1%nat), ?(Hx 2%nat), ?(Hx 3%nat) by lia; reflexivity. }
    unfold chart_minus. cbv zeta. rewrite (norm_ext 3 _ (mvec 4 (quatB o x') y')) by (intros j Hj; apply EU; lia).
    destruct (Req_EM_T _ 0); [reflexivity|]. apply (log_ext 3 _ _ EU i Hi).
Qed.

(* Plus(x, Minus(-x, x)) is x *)
Lemma quat_opposite o x : unit_quaternion o x ->
  exists y d, unit_quaternion o y /\ Minus (QuaternionManifold o) y x = Some d /\
    quat_of o y = qneg (quat_of o x) /\ Plus (QuaternionManifold o) x d = Some x.
Proof.
  intro U. exists (fun i => - x i). exists zeros. apply unit4_of in U.
  split; [apply of_unit4; unfold unit4 in *; lra|].
  cbn [QuaternionManifold Minus Plus]. split; [|split].
  - unfold QuaternionMinusImpl. pose proof (quat_a_B o x (fun i => - x i)) as Q. cbv zeta in Q. destruct Q as (Q0 & Q1 & Q2 & Q3). cbv zeta.
    rewrite Q0, Q1, Q2, Q3. assert (mvec 4 (quatB o x) (fun i => - x i) 0%nat = 0 /\ mvec 4 (quatB o x) (fun i => - x i) 1%nat = 0 /\ mvec 4 (quatB o x) (fun i => - x i) 2%nat = 0) as (-> & -> & ->).
    { destruct o; do 2 (split; [qcompute; ring|]); qcompute; ring. }
    assert (hypot3 0 0 0 = 0) as -> by (unfold hypot3; replace (0 * 0 + 0 * 0 + 0 * 0) with 0 by ring; apply sqrt_0).
    destruct (Req_EM_T 0 0); [reflexivity|lra].
  - unfold quat_of, qneg, qscale. cbn [qw qx qy qz]. f_equal; ring.
  - unfold QuaternionPlusImpl. cbv zeta. assert (hypot3 (zeros 0%nat) (zeros 1%nat) (zeros 2%nat) = 0) as ->.
    { unfold hypot3, zeros. replace (0 * 0 + 0 * 0 + 0 * 0) with 0 by ring. apply sqrt_0. }
    destruct (Req_EM_T 0 0); [reflexivity|lra].
Qed.
