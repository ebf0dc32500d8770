(** C76: the gradient of a GradientProblem is the derivative along the tangent directions. *)
From Coq Require Import Reals Arith Lra Lia.
From Verif Require Import RotationModel RotationSpec ManifoldModel ManifoldSpec ManifoldProofs ManifoldProps GpgModel GpgSpec.
Open Scope R_scope.

(** the chain rule *)
Lemma chain_rule n k f plus x (J : mat) ag g :
  gradient_at n f x ag -> derivative_at_zero n k plus x J ->
  (forall j, (j < k)%nat -> g j = sumn n (fun i => ag i * J i j)) -> tangent_gradient k f plus x g.
Proof.
  intros HG HD Hg eps He.
  set (A := sumn n (fun i => Rabs (ag i))).
  set (K := sumn n (fun i => sumn k (fun j => Rabs (J i j)) + 1)).
  set (L := INR n * K).
  assert (A0 : 0 <= A) by (apply sumn_nonneg; intros; apply Rabs_pos).
  assert (R0 : forall i, 0 <= sumn k (fun j => Rabs (J i j))) by (intro; apply sumn_nonneg; intros; apply Rabs_pos).
  assert (K0 : 0 <= K) by (apply sumn_nonneg; intros i _; pose proof (R0 i); lra).
  assert (L0 : 0 <= L) by (apply Rmult_le_pos; [apply pos_INR|exact K0]).
  set (e1 := eps / (2 * (L + 1))). set (e2 := Rmin 1 (eps / (2 * (A + 1)))).
  assert (E1 : 0 < e1) by (apply Rdiv_lt_0_compat; lra).
  assert (E2' : 0 < eps / (2 * (A + 1))) by (apply Rdiv_lt_0_compat; lra).
  assert (E2 : 0 < e2) by (apply Rmin_glb_lt; lra).
  assert (e2_1 : e2 <= 1) by apply Rmin_l.
  assert (e2_A : e2 <= eps / (2 * (A + 1))) by apply Rmin_r.
  destruct (HG e1 E1) as (d1 & D1 & HG1). destruct (HD e2 E2) as (d2 & D2 & HD2).
  exists (Rmin d2 (d1 / (L + 1))). split; [apply Rmin_glb_lt; [exact D2|apply Rdiv_lt_0_compat; lra]|].
  intros h Hh. destruct (HD2 h) as (z & Hz & Hzi); [eapply Rlt_le_trans; [exact Hh|apply Rmin_l]|].
  exists z. split; [exact Hz|]. set (N := norm k h) in *. assert (N0 : 0 <= N) by apply norm_nonneg.
  assert (HN : N * (L + 1) < d1).
  { apply (Rmult_lt_reg_r (/ (L + 1))); [apply Rinv_0_lt_compat; lra|]. rewrite Rmult_assoc, Rinv_r, Rmult_1_r by lra.
    eapply Rlt_le_trans; [exact Hh|apply Rmin_r]. }
  assert (MV : forall i, Rabs (mvec k J h i) <= sumn k (fun j => Rabs (J i j)) * N).
  { intro i. unfold mvec. eapply Rle_trans; [apply sumn_abs|]. rewrite (Rmult_comm _ N), <- sumn_scal. apply sumn_le. intros j Hj.
    rewrite Rabs_mult, Rmult_comm. apply Rmult_le_compat_r; [apply Rabs_pos|]. apply entry_le_norm. exact Hj. }
  assert (DZ : forall i, (i < n)%nat -> Rabs (z i - x i) <= K * N).
  { intros i Hi. replace (z i - x i) with ((z i - x i - mvec k J h i) + mvec k J h i) by ring.
    eapply Rle_trans; [apply Rabs_triang|]. pose proof (Hzi i Hi) as Q1. pose proof (MV i) as Q2.
    assert (Q3 : (sumn k (fun j => Rabs (J i j)) + 1) * N <= K * N).
    { apply Rmult_le_compat_r; [exact N0|]. unfold K.
      apply (sumn_nonneg_le n (fun i => sumn k (fun j => Rabs (J i j)) + 1) i); [|exact Hi]. intros j _. pose proof (R0 j). lra. }
    assert (e2 * N <= 1 * N) by (apply Rmult_le_compat_r; lra). lra. }
  assert (ND : norm n (fun i => z i - x i) <= L * N).
  { unfold L. rewrite Rmult_assoc. apply norm_le_sum; [apply Rmult_le_pos; lra|exact DZ]. }
  assert (ND1 : norm n (fun i => z i - x i) < d1) by (eapply Rle_lt_trans; [exact ND|]; lra).
  pose proof (HG1 z ND1) as Q.
  assert (S1 : sumn k (fun j => g j * h j) = sumn n (fun i => ag i * mvec k J h i)).
  { transitivity (sumn k (fun j => sumn n (fun i => ag i * J i j * h j))).
    - apply sumn_ext. intros j Hj. rewrite (Hg j Hj), Rmult_comm, <- sumn_scal. apply sumn_ext. intros; ring.
    - rewrite sumn_swap. apply sumn_ext. intros i _. unfold mvec. rewrite <- sumn_scal. apply sumn_ext. intros; ring. }
  assert (S2 : Rabs (sumn n (fun i => ag i * (z i - x i)) - sumn n (fun i => ag i * mvec k J h i)) <= A * (e2 * N)).
  { rewrite <- sumn_sub. eapply Rle_trans; [apply sumn_abs|]. unfold A. rewrite Rmult_comm, <- sumn_scal. apply sumn_le. intros i Hi.
    replace (ag i * (z i - x i) - ag i * mvec k J h i) with (ag i * (z i - x i - mvec k J h i)) by ring.
    rewrite Rabs_mult, Rmult_comm. apply Rmult_le_compat_r; [apply Rabs_pos|exact (Hzi i Hi)]. }
  rewrite S1.
  replace (f z - f x - sumn n (fun i => ag i * mvec k J h i))
    with ((f z - f x - sumn n (fun i => ag i * (z i - x i))) + (sumn n (fun i => ag i * (z i - x i)) - sumn n (fun i => ag i * mvec k J h i))) by ring.
  eapply Rle_trans; [apply Rabs_triang|].
  assert (B1 : e1 * norm n (fun i => z i - x i) <= eps / 2 * N).
  { eapply Rle_trans; [apply Rmult_le_compat_l; [lra|exact ND]|]. rewrite <- Rmult_assoc. apply Rmult_le_compat_r; [exact N0|].
    unfold e1. apply (Rmult_le_reg_r (2 * (L + 1))); [lra|]. unfold Rdiv.
    replace (eps * / (2 * (L + 1)) * L * (2 * (L + 1))) with (eps * L * (/ (2 * (L + 1)) * (2 * (L + 1)))) by ring. rewrite Rinv_l by lra. nra. }
  assert (B2 : A * (e2 * N) <= eps / 2 * N).
  { rewrite <- Rmult_assoc. apply Rmult_le_compat_r; [exact N0|]. eapply Rle_trans; [apply Rmult_le_compat_l; [exact A0|exact e2_A]|].
    apply (Rmult_le_reg_r (2 * (A + 1))); [lra|]. unfold Rdiv.
    replace (A * (eps * / (2 * (A + 1))) * (2 * (A + 1))) with (eps * A * (/ (2 * (A + 1)) * (2 * (A + 1)))) by ring. rewrite Rinv_l by lra. nra. }
  lra.
Qed.

(** the function computes f and its gradient at x *)
Definition computes (F : first_order_function) (f : arr -> R) (x : arr) : Prop :=
  exists ag, fo_evaluate F x true = Some (f x, Some ag) /\ gradient_at (NumParameters F) f x ag.

(** on any manifold: the cost, and the gradient of the cost along the tangent directions *)
Theorem gradient_problem_gradient F m p on regular reach small f x :
  is_manifold m on regular reach small -> NewOnManifold F m = Some p -> on x -> regular x -> computes F f x ->
  exists g, GEvaluate p x true = Some (f x, Some g) /\ tangent_gradient (NumTangentParameters p) f (GPlus p x) x g.
Proof.
  intros HM HP Hon Hr (ag & He & HG). unfold NewOnManifold in HP. destruct (Nat.eqb_spec (NumParameters F) (AmbientSize m)) as [Hn|]; [|discriminate].
  injection HP as <-. unfold GEvaluate, NumTangentParameters, GPlus. cbn [negb function_ manifold_]. rewrite He.
  destruct (im_right _ _ _ _ _ HM x (fun _ => ag) 1%nat Hon Hr) as (J & b & HJ & HB & Heq). rewrite HB.
  exists (b 0%nat). split; [reflexivity|].
  destruct (im_plus_jacobian _ _ _ _ _ HM x Hon Hr) as (J' & HJ' & HD). rewrite HJ in HJ'. injection HJ' as <-.
  rewrite Hn in HG. apply (chain_rule (AmbientSize m) (TangentSize m) f (fun d => Plus m x d) x J ag (b 0%nat) HG HD).
  intros j Hj. exact (Heq 0%nat j Nat.lt_0_1 Hj).
Qed.
Print Assumptions gradient_problem_gradient.

(** without a manifold it is the function's gradient *)
Theorem gradient_problem_euclidean F f x : computes F f x ->
  exists g, GEvaluate (NewEuclidean F) x true = Some (f x, Some g) /\ gradient_at (GNumParameters (NewEuclidean F)) f x g /\
    NumTangentParameters (NewEuclidean F) = GNumParameters (NewEuclidean F).
Proof. intros (ag & He & HG). unfold GEvaluate, NewEuclidean. cbn. rewrite He. exists ag. auto. Qed.
Print Assumptions gradient_problem_euclidean.

(** sizes that do not match are refused *)
Theorem gradient_problem_sizes F m : NewOnManifold F m = None <-> NumParameters F <> AmbientSize m.
Proof. unfold NewOnManifold. destruct (Nat.eqb_spec (NumParameters F) (AmbientSize m)); split; congruence. Qed.
Print Assumptions gradient_problem_sizes.

(** ** a case: x . a on the unit sphere in space *)
Definition linear (a : arr) : first_order_function := mkFOF 3 (fun x g => Some (sumn 3 (fun i => a i * x i), if g then Some a else None)).
Example linear_computes a x : computes (linear a) (fun y => sumn 3 (fun i => a i * y i)) x.
Proof.
  exists a. split; [reflexivity|]. intros eps He. exists 1. split; [lra|]. intros y _.
  replace (_ - _ - _) with 0; [|cbn [NumParameters linear]; rewrite <- !sumn_sub; rewrite <- (sumn_zero 3); apply sumn_ext; intros; ring].
  rewrite Rabs_R0. apply Rmult_le_pos; [lra|apply norm_nonneg].
Qed.
Definition e0 : arr := fun i => match i with 0%nat => 1 | _ => 0 end.
Example linear_on_sphere a : exists m p g, SphereManifold 3 = Some m /\ NewOnManifold (linear a) m = Some p /\
  GEvaluate p e0 true = Some (sumn 3 (fun i => a i * e0 i), Some g) /\
  NumTangentParameters p = 2%nat /\ tangent_gradient 2 (fun y => sumn 3 (fun i => a i * y i)) (GPlus p e0) e0 g.
Proof.
  destruct (sphere_manifold 3 1) as (m & Hm & HA & HT & HM); [lia|lra|].
  assert (HP : NewOnManifold (linear a) m = Some (mkGPR (linear a) m)) by (unfold NewOnManifold; rewrite HA; reflexivity).
  exists m, (mkGPR (linear a) m).
  assert (Hon : on_sphere 3 1 e0).
  { unfold on_sphere, norm, dot. cbn [sumn e0]. replace (0 + 1 * 1 + 0 * 0 + 0 * 0) with 1 by ring. apply sqrt_1. }
  assert (Hr : off_threshold 3 e0).
  { right. unfold dot, epsilon. cbn [Nat.sub sumn e0]. lra. }
  destruct (gradient_problem_gradient _ _ _ _ _ _ _ _ e0 HM HP Hon Hr (linear_computes a e0)) as (g & G1 & G2).
  exists g. split; [exact Hm|]. split; [exact HP|]. split; [exact G1|]. unfold NumTangentParameters in *. cbn [manifold_] in *. rewrite HT in *. auto.
Qed.
