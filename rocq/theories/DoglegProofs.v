Require Import Reals List Lra Lia Psatz.
From Verif Require Import DoglegModel.
Import ListNotations.
Open Scope R_scope.

Lemma dot_comm : forall u v, dot u v = dot v u.
Proof. induction u; destruct v; simpl; auto. rewrite IHu. lra. Qed.
Lemma dot_nonneg : forall u, 0 <= dot u u.
Proof. induction u; simpl; [lra|]. nra. Qed.
Lemma dot_scale_l : forall c u v, dot (scale c u) v = c * dot u v.
Proof. induction u; destruct v; simpl; try lra. unfold scale in *. rewrite IHu. lra. Qed.
Lemma dot_scale_r : forall c u v, dot u (scale c v) = c * dot u v.
Proof. intros. rewrite dot_comm, dot_scale_l, dot_comm. auto. Qed.
Lemma dot_vadd_l : forall u v w, length u = length v -> dot (vadd u v) w = dot u w + dot v w.
Proof.
  induction u; destruct v; simpl; intros w L; try discriminate; [lra|].
  destruct w; simpl; [lra|]. rewrite IHu by lia. lra.
Qed.
Lemma dot_vadd_r : forall u v w, length u = length v -> dot w (vadd u v) = dot w u + dot w v.
Proof. intros. rewrite dot_comm, dot_vadd_l by auto. rewrite (dot_comm u), (dot_comm v). auto. Qed.
Lemma scale_length : forall c u, length (scale c u) = length u.
Proof. intros. apply map_length. Qed.
Lemma vadd_length : forall u v, length u = length v -> length (vadd u v) = length u.
Proof. induction u; destruct v; simpl; intros; try discriminate; auto. Qed.
Lemma norm_sq : forall u, norm u * norm u = dot u u.
Proof. intros. unfold norm. apply sqrt_sqrt. apply dot_nonneg. Qed.
Lemma norm_nonneg : forall u, 0 <= norm u.
Proof. intros. apply sqrt_pos. Qed.
Lemma norm_unique : forall u r, 0 <= r -> dot u u = r * r -> norm u = r.
Proof. intros u r R H. unfold norm. rewrite H. apply sqrt_square; auto. Qed.

(** Cauchy-Schwarz *)
Lemma cauchy_schwarz_sq : forall u v, length u = length v -> dot u v * dot u v <= dot u u * dot v v.
Proof.
  intros u v L.
  assert (Q : forall t, 0 <= dot u u + 2 * t * dot u v + t * t * dot v v).
  { intros t. pose proof (dot_nonneg (vadd u (scale t v))) as H.
    rewrite dot_vadd_l in H by (rewrite scale_length; auto).
    rewrite !dot_vadd_r in H by (rewrite scale_length; auto).
    rewrite !dot_scale_l, !dot_scale_r in H. rewrite (dot_comm v u) in H. lra. }
  pose proof (dot_nonneg u) as Hu. pose proof (dot_nonneg v) as Hv.
  destruct (Req_dec (dot v v) 0) as [Z|Z].
  - rewrite Z. assert (dot u v = 0); [|nra].
    pose proof (Q (- (dot u u + 1) / (2 * dot u v))) as H1.
    destruct (Req_dec (dot u v) 0) as [|N]; auto. exfalso.
    rewrite Z in H1. replace (2 * (- (dot u u + 1) / (2 * dot u v)) * dot u v) with (- (dot u u + 1)) in H1 by (field; auto). lra.
  - pose proof (Q (- dot u v / dot v v)) as H1.
    replace (dot u u + 2 * (- dot u v / dot v v) * dot u v + - dot u v / dot v v * (- dot u v / dot v v) * dot v v)
      with (dot u u - dot u v * dot u v / dot v v) in H1 by (field; auto).
    assert (0 < dot v v) by lra.
    apply (Rmult_le_compat_r (dot v v)) in H1; [|lra].
    rewrite Rmult_0_l in H1. unfold Rdiv in H1. rewrite Rmult_minus_distr_r in H1.
    rewrite Rmult_assoc, Rinv_l, Rmult_1_r in H1 by auto. lra.
Qed.

Section D.
Variables (radius alpha : R) (g gn : vec).
Hypothesis Hr : 0 < radius.
Hypothesis Ha : 0 <= alpha.
Hypothesis Hl : length g = length gn.

Let A2 := alpha * norm g * (alpha * norm g).
Let B2 := norm gn * norm gn.
Let AB := - alpha * dot g gn.
Let W := A2 - 2 * AB + B2.
Let C := AB - A2.
Let D := sqrt (C * C + W * (radius * radius - A2)).

Hypothesis Out : radius < norm gn.
Hypothesis In_ : norm g * alpha < radius.

Lemma A2_lt : A2 < radius * radius.
Proof. unfold A2. pose proof (norm_nonneg g). assert (0 <= alpha * norm g) by nra. nra. Qed.
Lemma B2_gt : radius * radius < B2.
Proof. unfold B2. nra. Qed.
Lemma cs : AB * AB <= A2 * B2.
Proof.
  unfold AB, A2, B2. pose proof (cauchy_schwarz_sq g gn Hl).
  replace (alpha * norm g * (alpha * norm g)) with (alpha * alpha * (norm g * norm g)) by ring.
  rewrite !norm_sq. replace (- alpha * dot g gn * (- alpha * dot g gn)) with (alpha * alpha * (dot g gn * dot g gn)) by ring.
  replace (alpha * alpha * dot g g * dot gn gn) with (alpha * alpha * (dot g g * dot gn gn)) by ring.
  apply Rmult_le_compat_l; nra.
Qed.
Lemma A2_nonneg : 0 <= A2. Proof. unfold A2. nra. Qed.

Lemma W_pos : 0 < W.
Proof.
  unfold W. pose proof cs. pose proof A2_lt. pose proof B2_gt. pose proof A2_nonneg.
  destruct (Rle_dec AB 0); [nra|].
  assert (2 * AB < A2 + B2); [|lra].
  apply Rsqr_incrst_0; unfold Rsqr; nra.
Qed.
Lemma D_sq : D * D = C * C + W * (radius * radius - A2).
Proof. apply sqrt_sqrt. pose proof W_pos. pose proof A2_lt. nra. Qed.
Lemma D_gt : Rabs C < D.
Proof.
  pose proof W_pos. pose proof A2_lt. pose proof D_sq.
  assert (0 <= D) by apply sqrt_pos.
  apply Rsqr_incrst_0; unfold Rsqr; auto. 2: apply Rabs_pos.
  replace (Rabs C * Rabs C) with (C * C) by (rewrite <- Rabs_mult, Rabs_right; [auto|nra]).
  nra.
Qed.

Let beta := dogleg_beta radius alpha g gn.

Lemma beta_eq : beta = (D - C) / W.
Proof.
  pose proof W_pos. pose proof D_gt. pose proof D_sq.
  unfold beta, dogleg_beta. fold A2 AB B2. fold W. fold C. fold D.
  destruct (Rle_dec C 0); auto.
  assert (0 < D + C). { rewrite Rabs_right in H0; lra. }
  apply (Rmult_eq_reg_r (W * (D + C))); [|nra].
  replace ((radius * radius - A2) / (D + C) * (W * (D + C))) with (W * (radius * radius - A2)) by (field; lra).
  replace ((D - C) / W * (W * (D + C))) with (D * D - C * C) by (field; lra). lra.
Qed.

Lemma beta_quad : W * beta * beta + 2 * C * beta = radius * radius - A2.
Proof.
  rewrite beta_eq. pose proof W_pos. pose proof D_sq.
  replace (W * ((D - C) / W) * ((D - C) / W) + 2 * C * ((D - C) / W)) with ((D * D - C * C) / W) by (field; lra).
  rewrite H0. field. lra.
Qed.

Lemma beta_range : 0 < beta < 1.
Proof.
  pose proof W_pos. pose proof D_gt. pose proof D_sq. rewrite beta_eq.
  assert (C <= Rabs C) by apply Rle_abs.
  split.
  - apply Rdiv_lt_0_compat; lra.
  - apply (Rmult_lt_reg_r W); [lra|]. unfold Rdiv. rewrite Rmult_assoc, Rinv_l, Rmult_1_r, Rmult_1_l by lra.
    assert (0 < C + W).
    { unfold C, W. pose proof cs. pose proof A2_lt. pose proof B2_gt. pose proof A2_nonneg.
      destruct (Rle_dec AB 0); [lra|]. assert (AB < B2); [|lra]. apply Rsqr_incrst_0; unfold Rsqr; nra. }
    assert (D < C + W); [|lra].
    apply Rsqr_incrst_0; unfold Rsqr; try lra. 2: apply sqrt_pos.
    rewrite H1. pose proof B2_gt.
    assert (E2 : radius * radius - A2 < 2 * C + W) by (unfold C, W; lra).
    assert (W * (radius * radius - A2) < W * (2 * C + W)) by (apply Rmult_lt_compat_l; lra). nra.
Qed.

Lemma interp_dot : dot (vadd (scale (- alpha * (1 - beta)) g) (scale beta gn))
                       (vadd (scale (- alpha * (1 - beta)) g) (scale beta gn)) = radius * radius.
Proof.
  rewrite dot_vadd_l by (rewrite !scale_length; auto).
  rewrite !dot_vadd_r by (rewrite !scale_length; auto).
  rewrite !dot_scale_l, !dot_scale_r, (dot_comm gn g).
  pose proof beta_quad as Q. unfold C, W, AB, A2, B2 in Q.
  rewrite norm_sq in Q.
  replace (alpha * norm g * (alpha * norm g)) with (alpha * alpha * dot g g) in Q by (rewrite <- norm_sq; ring).
  nra.
Qed.
End D.

(** ** the quadratic model *)
Lemma mulv_scale : forall J c x, mulv J (scale c x) = scale c (mulv J x).
Proof. intros. unfold mulv, scale. rewrite map_map. apply map_ext. intros. apply dot_scale_r. Qed.
Lemma mulv_vadd : forall J x y, length x = length y -> mulv J (vadd x y) = vadd (mulv J x) (mulv J y).
Proof. induction J; simpl; intros; auto. rewrite dot_vadd_r, IHJ; auto. Qed.
Lemma mulv_length : forall J x, length (mulv J x) = length J.
Proof. intros. apply map_length. Qed.
