(** Theorems about the loss functions (C39) and the corrector (C40). *)
Require Import Reals Lra Lia Psatz Arith.
From Coquelicot Require Import Coquelicot.
From Verif Require Import LossModel LossSpec LossProofs LossProofs2.
Open Scope R_scope.

(** *** C39 *)
(** For every loss, however composed and scaled, the three reported numbers are the
    value and its true first and second derivative, away from branch points. *)
Theorem loss_true_derivatives : forall l s, loss_ok l -> regular l s -> true_derivatives (loss_eval l) s.
Proof. exact loss_derivs. Qed.

(** At its threshold Huber is still differentiable, with a continuous slope. *)
Theorem huber_threshold : forall a, 0 < a ->
  is_derive (fun t => rho0 (huber_loss a t)) (a * a) (rho1 (huber_loss a (a * a))) /\
  continuous (fun t => rho1 (huber_loss a t)) (a * a).
Proof.
  intros a A. assert (AA : 0 < a * a) by nra.
  assert (SQ : sqrt (a * a) = a) by (apply sqrt_square; lra).
  assert (E1 : rho1 (huber_loss a (a * a)) = 1).
  { unfold huber_loss. destruct (Rlt_dec _ _); [lra|reflexivity]. }
  split.
  - rewrite E1. apply (glue_derive (fun t => t) (fun t => 2 * a * sqrt t - a * a)).
    + rewrite SQ. ring.
    + apply did.
    + auto_derive; auto. rewrite SQ. field. lra.
    + intros t T. unfold huber_loss. destruct (Rlt_dec _ _); [lra|reflexivity].
    + intros t T. unfold huber_loss. destruct (Rlt_dec _ _); [reflexivity|lra].
  - intros P [eps HP]. rewrite E1 in HP.
    assert (C : continuous (fun t => a / sqrt t) (a * a)).
    { apply @ex_derive_continuous. auto_derive. repeat split; auto. rewrite SQ. lra. }
    assert (V : a / sqrt (a * a) = 1) by (rewrite SQ; field; lra).
    assert (L1 : locally (a * a) (fun t => P (a / sqrt t))).
    { apply C. exists eps. rewrite V. auto. }
    assert (L2 : locally (a * a) (fun t => DBL_MINR < a / sqrt t)).
    { apply (locally_gt (fun t => a / sqrt t)). auto_derive. repeat split; auto. rewrite SQ. lra. rewrite V. apply dbl_min_lt_1. }
    assert (P1 : P 1). { apply HP. apply ball_center. }
    unfold filtermap. generalize (filter_and _ _ L1 L2). apply filter_imp. intros t [T1 T2].
    unfold huber_loss. destruct (Rlt_dec _ _); cbn [rho1]; auto. rewrite max_r; auto.
Qed.

(** At zero every unscaled robust loss behaves like the plain squared norm. *)
Theorem loss_at_zero : forall l, loss_ok l -> unscaled l ->
  rho0 (loss_eval l 0) = 0 /\ rho1 (loss_eval l 0) = 1.
Proof.
  assert (M1 : Rmax DBL_MINR 1 = 1) by (apply max_r, dbl_min_lt_1).
  induction l as [|a|a|a|a|a b|a|f|f IHf g IHg|r a]; cbn [loss_ok unscaled loss_eval]; intros K U; try contradiction.
  - split; reflexivity.
  - unfold huber_loss. destruct (Rlt_dec _ _) as [L|L]; [nra|]. split; reflexivity.
  - unfold soft_l_one_loss. cbn [rho0 rho1]. rewrite Rmult_0_l, Rplus_0_r, sqrt_1. unfold Rdiv. rewrite Rinv_1, Rmult_1_l, M1. split; ring.
  - unfold cauchy_loss. cbn [rho0 rho1]. rewrite Rmult_0_l, Rplus_0_r, ln_1. unfold Rdiv. rewrite Rinv_1, Rmult_1_l, M1. split; ring.
  - unfold arctan_loss, atan2. cbn [rho0 rho1]. destruct (Rlt_dec 0 a); [|lra].
    rewrite !Rmult_0_l, Rplus_0_r. unfold Rdiv. rewrite Rmult_0_l, atan_0, Rinv_1, Rmult_1_l, M1. split; ring.
  - unfold tukey_loss. destruct (Rle_dec _ _) as [L|L]; [|nra]. cbn [rho0 rho1]. unfold Rdiv. rewrite Rmult_0_l. split; ring.
  - destruct K as [Kf Kg], U as [Uf Ug]. destruct (IHf Kf Uf) as [F0 F1]. destruct (IHg Kg Ug) as [G0 G1].
    cbn [rho0 rho1]. rewrite G0, G1, F0, F1. split; ring.
Qed.
Theorem tolerant_at_zero : forall a b, 0 <= a -> 0 < b -> rho0 (loss_eval (Tolerant a b) 0) = 0.
Proof.
  intros a b A B. cbn [loss_eval]. unfold tolerant_loss.
  assert (X : (0 - a) / b = - a / b) by (field; lra).
  assert (Y : - a / b <= 0). { assert (0 <= a / b); [|unfold Rdiv in *; lra]. apply Rmult_le_pos; auto. left. apply Rinv_0_lt_compat; auto. }
  rewrite X. destruct (Rlt_dec _ _) as [L|L]; [lra|]. cbn. ring.
Qed.

(** Robust losses never exceed the plain cost, never reward a larger residual, and
    are concave with slope at most one. *)
Theorem robust_shape : forall l s, robust l -> 0 <= s -> shape s (loss_eval l s).
Proof. exact robust_shape_. Qed.
Theorem robust_monotone : forall l s t, robust l -> 0 <= s <= t -> rho0 (loss_eval l s) <= rho0 (loss_eval l t).
Proof. exact robust_mono_. Qed.

Example loss_case : let l := Composed (Cauchy 2) (Scaled (Some (Huber 1)) (1 / 2)) in
  loss_ok l /\ regular l 4 /\ robust l /\ weights_ok l /\ rho0 (loss_eval l 4) = 4 * ln (11 / 8).
Proof.
  assert (S4 : sqrt 4 = 2). { replace 4 with (2 * 2) by ring. apply sqrt_square. lra. }
  assert (H : huber_loss 1 4 = mkRho 3 (1 / 2) (- (1 / 2) / 8)).
  { unfold huber_loss. destruct (Rlt_dec _ _); [|lra]. rewrite S4. rewrite max_r.
    - f_equal; field.
    - unfold DBL_MINR. apply (Rmult_lt_reg_r (2 ^ 1022)); [apply pow_lt; lra|]. rewrite Rinv_l; [|apply pow_nonzero; lra].
      assert (2 ^ 2 <= 2 ^ 1022) by (apply Rle_pow; [lra|lia]). lra. }
  assert (DM : DBL_MINR < 1 / 4).
  { unfold DBL_MINR. apply (Rmult_lt_reg_r (2 ^ 1022)); [apply pow_lt; lra|]. rewrite Rinv_l; [|apply pow_nonzero; lra].
    assert (2 ^ 3 <= 2 ^ 1022) by (apply Rle_pow; [lra|lia]). lra. }
  cbv zeta. cbn [loss_ok regular robust weights_ok loss_eval]. rewrite H, S4. cbn [rho0].
  split; [split; lra|]. split.
  { split; [split; [lra|intros _; lra]|]. split; [lra|]. eapply Rlt_trans; [exact DM|].
    replace (1 / (1 + 3 * (1 / 2) / (2 * 2))) with (8 / 11) by field. lra. }
  split; [lra|]. split.
  { split; auto. split; [split; [auto|lra]|]. intros s S. pose proof (huber_shape 1 s ltac:(lra) S) as ((G & _) & _). nra. }
  unfold cauchy_loss. cbn [rho0]. replace (1 + 3 * (1 / 2) * (1 / (2 * 2))) with (11 / 8) by field. ring.
Qed.

(** *** C40 *)
(** The corrector never fails for non negative scale factors. *)
Theorem corrector_total : forall l s, weights_ok l -> 0 <= s -> corrector_new s (loss_eval l s) <> None.
Proof.
  intros l s W S. destruct (weights_sane l s W S) as [A B]. unfold corrector_new.
  destruct (Rlt_dec s 0); [lra|]. destruct (Req_EM_T s 0); [discriminate|].
  destruct (Rle_dec (rho2 (loss_eval l s)) 0); [discriminate|].
  destruct (Rlt_dec 0 (rho1 (loss_eval l s))); [discriminate|]. exfalso. assert (rho1 (loss_eval l s) = 0) by lra. auto.
Qed.

Lemma zero_residual : forall n res k, sum_n_of (fun k => res k * res k) n = 0 -> (k < n)%nat -> res k = 0.
Proof.
  intros n res. assert (P : forall m, 0 <= sum_n_of (fun k => res k * res k) m).
  { induction m; cbn; [lra|nra]. }
  induction n as [|n IH]; intros k E K; [lia|]. cbn in E. pose proof (P n).
  destruct (Nat.eq_dec k n) as [->|]; [nra|]. apply IH; [nra|lia].
Qed.

(** what the constructor guarantees about its three numbers *)
Lemma corrector_facts : forall n res rho c, 0 <= rho1 rho ->
  corrector_new (sum_n_of (fun k => res k * res k) n) rho = Some c ->
  let s := sum_n_of (fun k => res k * res k) n in
  sqrt_rho1 c * sqrt_rho1 c = rho1 rho /\
  residual_scaling c * (1 - alpha_sq_norm c * s) = sqrt_rho1 c /\
  (0 < rho2 rho -> 0 < s -> rho1 rho * (alpha_sq_norm c * alpha_sq_norm c * s - 2 * alpha_sq_norm c) = 2 * rho2 rho) /\
  (rho2 rho <= 0 \/ s = 0 -> alpha_sq_norm c = 0).
Proof.
  intros n res rho c P C. cbv zeta. set (s := sum_n_of (fun k => res k * res k) n) in *.
  unfold corrector_new in C. destruct (Rlt_dec s 0); [discriminate|].
  destruct (Req_EM_T s 0) as [E|E].
  { injection C as <-. cbn. rewrite sqrt_sqrt by auto. repeat split; try lra. }
  destruct (Rle_dec (rho2 rho) 0) as [L|L].
  { injection C as <-. cbn. rewrite sqrt_sqrt by auto. repeat split; try lra. }
  destruct (Rlt_dec 0 (rho1 rho)) as [L1|]; [|discriminate]. injection C as <-. cbn.
  set (D := 1 + 2 * s * rho2 rho / rho1 rho).
  assert (DP : 1 < D).
  { unfold D. assert (0 < 2 * s * rho2 rho / rho1 rho); [|lra]. apply Rdiv_lt_0_compat; auto. nra. }
  pose proof (sqrt_sqrt D ltac:(lra)) as SS. assert (W : 0 < sqrt D) by (apply sqrt_lt_R0; lra).
  rewrite sqrt_sqrt by lra. split; auto. split; [field; split; lra|]. split; [|intros [X|X]; lra].
  intros _ _. transitivity (rho1 rho * (sqrt D * sqrt D - 1) / s); [field; auto|]. rewrite SS. unfold D. field. split; lra.
Qed.

(** The gradient of the corrected residuals is exactly rho' times the
    original gradient, for every Jacobian column. *)
Theorem corrector_gradient : forall nr nc res jac rho c, 0 <= rho1 rho ->
  corrector_new (sum_n_of (fun k => res k * res k) nr) rho = Some c ->
  forall k, (k < nc)%nat ->
  sum_n_of (fun r => correct_jacobian c nr nc res jac (r * nc + k)%nat * correct_residuals c nr res r) nr =
  rho1 rho * sum_n_of (fun r => jac (r * nc + k)%nat * res r) nr.
Proof.
  intros nr nc res jac rho c P C k K. destruct (corrector_facts nr res rho c P C) as (F1 & F2 & _ & _).
  destruct (jacobian_at c nr nc res jac) as [J _].
  set (G := sum_n_of (fun r => jac (r * nc + k)%nat * res r) nr) in *.
  rewrite (sum_ext nr _ (fun r => (sqrt_rho1 c * residual_scaling c) * (jac (r * nc + k)%nat * res r)
                      + (- (sqrt_rho1 c * residual_scaling c * alpha_sq_norm c * G)) * (res r * res r))).
  2:{ intros r R. rewrite (J r k R K), correct_residuals_at.
      replace (r <? nr)%nat with true by (symmetry; apply Nat.ltb_lt; auto). fold G. ring. }
  rewrite sum_plus, !sum_scal. fold G. set (s := sum_n_of (fun k => res k * res k) nr) in *.
  transitivity (sqrt_rho1 c * (residual_scaling c * (1 - alpha_sq_norm c * s)) * G); [ring|].
  rewrite F2, F1. reflexivity.
Qed.

(** The Gauss-Newton matrix gets the second order term of the robust cost when
    rho'' > 0, and only the factor rho' (the documented clamp) otherwise. *)
Theorem corrector_hessian : forall nr nc res jac rho c, 0 <= rho1 rho ->
  corrector_new (sum_n_of (fun k => res k * res k) nr) rho = Some c ->
  forall k l, (k < nc)%nat -> (l < nc)%nat ->
  sum_n_of (fun r => correct_jacobian c nr nc res jac (r * nc + k)%nat * correct_jacobian c nr nc res jac (r * nc + l)%nat) nr =
  rho1 rho * sum_n_of (fun r => jac (r * nc + k)%nat * jac (r * nc + l)%nat) nr +
  2 * Rmax 0 (rho2 rho) * (sum_n_of (fun r => jac (r * nc + k)%nat * res r) nr * sum_n_of (fun r => jac (r * nc + l)%nat * res r) nr).
Proof.
  intros nr nc res jac rho c P C k l K L. destruct (corrector_facts nr res rho c P C) as (F1 & F2 & F3 & F4).
  destruct (jacobian_at c nr nc res jac) as [J _].
  set (Gk := sum_n_of (fun r => jac (r * nc + k)%nat * res r) nr) in *.
  set (Gl := sum_n_of (fun r => jac (r * nc + l)%nat * res r) nr) in *.
  set (al := alpha_sq_norm c) in *.
  rewrite (sum_ext nr _ (fun r => rho1 rho * (jac (r * nc + k)%nat * jac (r * nc + l)%nat)
     + ((- rho1 rho * al * Gl) * (jac (r * nc + k)%nat * res r)
        + ((- rho1 rho * al * Gk) * (jac (r * nc + l)%nat * res r) + (rho1 rho * al * al * Gk * Gl) * (res r * res r))))).
  2:{ intros r R. rewrite (J r k R K), (J r l R L). fold Gk Gl. fold al. rewrite <- F1. ring. }
  rewrite !sum_plus, !sum_scal. fold Gk Gl. set (s := sum_n_of (fun k => res k * res k) nr) in *.
  transitivity (rho1 rho * sum_n_of (fun r => jac (r * nc + k)%nat * jac (r * nc + l)%nat) nr
                + rho1 rho * (al * al * s - 2 * al) * (Gk * Gl)); [ring|].
  assert (S0 : 0 <= s).
  { unfold s. clear. induction nr; cbn; [lra|nra]. }
  destruct (Req_dec s 0) as [Z|Z].
  - assert (GZ : Gk = 0).
    { unfold Gk. rewrite (sum_ext nr _ (fun r => 0 * 0)); [rewrite sum_scal; ring|].
      intros r R. rewrite (zero_residual nr res r Z R). ring. }
    rewrite GZ. ring.
  - destruct (Rle_dec (rho2 rho) 0) as [N|N].
    + rewrite (F4 (or_introl N)), Rmax_left by lra. ring.
    + rewrite F3 by lra. rewrite Rmax_right by lra. ring.
Qed.

(** Entries outside the matrix are not touched. *)
Theorem corrector_frame : forall c nr nc res jac i,
  ((nr * nc <= i)%nat -> correct_jacobian c nr nc res jac i = jac i) /\
  ((nr <= i)%nat -> correct_residuals c nr res i = res i).
Proof.
  intros. split.
  - apply jacobian_at.
  - intros L. rewrite correct_residuals_at. replace (i <? nr)%nat with false; auto. symmetry. apply Nat.ltb_ge. auto.
Qed.

(** Together: moving the parameters along any curve, the corrected Jacobian column and
    residuals give the true derivative of the robust cost. *)
Theorem robust_cost_gradient : forall f n (res : R -> arr) jac t c,
  (forall k, (k < n)%nat -> is_derive (fun u => res u k) t (jac k)) ->
  let s := sum_n_of (fun k => res t k * res t k) n in
  true_derivatives f s -> 0 <= rho1 (f s) -> corrector_new s (f s) = Some c ->
  is_derive (fun u => 1 / 2 * rho0 (f (sum_n_of (fun k => res u k * res u k) n))) t
    (sum_n_of (fun k => correct_jacobian c n 1 (res t) jac k * correct_residuals c n (res t) k) n).
Proof.
  intros f n res jac t c D s [T _] P C.
  pose proof (corrector_gradient n 1 (res t) jac (f s) c P C 0%nat Nat.lt_0_1) as G.
  assert (I : forall r, (r * 1 + 0)%nat = r) by (intros; lia).
  rewrite (sum_ext n _ (fun k => correct_jacobian c n 1 (res t) jac (k * 1 + 0)%nat * correct_residuals c n (res t) k))
    by (intros; rewrite I; auto).
  rewrite G. rewrite (sum_ext n _ (fun k => jac k * res t k)) by (intros; rewrite I; auto).
  assert (DS : is_derive (fun u => sum_n_of (fun k => res u k * res u k) n) t (2 * sum_n_of (fun k => jac k * res t k) n)).
  { clear - D. induction n as [|n IH]; cbn.
    - replace (2 * 0) with 0 by ring. apply dconst.
    - evar_last.
      + apply @is_derive_plus; [apply IH; auto|]. apply (is_derive_mult (fun u => res u n) (fun u => res u n)); [apply D; auto|apply D; auto|].
        intros; apply Rmult_comm.
      + unfold plus; cbn. unfold mult; cbn. ring. }
  evar_last.
  - apply (is_derive_scal (fun u => rho0 (f (sum_n_of (fun k => res u k * res u k) n)))).
    apply (is_derive_comp (fun v => rho0 (f v)) (fun u => sum_n_of (fun k => res u k * res u k) n)); [exact T|exact DS].
  - unfold scal; cbn. unfold mult; cbn. fold s. field.
Qed.

(** both branches of the corrector occur *)
Example corrector_case :
  (exists c, corrector_new 4 (mkRho 4 1 2) = Some c /\ alpha_sq_norm c < 0) /\
  (exists c, corrector_new 4 (huber_loss 1 4) = Some c /\ alpha_sq_norm c = 0).
Proof.
  split.
  - unfold corrector_new. cbn [rho1 rho2]. destruct (Rlt_dec 4 0); [lra|]. destruct (Req_EM_T 4 0); [lra|].
    destruct (Rle_dec 2 0); [lra|]. destruct (Rlt_dec 0 1); [|lra]. eexists. split; [reflexivity|]. cbn.
    assert (1 < sqrt (1 + 2 * 4 * 2 / 1)). { rewrite <- sqrt_1 at 1. apply sqrt_lt_1; lra. } lra.
  - pose proof (huber_shape 1 4 ltac:(lra) ltac:(lra)) as (_ & _ & S). unfold corrector_new.
    destruct (Rlt_dec 4 0); [lra|]. destruct (Req_EM_T 4 0); [lra|]. destruct (Rle_dec _ 0); [|lra].
    eexists. split; reflexivity.
Qed.

Print Assumptions loss_true_derivatives.
Print Assumptions huber_threshold.
Print Assumptions loss_at_zero.
Print Assumptions robust_shape.
Print Assumptions robust_monotone.
Print Assumptions corrector_total.
Print Assumptions corrector_gradient.
Print Assumptions corrector_hessian.
Print Assumptions robust_cost_gradient.
