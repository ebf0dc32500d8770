Require Import Reals Lra Lia Psatz Arith.
From Coquelicot Require Import Coquelicot.
From Verif Require Import LossModel LossSpec LossProofs.
Open Scope R_scope.

(** ** shapes *)
Lemma max_pos : forall x, 0 < Rmax DBL_MINR x.
Proof. intros. eapply Rlt_le_trans; [apply dbl_min_pos|apply Rmax_l]. Qed.
Lemma max_le_1 : forall x, x <= 1 -> Rmax DBL_MINR x <= 1.
Proof. intros. apply Rmax_lub; auto. pose proof dbl_min_lt_1. lra. Qed.

Lemma atan_le : forall u, 0 <= u -> 0 <= atan u <= u.
Proof.
  intros u U. destruct (Req_dec u 0) as [->|N]; [rewrite atan_0; lra|].
  destruct (MVT_gen atan 0 u (fun x => 1 / (1 + x * x))) as (c & C & E).
  - intros x X. auto_derive; auto. field. nra.
  - intros x X. apply continuity_pt_filterlim. apply @ex_derive_continuous. auto_derive. auto.
  - rewrite atan_0 in E. rewrite !Rminus_0_r in E. rewrite E.
    assert (0 < 1 / (1 + c * c) <= 1).
    { assert (0 < 1 + c * c) by nra. split; [apply Rdiv_lt_0_compat; lra|].
      apply (Rmult_le_reg_r (1 + c * c)); auto. unfold Rdiv. rewrite Rmult_assoc, Rinv_l; nra. }
    nra.
Qed.

Lemma div_nonneg : forall s b, 0 <= s -> 0 < b -> 0 <= s * (1 / b).
Proof. intros. apply Rmult_le_pos; auto. left. apply Rdiv_lt_0_compat; lra. Qed.
Lemma inv_le_1 : forall x, 1 <= x -> 0 < 1 / x <= 1.
Proof.
  intros x X. split; [apply Rdiv_lt_0_compat; lra|]. apply (Rmult_le_reg_r x); [lra|].
  unfold Rdiv. rewrite Rmult_assoc, Rinv_l; lra.
Qed.
Lemma sqrt_ge_1 : forall x, 1 <= x -> 1 <= sqrt x.
Proof. intros. rewrite <- sqrt_1. apply sqrt_le_1; lra. Qed.

Lemma huber_shape : forall a s, 0 < a -> 0 <= s -> shape s (huber_loss a s).
Proof.
  intros a s A S. unfold huber_loss. destruct (Rlt_dec (a * a) s) as [L|L]; unfold shape; cbn.
  - assert (W : 0 < sqrt s) by (apply sqrt_lt_R0; nra). pose proof (sqrt_sqrt s S) as SS.
    assert (AW : a < sqrt s) by nra.
    assert (AR : 0 < a / sqrt s <= 1).
    { split; [apply Rdiv_lt_0_compat; auto|]. apply (Rmult_le_reg_r (sqrt s)); auto.
      unfold Rdiv. rewrite Rmult_assoc, Rinv_l; lra. }
    pose proof (max_pos (a / sqrt s)). pose proof (max_le_1 (a / sqrt s) ltac:(lra)).
    split; [nra|]. split; [lra|].
    assert (0 <= Rmax DBL_MINR (a / sqrt s) / (2 * s)); [|unfold Rdiv in *; lra].
    left. apply Rdiv_lt_0_compat; nra.
  - repeat split; lra.
Qed.
Lemma soft_shape : forall a s, a <> 0 -> 0 <= s -> shape s (soft_l_one_loss a s).
Proof.
  intros a s A S. assert (B : 0 < a * a) by nra. unfold soft_l_one_loss, shape. cbn [rho0 rho1 rho2].
  pose proof (div_nonneg s (a * a) S B) as D. set (u := s * (1 / (a * a))) in *.
  assert (SU : s = a * a * u) by (unfold u; field; lra).
  pose proof (sqrt_ge_1 (1 + u) ltac:(lra)) as W. pose proof (sqrt_sqrt (1 + u) ltac:(lra)) as SS.
  set (w := sqrt (1 + u)) in *. pose proof (inv_le_1 w W) as I.
  pose proof (max_pos (1 / w)). pose proof (max_le_1 (1 / w) ltac:(lra)).
  split; [|split; [lra|]].
  - split; [nra|]. rewrite SU. assert (2 * (w - 1) <= u) by nra. nra.
  - assert (0 <= 1 / (a * a) * Rmax DBL_MINR (1 / w) / (2 * (1 + u))); [|unfold Rdiv in *; lra].
    left. apply Rdiv_lt_0_compat; [|lra]. apply Rmult_lt_0_compat; auto. apply Rdiv_lt_0_compat; lra.
Qed.
Lemma ln_le_sub : forall u, 0 <= u -> 0 <= ln (1 + u) <= u.
Proof.
  intros u U. split.
  - rewrite <- ln_1. destruct (Req_dec u 0) as [->|]; [rewrite Rplus_0_r; lra|]. left. apply ln_increasing; lra.
  - rewrite <- (ln_exp u) at 2. pose proof (exp_ineq1_le u).
    destruct (Req_dec (1 + u) (exp u)) as [E|]; [rewrite E; lra|]. left. apply ln_increasing; lra.
Qed.
Lemma cauchy_shape : forall a s, a <> 0 -> 0 <= s -> shape s (cauchy_loss a s).
Proof.
  intros a s A S. assert (B : 0 < a * a) by nra. unfold cauchy_loss, shape. cbn [rho0 rho1 rho2].
  pose proof (div_nonneg s (a * a) S B) as D. set (u := s * (1 / (a * a))) in *.
  assert (SU : s = a * a * u) by (unfold u; field; lra).
  pose proof (inv_le_1 (1 + u) ltac:(lra)) as I. pose proof (ln_le_sub u D) as L.
  pose proof (max_pos (1 / (1 + u))). pose proof (max_le_1 (1 / (1 + u)) ltac:(lra)).
  split; [|split; [lra|]].
  - split; [nra|]. rewrite SU. nra.
  - assert (0 < 1 / (a * a)) by (apply Rdiv_lt_0_compat; lra). nra.
Qed.
Lemma arctan_shape : forall a s, 0 < a -> 0 <= s -> shape s (arctan_loss a s).
Proof.
  intros a s A S. assert (B : 0 < a * a) by nra. unfold arctan_loss, shape. cbn [rho0 rho1 rho2].
  pose proof (div_nonneg (s * s) (a * a) ltac:(nra) B) as D. set (u := s * s * (1 / (a * a))) in *.
  pose proof (inv_le_1 (1 + u) ltac:(lra)) as I.
  pose proof (max_pos (1 / (1 + u))). pose proof (max_le_1 (1 / (1 + u)) ltac:(lra)).
  assert (SA : 0 <= s / a) by (apply Rmult_le_pos; auto; left; apply Rinv_0_lt_compat; auto).
  pose proof (atan_le (s / a) SA) as AT. unfold atan2. destruct (Rlt_dec 0 a); [|lra].
  split; [|split; [lra|]].
  - split; [nra|]. replace s with (a * (s / a)) at 2 by (field; lra). nra.
  - assert (0 < 1 / (a * a)) by (apply Rdiv_lt_0_compat; lra).
    assert (0 <= s * (1 / (a * a)) * (1 / (1 + u) * (1 / (1 + u)))) by (apply Rmult_le_pos; nra). lra.
Qed.
Lemma tukey_shape : forall a s, a <> 0 -> 0 <= s -> shape s (tukey_loss a s).
Proof.
  intros a s A S. assert (B : 0 < a * a) by nra. unfold tukey_loss, shape.
  destruct (Rle_dec s (a * a)) as [L|L]; cbn [rho0 rho1 rho2].
  - assert (U : 0 <= s / (a * a) <= 1).
    { split; [apply Rmult_le_pos; auto; left; apply Rinv_0_lt_compat; auto|].
      apply (Rmult_le_reg_r (a * a)); auto. unfold Rdiv. rewrite Rmult_assoc, Rinv_l; lra. }
    assert (SU : s = a * a * (s / (a * a))) by (field; lra). set (u := s / (a * a)) in *.
    assert (Q : 0 <= 1 - (1 - u) * (1 - u) * (1 - u) <= 3 * u) by (split; nra).
    split; [|split; [nra|]].
    + split; [unfold Rdiv; nra|]. rewrite SU. unfold Rdiv. nra.
    + assert (0 < / (a * a)) by (apply Rinv_0_lt_compat; auto). unfold Rdiv. nra.
  - repeat split; lra.
Qed.

Lemma robust_shape_ : forall l s, robust l -> 0 <= s -> shape s (loss_eval l s).
Proof.
  fix IH 1. intros l. destruct l as [|a|a|a|a|a b|a|f|f g|[r|] a]; intros s K S; cbn [robust loss_eval] in *.
  - repeat split; cbn; lra.
  - apply huber_shape; auto.
  - apply soft_shape; auto.
  - apply cauchy_shape; auto.
  - apply arctan_shape; auto.
  - contradiction.
  - apply tukey_shape; auto.
  - contradiction.
  - destruct K as [Kf Kg]. pose proof (IH g s Kg S) as (G0 & G1 & G2).
    pose proof (IH f (rho0 (loss_eval g s)) Kf (proj1 G0)) as (F0 & F1 & F2).
    set (rg := loss_eval g s) in *. set (rf := loss_eval f (rho0 rg)) in *.
    unfold shape. cbn [rho0 rho1 rho2]. split; [lra|]. split; [nra|].
    assert (rho2 rf * rho1 rg * rho1 rg <= 0). { assert (0 <= rho1 rg * rho1 rg) by nra. nra. }
    nra.
  - destruct K as [Kr Ka]. pose proof (IH r s Kr S) as (G0 & G1 & G2). unfold shape. cbn [rho0 rho1 rho2].
    split; [nra|]. split; nra.
  - unfold shape. cbn. split; [nra|]. split; lra.
Qed.

Lemma huber_mono : forall a s t, 0 < a -> 0 <= s <= t -> rho0 (huber_loss a s) <= rho0 (huber_loss a t).
Proof.
  intros a s t A [S T]. pose proof (sqrt_le_1 s t S ltac:(lra) T) as Q.
  pose proof (sqrt_sqrt s S) as S1. pose proof (sqrt_sqrt t ltac:(lra)) as S2.
  pose proof (sqrt_pos s). pose proof (sqrt_pos t).
  unfold huber_loss. destruct (Rlt_dec (a * a) s); destruct (Rlt_dec (a * a) t); cbn; try lra.
  - nra.
  - assert (a < sqrt t) by nra. nra.
Qed.
Lemma soft_mono : forall a s t, a <> 0 -> 0 <= s <= t -> rho0 (soft_l_one_loss a s) <= rho0 (soft_l_one_loss a t).
Proof.
  intros a s t A [S T]. assert (B : 0 < a * a) by nra. unfold soft_l_one_loss. cbn.
  pose proof (div_nonneg s _ S B). pose proof (div_nonneg (t - s) (a * a) ltac:(lra) B).
  assert (sqrt (1 + s * (1 / (a * a))) <= sqrt (1 + t * (1 / (a * a)))) by (apply sqrt_le_1; lra). nra.
Qed.
Lemma cauchy_mono : forall a s t, a <> 0 -> 0 <= s <= t -> rho0 (cauchy_loss a s) <= rho0 (cauchy_loss a t).
Proof.
  intros a s t A [S T]. assert (B : 0 < a * a) by nra. unfold cauchy_loss. cbn.
  pose proof (div_nonneg s _ S B). pose proof (div_nonneg (t - s) (a * a) ltac:(lra) B).
  assert (ln (1 + s * (1 / (a * a))) <= ln (1 + t * (1 / (a * a)))); [|nra].
  destruct (Req_dec (1 + s * (1 / (a * a))) (1 + t * (1 / (a * a)))) as [->|]; [lra|]. left. apply ln_increasing; lra.
Qed.
Lemma arctan_mono : forall a s t, 0 < a -> 0 <= s <= t -> rho0 (arctan_loss a s) <= rho0 (arctan_loss a t).
Proof.
  intros a s t A [S T]. unfold arctan_loss, atan2. cbn. destruct (Rlt_dec 0 a); [|lra].
  assert (atan (s / a) <= atan (t / a)); [|nra].
  destruct (Req_dec s t) as [->|]; [lra|]. left. apply atan_increasing.
  apply Rmult_lt_compat_r; [apply Rinv_0_lt_compat; auto|lra].
Qed.
Lemma tukey_mono : forall a s t, a <> 0 -> 0 <= s <= t -> rho0 (tukey_loss a s) <= rho0 (tukey_loss a t).
Proof.
  intros a s t A [S T]. assert (B : 0 < a * a) by nra. unfold tukey_loss.
  assert (I : 0 < / (a * a)) by (apply Rinv_0_lt_compat; auto).
  assert (V : forall x y, 0 <= y <= x -> y * y * y <= x * x * x).
  { intros x y [Y X]. assert (0 <= (x - y) * (x * x + x * y + y * y)) by (apply Rmult_le_pos; nra). lra. }
  destruct (Rle_dec s (a * a)) as [L|L]; destruct (Rle_dec t (a * a)) as [L2|L2]; cbn [rho0]; try lra.
  - assert (U : s / (a * a) <= t / (a * a)) by (apply Rmult_le_compat_r; lra).
    assert (U1 : t / (a * a) <= 1).
    { apply (Rmult_le_reg_r (a * a)); auto. unfold Rdiv. rewrite Rmult_assoc, Rinv_l; lra. }
    pose proof (V (1 - s / (a * a)) (1 - t / (a * a)) ltac:(lra)). unfold Rdiv in *. nra.
  - assert (U1 : s / (a * a) <= 1).
    { apply (Rmult_le_reg_r (a * a)); auto. unfold Rdiv. rewrite Rmult_assoc, Rinv_l; lra. }
    pose proof (V (1 - s / (a * a)) 0 ltac:(lra)). unfold Rdiv in *. nra.
Qed.

Lemma robust_mono_ : forall l s t, robust l -> 0 <= s <= t -> rho0 (loss_eval l s) <= rho0 (loss_eval l t).
Proof.
  fix IH 1. intros l. destruct l as [|a|a|a|a|a b|a|f|f g|[r|] a]; intros s t K S; cbn [robust loss_eval] in *.
  - cbn. lra.
  - apply huber_mono; auto.
  - apply soft_mono; auto.
  - apply cauchy_mono; auto.
  - apply arctan_mono; auto.
  - contradiction.
  - apply tukey_mono; auto.
  - contradiction.
  - destruct K as [Kf Kg]. cbn [rho0]. apply IH; auto. split; [|apply IH; auto].
    pose proof (robust_shape_ g s Kg ltac:(lra)) as (G0 & _). lra.
  - destruct K as [Kr Ka]. cbn [rho0]. pose proof (IH r s t Kr S). nra.
  - cbn [rho0]. nra.
Qed.

Lemma sane_pos : forall r, 0 < rho1 r -> sane r.
Proof. intros r P. split; [lra|]. lra. Qed.
Lemma weights_sane : forall l s, weights_ok l -> 0 <= s -> sane (loss_eval l s).
Proof.
  fix IH 1. intros l. destruct l as [|a|a|a|a|a b|a|f|f g|[r|] a]; intros s K S; cbn [weights_ok loss_eval] in *.
  - apply sane_pos. cbn. lra.
  - unfold huber_loss. destruct (Rlt_dec _ _); apply sane_pos; cbn; [apply max_pos|lra].
  - apply sane_pos. cbn. apply max_pos.
  - apply sane_pos. cbn. apply max_pos.
  - apply sane_pos. cbn. apply max_pos.
  - unfold tolerant_loss. destruct (Rlt_dec _ _); apply sane_pos; cbn; [lra|apply max_pos].
  - unfold tukey_loss. destruct (Rle_dec _ _); [|split; cbn; lra]. split; cbn.
    + apply Rle_0_sqr.
    + intros E. apply Rmult_integral in E. assert (X : 1 - s / (a * a) = 0) by tauto. rewrite X. lra.
  - auto.
  - destruct K as (Kf & Kg & P). pose proof (IH g s Kg S) as [G1 G2].
    pose proof (IH f (rho0 (loss_eval g s)) Kf (P s S)) as [F1 F2].
    set (rg := loss_eval g s) in *. set (rf := loss_eval f (rho0 rg)) in *.
    split; cbn [rho1 rho2]; [nra|]. intros E. apply Rmult_integral in E. destruct E as [E|E].
    + specialize (F2 E). rewrite E. assert (0 <= rho1 rg * rho1 rg) by nra. nra.
    + specialize (G2 E). rewrite E. nra.
  - destruct K as [Kr Ka]. pose proof (IH r s Kr S) as [G1 G2]. split; cbn [rho1 rho2]; [nra|].
    intros E. apply Rmult_integral in E. destruct E as [E|E]; [specialize (G2 E); nra|rewrite E; lra].
  - split; cbn; lra.
Qed.

(** ** the corrector's loops *)
Lemma upd_same : forall a i v, upd a i v i = v.
Proof. intros. unfold upd. rewrite Nat.eqb_refl. auto. Qed.
Lemma upd_other : forall a i v j, j <> i -> upd a i v j = a j.
Proof. intros. unfold upd. destruct (Nat.eqb_spec j i); congruence. Qed.

Lemma correct_residuals_at : forall c n r k, correct_residuals c n r k = if k <? n then r k * residual_scaling c else r k.
Proof.
  intros c n r. unfold correct_residuals. induction n as [|n IH]; intros k; cbn [correct_residuals_upto]; auto.
  destruct (Nat.eq_dec k n) as [->|N].
  - rewrite upd_same, IH. rewrite Nat.ltb_irrefl. replace (n <? S n) with true by (symmetry; apply Nat.ltb_lt; lia). auto.
  - rewrite upd_other by auto. rewrite IH. destruct (Nat.ltb_spec k n); destruct (Nat.ltb_spec k (S n)); auto; lia.
Qed.
Lemma scale_at : forall f n a k, scale_upto f n a k = if k <? n then a k * f else a k.
Proof.
  intros f n a. induction n as [|n IH]; intros k; cbn [scale_upto]; auto.
  destruct (Nat.eq_dec k n) as [->|N].
  - rewrite upd_same, IH. rewrite Nat.ltb_irrefl. replace (n <? S n) with true by (symmetry; apply Nat.ltb_lt; lia). auto.
  - rewrite upd_other by auto. rewrite IH. destruct (Nat.ltb_spec k n); destruct (Nat.ltb_spec k (S n)); auto; lia.
Qed.

Lemma rtj_sum : forall nc col n res jac, r_transpose_j nc col n res jac = sum_n_of (fun k => jac (k * nc + col)%nat * res k) n.
Proof. intros. induction n as [|n IH]; cbn; congruence. Qed.
Lemma sum_ext : forall n f g, (forall k, (k < n)%nat -> f k = g k) -> sum_n_of f n = sum_n_of g n.
Proof. induction n as [|n IH]; intros f g E; cbn; auto. rewrite (IH f g), E; auto. Qed.
Lemma sum_plus : forall n f g, sum_n_of (fun k => f k + g k) n = sum_n_of f n + sum_n_of g n.
Proof. induction n as [|n IH]; intros; cbn; [ring|]. rewrite IH. ring. Qed.
Lemma sum_scal : forall n c f, sum_n_of (fun k => c * f k) n = c * sum_n_of f n.
Proof. induction n as [|n IH]; intros; cbn; [ring|]. rewrite IH. ring. Qed.

Lemma index_inj : forall nc r c r' c', (c < nc)%nat -> (c' < nc)%nat -> (r * nc + c = r' * nc + c')%nat -> r = r' /\ c = c'.
Proof.
  intros nc r c r' c' C C' E.
  assert (r = r').
  { assert (A : ((r * nc + c) / nc = r)%nat) by (rewrite Nat.div_add_l, (Nat.div_small c) by lia; lia).
    assert (B : ((r' * nc + c') / nc = r')%nat) by (rewrite Nat.div_add_l, (Nat.div_small c') by lia; lia). congruence. }
  subst. split; auto. lia.
Qed.

(** one column: its entries are replaced, everything else is kept *)
Lemma column_at : forall c nc col n rtj res jac, (col < nc)%nat -> forall i,
  (forall r, (r < n)%nat -> i = (r * nc + col)%nat ->
     correct_column c nc col n rtj res jac i = sqrt_rho1 c * (jac i - alpha_sq_norm c * res r * rtj)) /\
  ((forall r, (r < n)%nat -> i <> (r * nc + col)%nat) -> correct_column c nc col n rtj res jac i = jac i).
Proof.
  intros c nc col n rtj res jac C. induction n as [|n IH]; intros i; cbn [correct_column].
  - split; [intros; lia|auto].
  - destruct (Nat.eq_dec i (n * nc + col)) as [->|N].
    + rewrite upd_same. destruct (IH (n * nc + col)%nat) as [_ K].
      rewrite K. 2:{ intros r R E. destruct (index_inj nc n col r col C C E). lia. }
      split.
      * intros r R E. destruct (index_inj nc n col r col C C E). subst. auto.
      * intros H. exfalso. apply (H n); auto.
    + rewrite upd_other by auto. destruct (IH i) as [A B]. split.
      * intros r R E. apply A; auto. destruct (Nat.eq_dec r n); [subst; contradiction|lia].
      * intros H. apply B. intros r R. apply H. lia.
Qed.

Lemma columns_at : forall c nr nc n res jac, (n <= nc)%nat -> forall i,
  (forall r k, (r < nr)%nat -> (k < n)%nat -> i = (r * nc + k)%nat ->
     correct_columns c nr nc n res jac i =
       sqrt_rho1 c * (jac i - alpha_sq_norm c * res r * sum_n_of (fun q => jac (q * nc + k)%nat * res q) nr)) /\
  ((forall r k, (r < nr)%nat -> (k < n)%nat -> i <> (r * nc + k)%nat) -> correct_columns c nr nc n res jac i = jac i).
Proof.
  intros c nr nc n res jac. induction n as [|n IH]; intros N i; cbn [correct_columns].
  - split; [intros; lia|auto].
  - specialize (IH ltac:(lia)).
    set (j := correct_columns c nr nc n res jac) in *.
    assert (Fr : forall r, j (r * nc + n)%nat = jac (r * nc + n)%nat).
    { intros r. apply IH. intros r' k R K E. destruct (index_inj nc r n r' k ltac:(lia) ltac:(lia) E). lia. }
    assert (RT : r_transpose_j nc n nr res j = sum_n_of (fun q => jac (q * nc + n)%nat * res q) nr).
    { rewrite rtj_sum. apply sum_ext. intros k _. rewrite Fr. auto. }
    rewrite RT. destruct (column_at c nc n nr (sum_n_of (fun q => jac (q * nc + n)%nat * res q) nr) res j ltac:(lia) i) as [A B].
    split.
    + intros r k R K E. destruct (Nat.eq_dec k n) as [->|NE].
      * rewrite (A r R E), E, Fr. auto.
      * rewrite B. { apply IH; auto; lia. }
        intros r' R' E'. subst i. destruct (index_inj nc r k r' n ltac:(lia) ltac:(lia) E'). lia.
    + intros H. rewrite B. { apply IH. intros r k R K. apply H; auto. } intros r R. apply H; auto.
Qed.

Lemma jacobian_at : forall c nr nc res jac,
  (forall r k, (r < nr)%nat -> (k < nc)%nat ->
     correct_jacobian c nr nc res jac (r * nc + k)%nat =
       sqrt_rho1 c * (jac (r * nc + k)%nat - alpha_sq_norm c * res r * sum_n_of (fun q => jac (q * nc + k)%nat * res q) nr)) /\
  (forall i, (nr * nc <= i)%nat -> correct_jacobian c nr nc res jac i = jac i).
Proof.
  intros c nr nc res jac. unfold correct_jacobian. destruct (Req_EM_T (alpha_sq_norm c) 0) as [E|E].
  - split.
    + intros r k R K. rewrite scale_at. replace (r * nc + k <? nr * nc) with true; [rewrite E; ring|].
      symmetry. apply Nat.ltb_lt. nia.
    + intros i I. rewrite scale_at. replace (i <? nr * nc) with false; auto. symmetry. apply Nat.ltb_ge. auto.
  - split.
    + intros r k R K. apply (columns_at c nr nc nc res jac (le_n nc) (r * nc + k)%nat); auto.
    + intros i I. apply (columns_at c nr nc nc res jac (le_n nc) i). intros r k R K X. subst. nia.
Qed.
