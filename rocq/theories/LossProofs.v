Require Import Reals Lra Psatz.
From Coquelicot Require Import Coquelicot.
From Verif Require Import LossModel LossSpec.
Open Scope R_scope.

Lemma dbl_min_pos : 0 < DBL_MINR.
Proof. unfold DBL_MINR. apply Rinv_0_lt_compat. apply pow_lt. lra. Qed.
Lemma dbl_min_lt_1 : DBL_MINR < 1.
Proof.
  unfold DBL_MINR. rewrite <- Rinv_1. apply Rinv_lt_contravar.
  - rewrite Rmult_1_l. apply pow_lt. lra.
  - apply Rlt_pow_R1; [lra|]. apply Nat.lt_0_succ.
Qed.

Lemma dconst : forall (c s : R), is_derive (fun _ : R => c) s 0.
Proof. intros. auto_derive; auto. Qed.
Lemma did : forall s : R, is_derive (fun t : R => t) s 1.
Proof. intros. auto_derive; auto. Qed.

Lemma locally_gt : forall (u : R -> R) s m, ex_derive u s -> m < u s -> locally s (fun t => m < u t).
Proof. intros u s m D L. apply (ex_derive_continuous u s D (fun y => m < y)). apply (open_gt m); auto. Qed.
Lemma locally_lt : forall (u : R -> R) s m, ex_derive u s -> u s < m -> locally s (fun t => u t < m).
Proof. intros u s m D L. apply (ex_derive_continuous u s D (fun y => y < m)). apply (open_lt m); auto. Qed.

(** replace a function locally *)
Lemma derive_loc : forall (f g : R -> R) s d (P : R -> Prop), locally s P -> (forall t, P t -> g t = f t) ->
  is_derive g s d -> is_derive f s d.
Proof. intros f g s d P L E D. apply (is_derive_ext_loc g); auto. apply (filter_imp P); auto. Qed.

Lemma max_r : forall m u, m < u -> Rmax m u = u.
Proof. intros. apply Rmax_right. lra. Qed.

Lemma huber_d : forall a s, 0 < a -> s <> a * a -> (a * a < s -> DBL_MINR < a / sqrt s) -> true_derivatives (huber_loss a) s.
Proof.
  intros a s A N M. destruct (Rlt_dec (a * a) s) as [L|L].
  - specialize (M L). assert (0 < s) by nra. assert (0 < sqrt s) by (apply sqrt_lt_R0; auto).
    assert (Lo : locally s (fun t => a * a < t)) by (apply (open_gt (a * a)); auto).
    assert (L2 : locally s (fun t => DBL_MINR < a / sqrt t)).
    { apply (locally_gt (fun t => a / sqrt t)); auto. auto_derive. repeat split; auto; lra. }
    split.
    + apply (derive_loc _ (fun t => 2 * a * sqrt t - a * a) s _ _ Lo).
      { intros t T. unfold huber_loss. destruct (Rlt_dec (a * a) t); [reflexivity|lra]. }
      unfold huber_loss. destruct (Rlt_dec (a * a) s); [|lra]. cbn [rho1]. rewrite max_r by auto.
      auto_derive; auto. field. lra.
    + apply (derive_loc _ (fun t => a / sqrt t) s _ _ (filter_and _ _ Lo L2)).
      { intros t [T1 T2]. unfold huber_loss. destruct (Rlt_dec (a * a) t); [|lra]. cbn [rho1]. rewrite max_r; auto. }
      unfold huber_loss. destruct (Rlt_dec (a * a) s); [|lra]. cbn [rho2]. rewrite max_r by auto.
      auto_derive; [repeat split; auto; lra|].
      pose proof (sqrt_sqrt s ltac:(lra)) as SS. clear - SS H0. set (w := sqrt s) in *. clearbody w. rewrite <- SS. field. lra.
  - assert (L' : s < a * a) by lra.
    assert (Lo : locally s (fun t => t < a * a)) by (apply (open_lt (a * a)); auto).
    split.
    + apply (derive_loc _ (fun t => t) s _ _ Lo).
      { intros t T. unfold huber_loss. destruct (Rlt_dec (a * a) t); [lra|reflexivity]. }
      unfold huber_loss. destruct (Rlt_dec (a * a) s); [lra|]. cbn. apply did.
    + apply (derive_loc _ (fun t => 1) s _ _ Lo).
      { intros t T. unfold huber_loss. destruct (Rlt_dec (a * a) t); [lra|reflexivity]. }
      unfold huber_loss. destruct (Rlt_dec (a * a) s); [lra|]. cbn. apply dconst.
Qed.

Lemma soft_d : forall a s, a <> 0 -> 0 <= s -> DBL_MINR < 1 / sqrt (1 + s / (a * a)) -> true_derivatives (soft_l_one_loss a) s.
Proof.
  intros a s A S M. assert (AA : 0 < a * a) by nra.
  assert (P : 0 < 1 + s * (1 / (a * a))).
  { assert (0 <= s * (1 / (a * a))); [|lra]. apply Rmult_le_pos; auto. left. apply Rdiv_lt_0_compat; lra. }
  replace (1 + s / (a * a)) with (1 + s * (1 / (a * a))) in M by (field; lra).
  assert (Q : 0 < sqrt (1 + s * (1 / (a * a)))) by (apply sqrt_lt_R0; auto).
  unfold soft_l_one_loss. split; cbn [rho0 rho1 rho2].
  - rewrite max_r by auto. auto_derive; [auto|]. field. lra.
  - apply (derive_loc _ (fun t => 1 / sqrt (1 + t * (1 / (a * a)))) s _ (fun t => DBL_MINR < 1 / sqrt (1 + t * (1 / (a * a))))).
    + apply (locally_gt (fun t => 1 / sqrt (1 + t * (1 / (a * a))))); auto. auto_derive. repeat split; auto; lra.
    + intros t T. rewrite max_r; auto.
    + rewrite max_r by auto. auto_derive; [repeat split; auto; lra|].
      set (w := sqrt (1 + s * (1 / (a * a)))) in *.
      replace (1 + s * (1 / (a * a))) with (w * w) by (apply sqrt_sqrt; lra). field. split; lra.
Qed.

Lemma cauchy_d : forall a s, a <> 0 -> 0 <= s -> DBL_MINR < 1 / (1 + s / (a * a)) -> true_derivatives (cauchy_loss a) s.
Proof.
  intros a s A S M. assert (AA : 0 < a * a) by nra.
  assert (P : 0 < 1 + s * (1 / (a * a))).
  { assert (0 <= s * (1 / (a * a))); [|lra]. apply Rmult_le_pos; auto. left. apply Rdiv_lt_0_compat; lra. }
  replace (1 + s / (a * a)) with (1 + s * (1 / (a * a))) in M by (field; lra).
  assert (P2 : a * a + s <> 0) by nra.
  unfold cauchy_loss. split; cbn [rho0 rho1 rho2].
  - rewrite max_r by auto. auto_derive; [auto|]. field. split; lra.
  - apply (derive_loc _ (fun t => 1 / (1 + t * (1 / (a * a)))) s _ (fun t => DBL_MINR < 1 / (1 + t * (1 / (a * a))))).
    + apply (locally_gt (fun t => 1 / (1 + t * (1 / (a * a))))); auto. auto_derive. lra.
    + intros t T. rewrite max_r; auto.
    + auto_derive; [lra|]. field. split; lra.
Qed.

Lemma arctan_d : forall a s, 0 < a -> DBL_MINR < 1 / (1 + s * s / (a * a)) -> true_derivatives (arctan_loss a) s.
Proof.
  intros a s A M. assert (AA : 0 < a * a) by nra.
  assert (P : 0 < 1 + s * s * (1 / (a * a))).
  { assert (0 <= s * s * (1 / (a * a))); [|lra]. apply Rmult_le_pos; [nra|]. left. apply Rdiv_lt_0_compat; lra. }
  replace (1 + s * s / (a * a)) with (1 + s * s * (1 / (a * a))) in M by (field; lra).
  assert (P2 : a * a + s * s <> 0) by nra.
  unfold arctan_loss. split; cbn [rho0 rho1 rho2].
  - rewrite max_r by auto. apply (is_derive_ext (fun t => a * atan (t / a))).
    { intros t. unfold atan2. destruct (Rlt_dec 0 a); [reflexivity|lra]. }
    auto_derive; [lra|]. field. repeat split; lra.
  - apply (derive_loc _ (fun t => 1 / (1 + t * t * (1 / (a * a)))) s _ (fun t => DBL_MINR < 1 / (1 + t * t * (1 / (a * a))))).
    + apply (locally_gt (fun t => 1 / (1 + t * t * (1 / (a * a))))); auto. auto_derive. lra.
    + intros t T. rewrite max_r; auto.
    + auto_derive; [lra|]. field. split; lra.
Qed.

Lemma tolerant_d : forall a b s, 0 < b -> (s - a) / b <> 367 / 10 ->
  ((s - a) / b < 367 / 10 -> DBL_MINR < exp ((s - a) / b) / (1 + exp ((s - a) / b))) -> true_derivatives (tolerant_loss a b) s.
Proof.
  intros a b s B N M. destruct (Rlt_dec (367 / 10) ((s - a) / b)) as [L|L].
  - assert (Lo : locally s (fun t => 367 / 10 < (t - a) / b)).
    { apply (locally_gt (fun t => (t - a) / b)); auto. auto_derive. auto. }
    split.
    + apply (derive_loc _ (fun t => t - a - b * ln (1 + exp (- a / b))) s _ _ Lo).
      { intros t T. unfold tolerant_loss. destruct (Rlt_dec (367 / 10) ((t - a) / b)); [reflexivity|lra]. }
      unfold tolerant_loss. destruct (Rlt_dec (367 / 10) ((s - a) / b)); [|lra]. cbn [rho1].
      auto_derive; auto.
    + apply (derive_loc _ (fun t => 1) s _ _ Lo).
      { intros t T. unfold tolerant_loss. destruct (Rlt_dec (367 / 10) ((t - a) / b)); [reflexivity|lra]. }
      unfold tolerant_loss. destruct (Rlt_dec (367 / 10) ((s - a) / b)); [|lra]. cbn [rho2].
      apply dconst.
  - assert (L' : (s - a) / b < 367 / 10) by lra. specialize (M L').
    assert (Lo : locally s (fun t => (t - a) / b < 367 / 10)).
    { apply (locally_lt (fun t => (t - a) / b)); auto. auto_derive. auto. }
    pose proof (exp_pos ((s - a) / b)) as EP.
    assert (L2 : locally s (fun t => DBL_MINR < exp ((t - a) / b) / (1 + exp ((t - a) / b)))).
    { apply (locally_gt (fun t => exp ((t - a) / b) / (1 + exp ((t - a) / b)))); auto. auto_derive. generalize (exp_pos ((s + - a) * / b)). lra. }
    split.
    + apply (derive_loc _ (fun t => b * ln (1 + exp ((t - a) / b)) - b * ln (1 + exp (- a / b))) s _ _ Lo).
      { intros t T. unfold tolerant_loss. destruct (Rlt_dec (367 / 10) ((t - a) / b)); [lra|reflexivity]. }
      unfold tolerant_loss. destruct (Rlt_dec (367 / 10) ((s - a) / b)); [lra|]. cbn [rho1]. rewrite max_r by auto.
      pose proof (exp_pos ((s + - a) * / b)) as EQ.
      auto_derive; [lra|]. change ((s - a) / b) with ((s + - a) * / b). field. split; lra.
    + apply (derive_loc _ (fun t => exp ((t - a) / b) / (1 + exp ((t - a) / b))) s _ _ (filter_and _ _ Lo L2)).
      { intros t [T1 T2]. unfold tolerant_loss. destruct (Rlt_dec (367 / 10) ((t - a) / b)); [lra|]. cbn [rho1]. rewrite max_r; auto. }
      unfold tolerant_loss. destruct (Rlt_dec (367 / 10) ((s - a) / b)); [lra|]. cbn [rho2].
      pose proof (exp_pos ((s + - a) * / b)) as EQ.
      auto_derive; [lra|]. unfold cosh. rewrite exp_Ropp.
      change ((s - a) / b) with ((s + - a) * / b). set (e := exp ((s + - a) * / b)) in *. clearbody e.
      field. repeat split; try lra; nra.
Qed.

Lemma cube_d : forall a2 s, a2 <> 0 -> is_derive (fun t => a2 / 3 * (1 - (1 - t / a2) * (1 - t / a2) * (1 - t / a2))) s ((1 - s / a2) * (1 - s / a2)).
Proof. intros a2 s A. auto_derive; auto. field. auto. Qed.

(** gluing two branches with the same value and slope *)
Lemma glue_derive : forall (f g h : R -> R) p d, f p = g p -> is_derive f p d -> is_derive g p d ->
  (forall t, t <= p -> h t = f t) -> (forall t, p < t -> h t = g t) -> is_derive h p d.
Proof.
  intros f g h p d E F G H1 H2.
  apply is_derive_Reals in F. apply is_derive_Reals in G. apply is_derive_Reals.
  intros eps P. destruct (F eps P) as [d1 D1]. destruct (G eps P) as [d2 D2].
  assert (M : 0 < Rmin d1 d2) by (apply Rmin_pos; [apply d1|apply d2]).
  exists (mkposreal _ M). intros k K L. cbn in L.
  rewrite (H1 p) by lra. destruct (Rle_dec (p + k) p).
  - rewrite H1 by auto. apply D1; auto. eapply Rlt_le_trans; [exact L|]. apply Rmin_l.
  - rewrite H2 by lra. rewrite E. apply D2; auto. eapply Rlt_le_trans; [exact L|]. apply Rmin_r.
Qed.

Lemma tukey_d : forall a s, a <> 0 -> true_derivatives (tukey_loss a) s.
Proof.
  intros a s A. assert (AA : 0 < a * a) by nra. set (a2 := a * a) in *.
  assert (In0 : forall t, t <= a2 -> rho0 (tukey_loss a t) = a2 / 3 * (1 - (1 - t / a2) * (1 - t / a2) * (1 - t / a2))).
  { intros t T. unfold tukey_loss. fold a2. destruct (Rle_dec t a2); [reflexivity|lra]. }
  assert (In1 : forall t, t <= a2 -> rho1 (tukey_loss a t) = (1 - t / a2) * (1 - t / a2)).
  { intros t T. unfold tukey_loss. fold a2. destruct (Rle_dec t a2); [reflexivity|lra]. }
  assert (Out0 : forall t, a2 < t -> rho0 (tukey_loss a t) = a2 / 3).
  { intros t T. unfold tukey_loss. fold a2. destruct (Rle_dec t a2); [lra|reflexivity]. }
  assert (Out1 : forall t, a2 < t -> rho1 (tukey_loss a t) = 0).
  { intros t T. unfold tukey_loss. fold a2. destruct (Rle_dec t a2); [lra|reflexivity]. }
  assert (D1 : forall t, is_derive (fun t => (1 - t / a2) * (1 - t / a2)) t (-2 / a2 * (1 - t / a2))).
  { intros t. auto_derive; auto. field. lra. }
  destruct (Rtotal_order s a2) as [L|[E|G]].
  - assert (Lo : locally s (fun t => t < a2)) by (apply (open_lt a2); auto).
    split.
    + eapply derive_loc; [exact Lo|intros t T; symmetry; apply In0; lra|]. rewrite In1 by lra. apply cube_d. lra.
    + eapply derive_loc; [exact Lo|intros t T; symmetry; apply In1; lra|].
      unfold tukey_loss. fold a2. destruct (Rle_dec s a2); [|lra]. apply D1.
  - split.
    + rewrite In1 by lra. apply (glue_derive (fun t => a2 / 3 * (1 - (1 - t / a2) * (1 - t / a2) * (1 - t / a2))) (fun _ => a2 / 3)).
      * rewrite E. field. lra.
      * apply cube_d. lra.
      * replace ((1 - s / a2) * (1 - s / a2)) with 0 by (rewrite E; field; lra). apply dconst.
      * intros t T. apply In0. lra.
      * intros t T. apply Out0. lra.
    + unfold tukey_loss at 2. fold a2. destruct (Rle_dec s a2); [|lra]. cbn [rho2].
      apply (glue_derive (fun t => (1 - t / a2) * (1 - t / a2)) (fun _ => 0)).
      * rewrite E. field. lra.
      * apply D1.
      * replace (-2 / a2 * (1 - s / a2)) with 0 by (rewrite E; field; lra). apply dconst.
      * intros t T. apply In1. lra.
      * intros t T. apply Out1. lra.
  - assert (Lo : locally s (fun t => a2 < t)) by (apply (open_gt a2); auto).
    split.
    + eapply derive_loc; [exact Lo|intros t T; symmetry; apply Out0; lra|]. rewrite Out1 by lra. apply dconst.
    + eapply derive_loc; [exact Lo|intros t T; symmetry; apply Out1; lra|].
      unfold tukey_loss. fold a2. destruct (Rle_dec s a2); [lra|]. apply dconst.
Qed.

Lemma loss_derivs : forall l s, loss_ok l -> regular l s -> true_derivatives (loss_eval l) s.
Proof.
  fix IH 1. intros l. destruct l as [|a|a|a|a|a b|a|f|f g|[r|] a]; intros s K Rg; cbn [loss_ok regular] in *.
  - split; cbn; [apply did|apply dconst].
  - destruct Rg. apply huber_d; auto.
  - destruct Rg. apply soft_d; auto.
  - destruct Rg. apply cauchy_d; auto.
  - apply arctan_d; auto.
  - destruct K, Rg. apply tolerant_d; auto.
  - apply tukey_d; auto.
  - exact Rg.
  - destruct K as [Kf Kg], Rg as [Rg Rf].
    pose proof (IH g s Kg Rg) as [G0 G1]. pose proof (IH f _ Kf Rf) as [F0 F1].
    split; cbn [loss_eval rho0 rho1 rho2].
    + evar_last; [apply (is_derive_comp (fun u => rho0 (loss_eval f u)) (fun t => rho0 (loss_eval g t))); [exact F0|exact G0]|].
      unfold scal; cbn. unfold mult; cbn. ring.
    + evar_last.
      * apply (is_derive_mult (fun t => rho1 (loss_eval f (rho0 (loss_eval g t)))) (fun t => rho1 (loss_eval g t)));
          [apply (is_derive_comp (fun u => rho1 (loss_eval f u)) (fun t => rho0 (loss_eval g t))); [exact F1|exact G0]|exact G1|].
        intros; apply Rmult_comm.
      * unfold scal, plus; cbn. unfold mult; cbn. ring.
  - pose proof (IH r s K Rg) as [G0 G1]. split; cbn [loss_eval rho0 rho1 rho2].
    + apply (is_derive_ext (fun t => a * rho0 (loss_eval r t))); [intros; apply Rmult_comm|].
      rewrite Rmult_comm. apply (is_derive_scal (fun t => rho0 (loss_eval r t)) s a _ G0).
    + apply (is_derive_ext (fun t => a * rho1 (loss_eval r t))); [intros; apply Rmult_comm|].
      rewrite Rmult_comm. apply (is_derive_scal (fun t => rho1 (loss_eval r t)) s a _ G1).
  - split; cbn [loss_eval rho0 rho1 rho2].
    + auto_derive; auto. ring.
    + apply dconst.
Qed.
