(** C36: quasi Newton search directions. *)
Require Import List Reals Bool Arith Lia Lra FunctionalExtensionality.
From Verif Require Import QuasiNewtonModel QuasiNewtonSpec QuasiNewtonProofs.
Import ListNotations.
Open Scope R_scope.

(** A reachable L-BFGS direction never aborts or reads out of bounds, and returns minus the textbook
    matrix, built from the last m pairs that met the curvature condition, times the gradient. *)
Theorem lbfgs_direction n m scaling o l junk previous current :
  (0 < m)%nat -> lbfgs_reach n m scaling o l ->
  let pairs := filter (curved n) (l ++ [pair_of previous current]) in
  let H := bfgs_op n (lbfgs_gamma n scaling pairs) (lastn m pairs) in
  exists o' d b, lbfgs_next o junk previous current = Some (o', d, b) /\
    (forall i, d i = - H (s_gradient current) i) /\
    (b = true <-> nonzero n (s_gradient current)) /\
    (nonzero n (s_gradient current) -> dot n d (s_gradient current) < 0).
Proof.
  intros Hm HR pairs H. destruct (lbfgs_reach_ok n m scaling o l Hm HR) as [I1 I2].
  destruct (lbfgs_next_ok n m scaling o l junk previous current Hm I1 I2) as (h' & b & E & _ & Hb).
  eexists; eexists; exists b. split; [exact E|]. split; [intros i; unfold vscale, H, pairs, accepted; ring|]. split; [exact Hb|].
  eapply sign_test; [apply (lbfgs_spd n m scaling (l ++ [pair_of previous current]))|].
  intros i _. unfold vscale, accepted. ring.
Qed.
Print Assumptions lbfgs_direction.

(** The same for BFGS with the dense matrix, from all accepted pairs. *)
Theorem bfgs_direction n scaling o l previous current :
  bfgs_reach n scaling o l ->
  let pairs := filter (curved n) (l ++ [pair_of previous current]) in
  let H := bfgs_op n (bfgs_gamma n scaling pairs) pairs in
  exists o' d b, bfgs_next o previous current = Some (o', d, b) /\
    (forall i, (i < n)%nat -> d i = - H (s_gradient current) i) /\
    (b = true <-> nonzero n (s_gradient current)) /\
    (nonzero n (s_gradient current) -> dot n d (s_gradient current) < 0).
Proof.
  intros HR pairs H. destruct (bfgs_reach_ok n scaling o l HR) as [I1 I2].
  destruct (bfgs_next_ok n scaling o l previous current I1 I2) as (o' & d & E & V & _ & Hb).
  exists o', d, (bf_pd o'). split; [exact E|]. split; [exact V|]. split; [exact Hb|].
  eapply sign_test; [apply (bfgs_spd n scaling (l ++ [pair_of previous current]))|exact V].
Qed.
Print Assumptions bfgs_direction.

(** The matrices these directions multiply by are linear, symmetric and positive definite,
    and the newest accepted pair satisfies the secant equation, whatever the pairs offered. *)
Theorem quasi_newton_spd n l :
  let pairs := filter (curved n) l in
  (forall m scaling, spd n (bfgs_op n (lbfgs_gamma n scaling pairs) (lastn m pairs))) /\
  (forall scaling, spd n (bfgs_op n (bfgs_gamma n scaling pairs) pairs)).
Proof. split; intros; [apply lbfgs_spd|apply bfgs_spd]. Qed.
Theorem quasi_newton_secant n l s y :
  curved n (s, y) = true ->
  let pairs := filter (curved n) (l ++ [(s, y)]) in
  (forall m scaling i, (0 < m)%nat -> bfgs_op n (lbfgs_gamma n scaling pairs) (lastn m pairs) y i = s i) /\
  (forall scaling i, bfgs_op n (bfgs_gamma n scaling pairs) pairs y i = s i).
Proof.
  intros Hc pairs.
  assert (E : pairs = accepted n l ++ [(s, y)]) by (unfold pairs; fold (accepted n (l ++ [(s, y)])); rewrite accepted_snoc, Hc; reflexivity).
  assert (Hacc : forall p, In p (accepted n l) -> curved n p = true) by (intros p Hp; apply filter_In in Hp; apply Hp).
  pose proof (curved_pos _ _ Hc) as Hp. cbn [fst snd] in Hp.
  split.
  - intros m scaling i Hm. assert (G : 0 < lbfgs_gamma n scaling pairs) by apply (gamma_pos n scaling (l ++ [(s, y)])).
    revert G. generalize (lbfgs_gamma n scaling pairs). intros gamma G.
    rewrite E, lastn_snoc by exact Hm. unfold bfgs_op. rewrite fold_left_app. cbn [fold_left fst snd].
    apply step_secant; [|exact Hp]. apply spd_op; [exact G|]. intros p Q. apply Hacc.
    destruct (length (accepted n l) <? m)%nat; [exact Q|].
    rewrite <- (firstn_skipn (length (accepted n l) - m + 1) (accepted n l)). apply in_app_iff. auto.
  - intros scaling i. assert (G : 0 < bfgs_gamma n scaling pairs) by apply (bgamma_pos n scaling (l ++ [(s, y)])).
    revert G. generalize (bfgs_gamma n scaling pairs). intros gamma G.
    rewrite E. unfold bfgs_op. rewrite fold_left_app. cbn [fold_left fst snd].
    apply step_secant; [|exact Hp]. apply spd_op; [exact G|exact Hacc].
Qed.
Print Assumptions quasi_newton_spd. Print Assumptions quasi_newton_secant.

Lemma filter_shorter {A} (f : A -> bool) l : (length (filter f l) <= length l)%nat.
Proof. induction l as [|a l IH]; cbn; [lia|]. destruct (f a); cbn; lia. Qed.
(** Without rescaling and with enough memory, L-BFGS and BFGS give the same direction. *)
Theorem lbfgs_is_bfgs n m ol ob l junk previous current ol' ob' dl db bl bb :
  (length l < m)%nat -> lbfgs_reach n m false ol l -> bfgs_reach n false ob l ->
  lbfgs_next ol junk previous current = Some (ol', dl, bl) -> bfgs_next ob previous current = Some (ob', db, bb) ->
  bl = bb /\ veq n dl db.
Proof.
  intros Hm R1 R2 E1 E2.
  destruct (lbfgs_direction n m false ol l junk previous current ltac:(lia) R1) as (o1 & d1 & b1 & F1 & D1 & B1 & _).
  destruct (bfgs_direction n false ob l previous current R2) as (o2 & d2 & b2 & F2 & D2 & B2 & _).
  rewrite F1 in E1. rewrite F2 in E2. injection E1 as <- <- <-. injection E2 as <- <- <-.
  split; [destruct b1, b2; auto; [symmetry; apply B2, B1; reflexivity|apply B1, B2; reflexivity]|].
  intros i Hi. rewrite D1, D2 by exact Hi. unfold lbfgs_gamma, bfgs_gamma.
  assert (Hl : (length (filter (curved n) (l ++ [pair_of previous current])) <= m)%nat).
  { pose proof (filter_shorter (curved n) (l ++ [pair_of previous current])) as Q. rewrite app_length in Q. cbn [length] in Q. lia. }
  unfold lastn. replace (length _ - m)%nat with 0%nat by lia. reflexivity.
Qed.
Print Assumptions lbfgs_is_bfgs.

(** Without any memory (max_num_corrections = 0, which Solver::Options forbids) the first accepted pair
    writes outside of the ring buffer. *)
Theorem lr_update_without_memory_refuted n scaling junk dx dg :
  curved n (dx, dg) = true -> lr_update (lr_new n 0 scaling junk) dx dg = None.
Proof.
  unfold curved, lr_update. cbn [fst snd lr_new lr_n lr_indices lr_max length Nat.eqb].
  destruct (Rle_dec _ _); [discriminate|reflexivity].
Qed.

(** Steepest descent and all three conjugate gradient formulas descend, whatever the previous iterate. *)
Theorem steepest_descent_descends n current : nonzero n (s_gradient current) ->
  dot n (s_gradient current) (steepest_descent current) < 0.
Proof.
  intros H. unfold steepest_descent, vneg.
  rewrite (dot_ext n _ (s_gradient current) _ (fun i => -1 * s_gradient current i)); [|apply veq_refl|intros i _; ring].
  rewrite dot_scal_r. apply dot_pos in H. lra.
Qed.
Theorem ncg_descends n t tol previous current : 0 < tol -> nonzero n (s_gradient current) ->
  dot n (s_gradient current) (ncg_next n t tol previous current) < 0.
Proof.
  intros Ht H. unfold ncg_next. cbv zeta. destruct (Rlt_dec _ _) as [L|L]; [apply (steepest_descent_descends n current H)|].
  lra.
Qed.
Print Assumptions ncg_descends.
(** and a direction that was not reset has the conjugate gradient form *)
Theorem ncg_form n t tol previous current :
  let d := ncg_next n t tol previous current in
  (forall i, d i = - s_gradient current i) \/
  (dot n (s_gradient current) d <= - tol /\
   exists beta, (forall i, d i = - s_gradient current i + beta * s_direction previous i) /\
     beta = match t with
            | FLETCHER_REEVES => s_gsq current / s_gsq previous
            | POLAK_RIBIERE => (dot n (s_gradient current) (s_gradient current) - dot n (s_gradient current) (s_gradient previous)) / s_gsq previous
            | HESTENES_STIEFEL => (dot n (s_gradient current) (s_gradient current) - dot n (s_gradient current) (s_gradient previous)) /
                (dot n (s_direction previous) (s_gradient current) - dot n (s_direction previous) (s_gradient previous))
            end).
Proof.
  cbv zeta. unfold ncg_next. cbv zeta. destruct (Rlt_dec _ _) as [L|L]; [left; intros i; reflexivity|].
  right. split; [lra|]. exists (ncg_beta n t previous current). split; [intros i; reflexivity|].
  assert (E : forall a, dot n a (vsub (s_gradient current) (s_gradient previous)) = dot n a (s_gradient current) - dot n a (s_gradient previous)).
  { intros a. rewrite (dot_ext n a a _ (fun i => 1 * s_gradient current i + -1 * s_gradient previous i)); [|apply veq_refl|intros i _; unfold vsub; ring].
    rewrite dot_lin_r. ring. }
  destruct t; unfold ncg_beta; rewrite ?E; reflexivity.
Qed.
Print Assumptions ncg_form.

(** ** a concrete history: f(x) = x0^2 + 2 x1^2 from (2, 1), with the step 1/4 *)
Definition v2 (a b : R) : vec := fun i => match i with 0%nat => a | _ => b end.
Definition st0 := mkLS (v2 4 4) 32 (v2 (-4) (-4)) (1/4).
Definition st1 := mkLS (v2 2 0) 4 (v2 (-4) (-4)) (1/4).
Example st_curved : curved 2 (pair_of st0 st1) = true.
Proof.
  unfold curved, pair_of, st0, st1, v2. cbn [fst snd dot s_gradient s_direction s_step].
  destruct (Rle_dec _ _) as [H|H]; [exfalso|reflexivity].
  assert (secant_tolerance < 1) by (unfold secant_tolerance; rewrite <- Rinv_1; apply Rinv_lt_contravar; lra). lra.
Qed.
Example st_nonzero : nonzero 2 (s_gradient st1).
Proof. exists 0%nat. split; [lia|]. cbn. lra. Qed.
Example lbfgs_two_calls (junk : nat -> R) : exists o, lbfgs_reach 2 3 true o [pair_of st0 st1].
Proof.
  pose proof (lb_start 2 3 true (fun _ => ((fun _ => 0, fun _ => 0), 0))) as R0.
  destruct (lbfgs_direction 2 3 true _ [] junk st0 st1 ltac:(lia) R0) as (o & d & b & E & _ & B & _).
  apply proj2 in B. specialize (B st_nonzero). subst b. exists o. exact (lb_call _ _ _ _ _ _ _ _ _ _ R0 E).
Qed.
Example bfgs_two_calls : exists o, bfgs_reach 2 true o [pair_of st0 st1].
Proof.
  pose proof (bf_start 2 true) as R0.
  destruct (bfgs_direction 2 true _ [] st0 st1 R0) as (o & d & b & E & _ & B & _).
  apply proj2 in B. specialize (B st_nonzero). subst b. exists o. exact (bf_call _ _ _ _ _ _ _ _ R0 E).
Qed.
(** the matrix is not a multiple of the identity: it maps (0, 1) to a vector with a non zero first entry *)
Example bfgs_op_value : bfgs_op 2 1 [pair_of st0 st1] (v2 0 1) 0%nat = - 5 / 18.
Proof.
  unfold bfgs_op, pair_of, st0, st1, v2. cbn [fold_left bfgs_step fst snd dot s_gradient s_direction s_step]. unfold bfgs_step. cbn [dot]. field.
Qed.
Example ncg_case : ncg_next 2 FLETCHER_REEVES (1/1000) st0 st1 0%nat = -5/2.
Proof.
  unfold ncg_next, ncg_beta, st0, st1, vadd, vneg, vscale, v2. cbn [dot s_gradient s_gsq s_direction].
  destruct (Rlt_dec _ _) as [H|H]; lra.
Qed.
