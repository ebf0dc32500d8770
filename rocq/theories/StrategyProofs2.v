(** Levenberg-Marquardt histories, and the strategy inside the minimizer. *)
Require Import List ZArith Lia Bool.
From Verif Require Import Dbl DblArith DblArithProofs DblArithProofs2 TrustRegionModel TrustRegionProofs TrustRegionProofs2
  StrategyModel StrategySpec StrategyProofs.
Import ListNotations.
Open Scope Z_scope.

(** ** the invariant of the LM state *)
Definition factor_ok (f : dbl) : Prop := f = PInf \/ exists k, 1 <= k <= 1023 /\ f = Fin (2 ^ k * ONEU).

Record lm_inv (m : dbl) (s : lm) : Prop := mkLmInv {
  li_within : within m (lm_radius s);
  li_valid : dvalid (lm_radius s);
  li_factor : factor_ok (lm_factor s) }.

Lemma factor_2 : factor_ok (dz 2).
Proof. right. exists 1. split; [lia|]. rewrite dz2. reflexivity. Qed.

Lemma double_big : dmul (Fin (2 ^ 1022 * ONEU)) (dz 2) = Fin (2 ^ 1023 * ONEU).
Proof. vm_compute. reflexivity. Qed.

Lemma double_big2 : dmul (Fin (2 ^ 1023 * ONEU)) (dz 2) = PInf.
Proof. vm_compute. reflexivity. Qed.

Lemma factor_double : forall f, factor_ok f -> factor_ok (dmul f (dz 2)).
Proof.
  intros f [->|(k & K & ->)].
  - left. rewrite dz2. cbn [dmul]. pose proof ONEU_pos. destruct ONEU; try lia; reflexivity.
  - destruct (Z.eq_dec k 1023) as [->|N1]; [left; apply double_big2|].
    destruct (Z.eq_dec k 1022) as [->|N2].
    + right. exists 1023. split; [lia|]. apply double_big.
    + right. exists (k + 1). split; [lia|]. apply double_pow. lia.
Qed.

Lemma div_factor : forall r f, dle (Fin 0) r = true -> r <> PInf -> dvalid r -> factor_ok f ->
  dle (Fin 0) (ddiv r f) = true /\ dle (ddiv r f) r = true.
Proof.
  intros r f R NI V [->|(k & K & ->)].
  - destruct r as [| | u |]; try discriminate; try congruence. split; [reflexivity|exact R].
  - pose proof ONEU_pos. pose proof (pow_pos' k ltac:(lia)).
    assert (1 <= 2 ^ k) by lia. split.
    + destruct r as [| | u |]; try discriminate; try congruence.
      rewrite ddiv_fin by nia. apply rnd_nonneg; try nia. apply Z.leb_le in R. nia.
    + rewrite <- (ddiv_one r V) at 2. rewrite dz1. apply ddiv_anti; auto; nia.
Qed.

Lemma dmin_valid : forall a b, dvalid a -> dvalid b -> dvalid (dmin a b).
Proof. intros. unfold dmin. destruct (dlt b a); auto. Qed.

Lemma le_finite : forall a m, dle a m = true -> m <> PInf -> a <> PInf.
Proof. intros [| | |] [| | |]; simpl; try discriminate; congruence. Qed.

Section H.
Variable pow3 : dbl -> dbl.
Hypothesis P3 : pow3_ok pow3.
Variable o : lm_opts.
Hypothesis Mv : dvalid (lo_max o).
Hypothesis Mf : lo_max o <> PInf.

Lemma lm_note_inv : forall e s s', lm_inv (lo_max o) s -> lm_note pow3 o e s = Some s' -> lm_inv (lo_max o) s'.
Proof.
  intros e s s' [[W1 W2] V F] N.
  assert (M0 : dle (Fin 0) (lo_max o) = true) by (eapply dle_trans; eauto).
  assert (RF : lm_radius s <> PInf) by (eapply le_finite; eauto).
  assert (Rej : lm_inv (lo_max o) (lm_rejected s)).
  { destruct (div_factor _ _ W1 RF V F) as [A B]. split; cbn.
    - split; auto. eapply dle_trans; eauto.
    - apply ddiv_valid.
    - apply factor_double; auto. }
  destruct e as [q| |]; cbn [lm_note] in N; try (injection N as <-; exact Rej).
  apply lm_accepted_radius in N. destruct N as [Q ->]. split; cbn.
  - apply (accepted_within pow3 P3); auto.
  - apply dmin_valid; auto. apply ddiv_valid.
  - apply factor_2.
Qed.

Lemma lm_run_inv : forall l s s', lm_inv (lo_max o) s -> lm_run pow3 o l s = Some s' -> lm_inv (lo_max o) s'.
Proof.
  induction l as [|e l IH]; intros s s' I R; cbn [lm_run] in R.
  - injection R as <-. auto.
  - destruct (lm_note pow3 o e s) as [s1|] eqn:N; [|discriminate].
    eapply IH; [|exact R]. eapply lm_note_inv; eauto.
Qed.

End H.

(** ** consecutive rejections *)
Definition reject_n (n : nat) (s : lm) : lm := Nat.iter n lm_rejected s.

Lemma tri_S : forall k, tri (S k) = tri k + Z.of_nat (S k).
Proof.
  intros k. unfold tri.
  replace (S k * (S k + 1))%nat with (k * (k + 1) + S k * 2)%nat by lia.
  rewrite Nat.div_add by lia. lia.
Qed.
Lemma tri_nonneg : forall k, 0 <= tri k. Proof. intros. unfold tri. lia. Qed.

Lemma reject_exact : forall n s z, (n <= 1000)%nat -> lm_factor s = dz 2 -> dvalid (lm_radius s) -> 0 <= z ->
  lm_radius s = Fin (z * 2 ^ tri n) ->
  lm_radius (reject_n n s) = Fin z /\ lm_factor (reject_n n s) = Fin (2 ^ Z.of_nat (S n) * ONEU) /\ dvalid (Fin z).
Proof.
  induction n as [|n IH]; intros s z N F V Z0 R.
  - change (reject_n 0 s) with s. change (tri 0) with 0 in R. rewrite Z.pow_0_r, Z.mul_1_r in R.
    split; auto. split; [rewrite F, dz2; reflexivity|]. rewrite <- R. auto.
  - rewrite tri_S in R. rewrite Z.add_comm, Z.pow_add_r, Z.mul_assoc in R by (try lia; apply tri_nonneg).
    pose proof (pow_pos' (Z.of_nat (S n)) ltac:(lia)) as PP.
    destruct (IH s (z * 2 ^ Z.of_nat (S n)) ltac:(lia) F V ltac:(nia) R) as (A & B & C).
    change (reject_n (S n) s) with (lm_rejected (reject_n n s)).
    assert (Vz : dvalid (Fin z)) by (eapply valid_quotient; [| |exact C]; lia).
    unfold lm_rejected. cbn [lm_radius lm_factor]. rewrite A, B. split; [|split; auto].
    + apply div_pow_exact; auto. lia.
    + rewrite double_pow by lia. f_equal. f_equal. f_equal. lia.
Qed.

(** ** the strategy inside the minimizer *)
Section T.
Variable E : tr_env.
Variable Op : tr_options.

Definition next_k (s : state E) : Z := is_iteration (last (s_iters E s) (s_cur E s)) + 1.

Lemma body_strat : forall s s2 go, body E Op s = (s2, go) ->
  exists st1 r, st_step E (next_k s) (s_jac E s) (s_strat E s) = (st1, r) /\
  s_iters E s2 = s_iters E s /\
  (   (go = false /\ s_strat E s2 = st1)
   \/ (go = true /\ s_jac E s2 = s_jac E s /\ s_inner_on E s2 = s_inner_on E s /\ s_strat E s2 = st_invalid E st1)
   \/ (go = true /\ s_jac E s2 = s_jac E s /\ (s_inner_on E s2 = true -> s_inner_on E s = true) /\
       exists q, s_strat E s2 = st_rejected E q st1)
   \/ (go = true /\ (s_inner_on E s2 = true -> s_inner_on E s = true) /\
       exists q, s_strat E s2 = st_accepted E q st1 /\
         (dlt (o_min_rel Op) q = true \/ s_inner_on E s = true))).
Proof.
  intros s s2 go. unfold TrustRegionModel.body. cbv zeta. fold (next_k s).
  destruct (st_step E (next_k s) (s_jac E s) (s_strat E s)) as [st1 r] eqn:Est.
  exists st1, r. split; [reflexivity|].
  destruct r as [| |mcc0 d0].
  - revert H. intros X; inversion X; subst; cbn. auto.
  - revert H. intros X; inversion X; subst; cbn. split; auto.
    destruct (o_max_invalid Op <=? s_invalid E s + 1); cbn; auto 10.
  - revert H. destruct (negb (dlt (Fin 0) mcc0)) eqn:Em.
    { intros X; inversion X; subst; cbn. split; auto.
      destruct (o_max_invalid Op <=? s_invalid E s + 1); cbn; auto 10. }
    destruct (if o_constrained Op && o_line_search Op
              then line_search E _ (s_x E s) (s_jac E s) (s_xcost E s) d0 else ([], d0)) as [visited d] eqn:Els.
    destruct (compute_candidate E (s_x E s) d _) as [[y0 c0] t1] eqn:Ec.
    destruct (do_inner E Op _ (s_xcost E s) (s_inner_on E s) y0 c0 mcc0 t1) as [[[[[y c] mcc] on] useful] t2] eqn:Ei.
    assert (Om := inner_on_mono _ _ _ _ _ _ _ _ _ _ _ _ _ _ _ Ei).
    assert (Ou : useful = true -> s_inner_on E s = true).
    { revert Ei. unfold do_inner. destruct (negb (s_inner_on E s) || dle DBL_MAX c0) eqn:X.
      - intros Y; injection Y as <- <- <- <- <- <-. discriminate.
      - apply orb_false_iff in X. destruct X as [X _]. apply negb_false_iff in X. auto. }
    destruct (s_once E s && parameter_tolerance_reached E Op (s_x E s) y) eqn:Ept.
    { intros X; inversion X; subst; cbn. auto. }
    destruct (function_tolerance_reached Op (s_xcost E s) c) eqn:Eft.
    { intros X; inversion X; subst; cbn. auto. }
    destruct (useful || dlt (o_min_rel Op) (step_quality (s_se E s) c mcc)) eqn:Eq.
    + apply orb_true_iff in Eq.
      destruct (evaluate_gradient E y) as [[[xc j] g]|] eqn:Eg.
      * intros X; inversion X; subst; cbn. split; auto. right; right; right. split; auto. split; auto.
        eexists. split; [reflexivity|]. tauto.
      * intros X; inversion X; subst; cbn. auto.
    + intros X; inversion X; subst; cbn. split; auto. right; right; left. split; auto. split; auto. split; eauto.
Qed.

Lemma finalize_go : forall s s1, finalize E Op s = (s1, true) ->
  s_strat E s1 = s_strat E s /\ s_jac E s1 = s_jac E s /\ s_inner_on E s1 = s_inner_on E s /\
  dlt (o_min_radius Op) (st_radius E (s_strat E s)) = true.
Proof.
  intros s s1 F. revert F. unfold finalize.
  destruct (run_callbacks E _ _ _); try discriminate.
  destruct (time_up E _); try discriminate.
  destruct (negb _); try discriminate.
  destruct (gradient_tolerance_reached _ _); try discriminate.
  destruct (min_radius_reached _ _) eqn:M; try discriminate.
  intros X; injection X as <-. repeat split.
  unfold min_radius_reached in M. apply negb_false_iff in M. exact M.
Qed.

Lemma finalize_iters : forall s s1 go, finalize E Op s = (s1, go) ->
  exists i, s_iters E s1 = s_iters E s ++ [i] /\ is_radius i = st_radius E (s_strat E s) /\ s_strat E s1 = s_strat E s.
Proof.
  intros s s1 go F. destruct (finalize_shape E Op s s1 go F) as (t & -> & _ & _).
  eexists. split; [reflexivity|]. split; reflexivity.
Qed.

End T.

Section C.
Variable E0 : tr_env.
Variable Op : tr_options.
Variable pow3 : dbl -> dbl.
Hypothesis P3 : pow3_ok pow3.
Variable o : lm_opts.
Variable colnorm : jac E0 -> list dbl.
Variable solve : Z -> jac E0 -> list dbl -> step_result (dlta E0).
Hypothesis Mv : dvalid (lo_max o).
Hypothesis Mf : lo_max o <> PInf.
Hypothesis Hmr : dle (Fin 0) (o_min_rel Op) = true.
Hypothesis Hin : o_inner Op = false.
Notation E := (with_lm pow3 E0 o colnorm solve).

Definition call_ok (c : jac E0 * lm * list dbl) : Prop :=
  let '(j, l, d) := c in
  dlt (o_min_radius Op) (lm_radius l) = true /\ within (lo_max o) (lm_radius l) /\
  d = map (fun a => ddiv a (lm_radius l)) (clamp_diag o (colnorm j)).

Definition fresh (l : lm) (j : jac E0) : Prop := lm_reuse l = true -> lm_diag l = clamp_diag o (colnorm j).

Record sinv (s : state E) : Prop := mkSinv {
  si_on : s_inner_on E s = false;
  si_state : exists l, log_state (s_strat E s) = Some l /\ lm_inv (lo_max o) l /\ fresh l (s_jac E s);
  si_calls : Forall call_ok (log_calls (s_strat E s));
  si_iters : Forall (fun i => within (lo_max o) (is_radius i)) (s_iters E s) }.

Record send (s : state E) : Prop := mkSend {
  se_calls : Forall call_ok (log_calls (s_strat E s));
  se_iters : Forall (fun i => within (lo_max o) (is_radius i)) (s_iters E s);
  se_alive : log_state (s_strat E s) <> None }.

Lemma iters_ok : forall (s s1 : state E) go, sinv s -> finalize E Op s = (s1, go) ->
  Forall (fun i => within (lo_max o) (is_radius i)) (s_iters E s1).
Proof.
  intros s s1 go I F. destruct (finalize_iters E Op s s1 go F) as (i & A & B & _).
  rewrite A. apply Forall_app. split; [apply (si_iters s I)|]. constructor; auto.
  rewrite B. destruct (si_state s I) as (l & L & Li & _). cbn. rewrite L. apply (li_within _ _ Li).
Qed.

Lemma pos_quality : forall q, dlt (o_min_rel Op) q = true -> dlt (Fin 0) q = true.
Proof. intros q Q. exact (dlt0_trans _ _ Hmr Q). Qed.

Lemma body_sinv : forall (s s1 s2 : state E) go, sinv s -> finalize E Op s = (s1, true) -> body E Op s1 = (s2, go) ->
  (go = true -> sinv s2) /\ (go = false -> send s2).
Proof.
  intros s s1 s2 go I F B. pose proof (iters_ok s s1 true I F) as IO.
  destruct (finalize_go E Op s s1 F) as (S1 & J1 & O1 & MR).
  destruct I as [On (l & L & Li & Fr) Calls Its].
  apply body_strat in B. destruct B as (st1 & r & Est & Eit & Cases).
  cbn in Est. rewrite S1, L in Est. cbn in MR. rewrite L in MR.
  destruct (lm_compute o (colnorm (s_jac E s1)) l) as [l1 d] eqn:Ec.
  injection Est as <- _.
  unfold lm_compute in Ec. injection Ec as <- <-.
  set (dd := if lm_reuse l then lm_diag l else clamp_diag o (colnorm (s_jac E s1))) in *.
  assert (Dd : dd = clamp_diag o (colnorm (s_jac E s1))).
  { unfold dd. destruct (lm_reuse l) eqn:R; auto. rewrite (Fr R). f_equal. f_equal. symmetry. exact J1. }
  set (l1 := mkLM (lm_radius l) (lm_factor l) true dd) in *.
  assert (Li1 : lm_inv (lo_max o) l1) by (destruct Li; split; auto).
  assert (C1 : Forall call_ok ((s_jac E s1, l, map (fun a => ddiv a (lm_radius l)) dd) :: log_calls (s_strat E s))).
  { constructor; auto. split; [exact MR|]. split; [apply (li_within _ _ Li)|]. rewrite Dd. reflexivity. }
  destruct Cases as [(G & St)|[(G & J & O & St)|[(G & J & O & q & St)|(G & O & q & St & Q)]]]; subst go;
    (split; intros X; try discriminate X).
  - split; rewrite ?St, ?Eit; auto. cbn. discriminate.
  - split; rewrite ?St, ?Eit; auto; try (cbn; congruence).
    eexists. split; [reflexivity|]. split.
    + eapply (lm_note_inv pow3 P3 o Mv Mf Invalid); [exact Li1|reflexivity].
    + intros _. cbn. rewrite Dd. f_equal. f_equal. symmetry. exact J.
  - split; rewrite ?St, ?Eit; auto.
    + destruct (s_inner_on E s2); auto. specialize (O eq_refl). congruence.
    + eexists. split; [reflexivity|]. split.
      * eapply (lm_note_inv pow3 P3 o Mv Mf (Rejected q)); [exact Li1|reflexivity].
      * intros _. cbn. rewrite Dd. f_equal. f_equal. symmetry. exact J.
  - assert (Qp : dlt (Fin 0) q = true).
    { destruct Q as [Q|Q]; [apply pos_quality; auto|]. congruence. }
    split; rewrite ?St, ?Eit; auto.
    + destruct (s_inner_on E s2); auto. specialize (O eq_refl). congruence.
    + destruct (lm_accepted pow3 o q l1) as [l2|] eqn:A.
      * exists l2. split; [cbn; exact A|]. split.
        -- eapply (lm_note_inv pow3 P3 o Mv Mf (Accepted q)); [exact Li1|exact A].
        -- apply lm_accepted_radius in A. destruct A as [_ ->]. intros R. discriminate R.
      * unfold lm_accepted in A. rewrite Qp in A. discriminate A.
Qed.

Lemma loop_sinv : forall fuel s r, sinv s -> loop E Op fuel s = Some r -> send r.
Proof.
  apply (loop_inv E Op sinv send).
  - intros s s1 I F. destruct (finalize_iters E Op s s1 false F) as (i & A & B & C).
    split; [rewrite C; apply (si_calls s I)|apply (iters_ok s s1 false I F)|].
    rewrite C. destruct (si_state s I) as (l & L & _). rewrite L. discriminate.
  - intros s s1 s2 I F B. apply (body_sinv s s1 s2 true I F B). reflexivity.
  - intros s s1 s2 I F B. apply (body_sinv s s1 s2 false I F B). reflexivity.
Qed.

Lemma start_sinv : forall l p0 x c j g, lm_inv (lo_max o) l -> lm_reuse l = false ->
  sinv (start_state E Op (mkLog (Some l) []) p0 x c j g).
Proof.
  intros l p0 x c j g I R. split; cbn; auto.
  exists l. split; auto. split; auto. intros X. congruence.
Qed.
End C.
