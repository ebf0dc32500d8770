(** C01-C07: theorems about Problem. *)
Require Import ZArith List Lia Bool Permutation Sorted.
From Verif Require Import ZMap Dbl ProblemModel ProblemSpec ProblemProofs1 ProblemProofs2 ProblemProofs3 ProblemProofs4 ProblemProofs5 ProblemProofs6 ProblemProofs7 ProblemProofs8 ProblemProofs9 ProblemProofs10.
Import ListNotations.
Open Scope Z_scope.

(** What it means that the answers of a Problem [s] are those of the user's
    picture [a]. *)
Record reports (mf_tan : Z -> Z) (hash_order : list Z -> list Z) (s : problem) (a : pspec) : Prop := mkRep {
  (* GetParameterBlocks: exactly the live ones, increasing addresses (so each once) *)
  rep_blocks : forall v, In v (get_parameter_blocks s) <-> a_par a v <> None;
  rep_sorted : StronglySorted Z.lt (get_parameter_blocks s);
  rep_num : num_parameter_blocks s = Z.of_nat (length (get_parameter_blocks s));
  (* attributes *)
  rep_attr : forall v i, a_par a v = Some i ->
    get_size v s = Ok (i_size i) /\
    get_tangent_size mf_tan v s = Ok (if i_man i =? 0 then i_size i else mf_tan (i_man i)) /\
    get_constant mf_tan v s = Ok (i_const i || ((if i_man i =? 0 then i_size i else mf_tan (i_man i)) =? 0)) /\
    get_manifold v s = Ok (i_man i) /\
    forall k, (Z.of_nat k < i_size i) ->
      exists y z, get_lower v k s = Ok y /\ reports_lo (i_lo i (Z.of_nat k)) y /\
                  get_upper v k s = Ok z /\ reports_hi (i_hi i (Z.of_nat k)) z;
  (* asking about a block that is not in the problem stops the program *)
  rep_unknown : forall v, a_par a v = None ->
    get_size v s = Abort /\ get_tangent_size mf_tan v s = Abort /\ get_constant mf_tan v s = Abort /\
    get_manifold v s = Abort /\ (forall k, get_lower v k s = Abort /\ get_upper v k s = Abort) /\
    get_residuals_for hash_order v s = Abort;
  (* GetResidualBlocks: exactly the live ones, each once *)
  rep_res : forall r, In r (get_residual_blocks s) <-> a_res a r <> None;
  rep_res_nodup : NoDup (get_residual_blocks s);
  rep_res_num : num_residual_blocks s = Z.of_nat (length (get_residual_blocks s));
  (* cost function, loss function and parameter blocks of a residual block *)
  rep_get : forall r e, a_res a r = Some e -> get_residual r s = Ok e;
  rep_closed : forall r c l vs v, a_res a r = Some (c, l, vs) -> In v vs -> In v (get_parameter_blocks s);
  (* GetResidualBlocksForParameterBlock *)
  rep_for : forall v, a_par a v <> None ->
    exists l, get_residuals_for hash_order v s = Ok l /\ NoDup l /\
      forall r, In r l <-> exists c lo vs, a_res a r = Some (c, lo, vs) /\ In v vs }.

(** Every stored block knows the position at which it is stored. *)
Definition positions (s : problem) : Prop :=
  (forall i p, nth_error (p_pvec s) i = Some p -> exists b, zfind p (p_pheap s) = Some b /\ b_index b = Z.of_nat i) /\
  (forall i r, nth_error (p_rvec s) i = Some r -> exists b, zfind r (p_rheap s) = Some b /\ r_index b = Z.of_nat i).

Section Props.
(** For every cost function signature, every manifold dimension, every
    iteration order of hash sets. *)
Variables (cf_sizes : Z -> list Z) (mf_amb mf_tan : Z -> Z) (hash_order : list Z -> list Z).
Hypothesis Hperm : forall l, Permutation (hash_order l) l.
Notation step := (step cf_sizes mf_amb mf_tan hash_order).
Notation run := (run cf_sizes mf_amb mf_tan hash_order).
Notation allows := (allows cf_sizes mf_amb mf_tan).
Notation effect := (effect cf_sizes).
Notation effects := (effects cf_sizes).
Notation accepted := (accepted cf_sizes mf_amb mf_tan).
Notation no_reuse := (no_reuse cf_sizes).
Notation reports := (reports mf_tan hash_order).

Lemma rel_reports : forall s a, Inv s -> Rel s a -> reports s a /\ positions s.
Proof.
  intros s a I R. split; [constructor|split].
  - intros v. exact (par_live s a v I R).
  - exact (i_sm s I).
  - exact (num_par s I).
  - intros v i H. exact (accessors_ok mf_tan s a v i I R H).
  - intros v H. exact (accessors_abort mf_tan hash_order s a v I R H).
  - intros r. exact (res_live s a r I R).
  - eapply indexed_nodup. exact (i_rv s I).
  - reflexivity.
  - intros r e H. exact (get_residual_ok s a r e I R H).
  - intros r c l vs v H Hv. pose proof (proj2 R r) as Q. unfold rview in Q. rewrite H in Q.
    destruct (zfind r (p_rheap s)) as [rb|] eqn:E; [|discriminate]. inversion Q; subst.
    apply in_map_iff in Hv. destruct Hv as [p [E1 E2]]. destruct (i_rp s I r rb E) as [_ [_ L]]. specialize (L p E2).
    unfold addr_of in E1. destruct (zfind p (p_pheap s)) as [b|] eqn:B; [|congruence].
    eapply zfind_in_keys. apply (i_pm s I). eauto.
  - intros v H. exact (get_residuals_for_ok cf_sizes mf_amb mf_tan hash_order Hperm s a v I R H).
  - intros i p H. apply (proj1 (i_pv s I)) in H. unfold pidx in H. destruct (zfind p (p_pheap s)); [|discriminate]. simpl in H. inversion H. eauto.
  - intros i p H. apply (proj1 (i_rv s I)) in H. unfold ridx in H. destruct (zfind p (p_rheap s)); [|discriminate]. simpl in H. inversion H. eauto.
Qed.

(** C01. After every accepted history the Problem answers every query as the
    user's picture [effects os] says, and positions are consistent. *)
Theorem problem_refines : forall o os, o_nochecks o = false -> accepted os empty_spec ->
  exists s, run os (new_problem o) = Ok s /\ reports s (effects os empty_spec) /\ positions s.
Proof.
  intros o os NC AC.
  destruct (run_ok cf_sizes mf_amb mf_tan hash_order Hperm os (new_problem o) empty_spec (inv_new o) (rel_new o) NC AC) as [s [E [I [R _]]]].
  exists s. split; auto. exact (rel_reports s _ I R).
Qed.

(** C01. After an accepted history, a further call is either allowed by the
    picture and succeeds, or not allowed and stops the program; undefined
    behaviour is never reached. *)
Theorem problem_rejects : forall o os s, o_nochecks o = false -> accepted os empty_spec -> run os (new_problem o) = Ok s ->
  forall x, sane x (effects os empty_spec) ->
    (allows x (effects os empty_spec) -> exists s', step x s = Ok s') /\
    (~ allows x (effects os empty_spec) -> step x s = Abort).
Proof.
  intros o os s NC AC E x SN.
  destruct (run_ok cf_sizes mf_amb mf_tan hash_order Hperm os (new_problem o) empty_spec (inv_new o) (rel_new o) NC AC) as [s' [E' [I [R O]]]].
  rewrite E in E'. inversion E'; subst s'.
  pose proof (step_ok cf_sizes mf_amb mf_tan hash_order Hperm x s _ I R ltac:(rewrite O; exact NC) SN) as K.
  destruct (step x s) as [s'| | |]; try contradiction; split; intros H; eauto; tauto.
Qed.

Lemma reach : forall o os s, o_nochecks o = false -> accepted os empty_spec -> run os (new_problem o) = Ok s ->
  Inv s /\ Rel s (effects os empty_spec) /\ p_opts s = o.
Proof.
  intros o os s NC AC E.
  destruct (run_ok cf_sizes mf_amb mf_tan hash_order Hperm os (new_problem o) empty_spec (inv_new o) (rel_new o) NC AC) as [s' [E' [I [R O]]]].
  rewrite E in E'. inversion E'; subst s'. auto.
Qed.

(** C02. RemoveParameterBlock(v) after any accepted history: exactly [v] goes
    from the parameter blocks, exactly the residual blocks using [v] go from
    the residual blocks, the others keep cost, loss and parameters. *)
Theorem remove_parameter_exact : forall o os s v, o_nochecks o = false -> accepted os empty_spec ->
  run os (new_problem o) = Ok s -> In v (get_parameter_blocks s) ->
  exists s', step (ORemoveParameter v) s = Ok s' /\
    get_parameter_blocks s' = filter (fun w => negb (w =? v)) (get_parameter_blocks s) /\
    (forall r, In r (get_residual_blocks s') <->
       In r (get_residual_blocks s) /\ exists c l vs, get_residual r s = Ok (c, l, vs) /\ ~ In v vs) /\
    NoDup (get_residual_blocks s') /\
    (forall r, In r (get_residual_blocks s') -> get_residual r s' = get_residual r s) /\
    (forall w, w <> v -> get_size w s' = get_size w s /\ get_constant mf_tan w s' = get_constant mf_tan w s /\
                         get_manifold w s' = get_manifold w s).
Proof.
  intros o os s v NC AC E HV. destruct (reach o os s NC AC E) as [I [R O]]. set (a := effects os empty_spec) in *.
  pose proof (step_ok cf_sizes mf_amb mf_tan hash_order Hperm (ORemoveParameter v) s a I R ltac:(congruence) Logic.I) as K.
  apply (par_live s a v I R) in HV.
  destruct (step (ORemoveParameter v) s) as [s'| | |]; try contradiction.
  destruct K as [_ [I' [R' _]]]. exists s'. split; auto.
  assert (LV : forall r, In r (get_residual_blocks s') <-> In r (get_residual_blocks s) /\ exists c l vs, get_residual r s = Ok (c, l, vs) /\ ~ In v vs).
  { intros r. rewrite (res_live s' _ r I' R'), (res_live s a r I R). simpl.
    destruct (a_res a r) as [[[c l] vs]|] eqn:Q.
    - rewrite (get_residual_ok s a r _ I R Q). destruct (in_dec Z.eq_dec v vs) as [i|n].
      + split; [congruence|]. intros [_ [c' [l' [vs' [W1 W2]]]]]. inversion W1; subst. contradiction.
      + split; [|congruence]. intros _. split; [congruence|]. eauto 6.
    - split; [congruence|]. intros [W _]. congruence. }
  split; [|split; [exact LV|split; [eapply indexed_nodup; exact (i_rv s' I')|split]]].
  - apply sorted_ext.
    + exact (i_sm s' I').
    + pose proof (i_sm s I) as W. unfold zsorted in W. unfold get_parameter_blocks. induction (zkeys (p_pmap s)) as [|x l IH]; simpl; [constructor|].
      apply StronglySorted_inv in W. destruct W as [W1 W2]. destruct (negb (x =? v)); [|auto]. constructor; [auto|].
      apply Forall_forall. intros y Hy. apply filter_In in Hy. rewrite Forall_forall in W2. apply W2, Hy.
    + intros x. rewrite filter_In, (par_live s' _ x I' R'), (par_live s a x I R). simpl. unfold fupd.
      destruct (Z.eqb_spec x v); simpl; intuition congruence.
  - intros r Hr. apply (res_live s' _ r I' R') in Hr. simpl in Hr.
    destruct (a_res a r) as [[[c l] vs]|] eqn:Q; [|congruence]. rewrite (get_residual_ok s a r _ I R Q).
    apply (get_residual_ok s' _ r _ I' R'). simpl. rewrite Q. destruct (in_dec Z.eq_dec v vs); congruence.
  - intros w Hw. destruct (a_par a w) as [i|] eqn:Q.
    + assert (Q' : a_par (effect (ORemoveParameter v) a) w = Some i) by (simpl; unfold fupd; destruct (Z.eqb_spec w v); [contradiction|auto]).
      destruct (accessors_ok mf_tan s a w i I R Q) as [A1 [_ [A2 [A3 _]]]].
      destruct (accessors_ok mf_tan s' _ w i I' R' Q') as [B1 [_ [B2 [B3 _]]]]. rewrite A1, A2, A3, B1, B2, B3. auto.
    + assert (Q' : a_par (effect (ORemoveParameter v) a) w = None) by (simpl; unfold fupd; destruct (Z.eqb_spec w v); auto).
      destruct (accessors_abort mf_tan hash_order s a w I R Q) as [A1 [_ [A2 [A3 _]]]].
      destruct (accessors_abort mf_tan hash_order s' _ w I' R' Q') as [B1 [_ [B2 [B3 _]]]]. rewrite A1, A2, A3, B1, B2, B3. auto.
Qed.

(** C02. RemoveResidualBlock(r): only [r] goes; no parameter block does. *)
Theorem remove_residual_exact : forall o os s r, o_nochecks o = false -> accepted os empty_spec ->
  run os (new_problem o) = Ok s -> In r (get_residual_blocks s) ->
  exists s', step (ORemoveResidual r) s = Ok s' /\
    get_parameter_blocks s' = get_parameter_blocks s /\
    (forall q, In q (get_residual_blocks s') <-> In q (get_residual_blocks s) /\ q <> r) /\
    NoDup (get_residual_blocks s') /\
    (forall q, q <> r -> In q (get_residual_blocks s) -> get_residual q s' = get_residual q s).
Proof.
  intros o os s r NC AC E HV. destruct (reach o os s NC AC E) as [I [R O]]. set (a := effects os empty_spec) in *.
  pose proof (step_ok cf_sizes mf_amb mf_tan hash_order Hperm (ORemoveResidual r) s a I R ltac:(congruence) Logic.I) as K.
  apply (res_live s a r I R) in HV.
  destruct (step (ORemoveResidual r) s) as [s'| | |]; try contradiction.
  destruct K as [_ [I' [R' _]]]. exists s'. split; auto. split; [|split; [|split]].
  - apply sorted_ext; [exact (i_sm s' I')|exact (i_sm s I)|]. intros x. rewrite (par_live s' _ x I' R'), (par_live s a x I R). simpl. tauto.
  - intros q. rewrite (res_live s' _ q I' R'), (res_live s a q I R). simpl. unfold fupd. destruct (Z.eqb_spec q r); intuition congruence.
  - eapply indexed_nodup; exact (i_rv s' I').
  - intros q Hq H. apply (res_live s a q I R) in H. destruct (a_res a q) as [e|] eqn:Q; [|congruence].
    rewrite (get_residual_ok s a q e I R Q). apply (get_residual_ok s' _ q e I' R'). simpl. unfold fupd. destruct (Z.eqb_spec q r); [contradiction|auto].
Qed.

(** C03.  Any history (also one that is rejected somewhere). *)
Fixpoint sane_history (os : list op) (a : pspec) : Prop :=
  match os with
  | [] => True
  | x :: os' => sane x a /\ (allows x a -> sane_history os' (effect x a))
  end.

Definition slow (o : options) := mkOpts false (o_nochecks o) (o_cost_own o) (o_loss_own o) (o_man_own o).
Definition fast (o : options) := mkOpts true (o_nochecks o) (o_cost_own o) (o_loss_own o) (o_man_own o).

(** C03. With enable_fast_removal on or off, every history is rejected or
    accepted alike; if accepted, both answer every query by the same picture,
    list the same parameter blocks, the same residual blocks up to order, and
    have destroyed the same objects. *)
Theorem fast_removal_equivalent : forall o os, o_nochecks o = false -> sane_history os empty_spec ->
  match run os (new_problem (fast o)), run os (new_problem (slow o)) with
  | Ok s1, Ok s2 =>
      get_parameter_blocks s1 = get_parameter_blocks s2 /\
      Permutation (get_residual_blocks s1) (get_residual_blocks s2) /\
      (forall r, In r (get_residual_blocks s1) -> get_residual r s1 = get_residual r s2) /\
      (forall v, match get_residuals_for hash_order v s1, get_residuals_for hash_order v s2 with
                 | Ok l1, Ok l2 => Permutation l1 l2 | Abort, Abort => True | _, _ => False end) /\
      (forall x, nfreed x (p_log s1) = nfreed x (p_log s2)) /\
      (forall x, nfreed x (destroy s1) = nfreed x (destroy s2)) /\
      exists a, reports s1 a /\ reports s2 a
  | Abort, Abort => True
  | _, _ => False
  end.
Proof.
  intros o os NC. 
  assert (B0 : both (new_problem (fast o)) (new_problem (slow o)) empty_spec)
   by (unfold both; split; [apply inv_new|]; split; [apply inv_new|]; split; [apply rel_new|]; split; [apply rel_new|]; simpl; auto 20).
  revert B0. generalize empty_spec (new_problem (fast o)) (new_problem (slow o)).
  induction os as [|x os IH]; intros a s1 s2 B SH.
  - cbn [ProblemModel.run]. destruct (both_observe cf_sizes mf_amb mf_tan s1 s2 a B) as [P1 P2].
    destruct B as [I1 [I2 [R1 [R2 [N1 [N2 [C1 [C2 [C3 [MD LG]]]]]]]]]].
    split; [exact P1|]. split; [exact P2|]. split.
    { intros r Hr. apply (res_live s1 a r I1 R1) in Hr. destruct (a_res a r) as [e|] eqn:Q; [|congruence].
      rewrite (get_residual_ok s1 a r e I1 R1 Q), (get_residual_ok s2 a r e I2 R2 Q). auto. }
    split.
    { intros v. destruct (a_par a v) as [i|] eqn:Q.
      - destruct (get_residuals_for_ok cf_sizes mf_amb mf_tan hash_order Hperm s1 a v I1 R1 ltac:(congruence)) as [l1 [L1 [D1 M1]]].
        destruct (get_residuals_for_ok cf_sizes mf_amb mf_tan hash_order Hperm s2 a v I2 R2 ltac:(congruence)) as [l2 [L2 [D2 M2]]].
        rewrite L1, L2. apply NoDup_Permutation; auto. intros r. rewrite M1, M2. tauto.
      - destruct (accessors_abort mf_tan hash_order s1 a v I1 R1 Q) as [_ [_ [_ [_ [_ W1]]]]].
        destruct (accessors_abort mf_tan hash_order s2 a v I2 R2 Q) as [_ [_ [_ [_ [_ W2]]]]]. rewrite W1, W2. auto. }
    split; [exact LG|]. split.
    { intros y. unfold destroy. rewrite !nfreed_app, LG, C1, C2, MD. f_equal. f_equal; [|f_equal].
      - destruct (o_cost_own (p_opts s2)) eqn:W; auto.
        assert (KE : zkeys (p_cref s1) = zkeys (p_cref s2)); [|rewrite KE; auto].
        apply sorted_ext; [exact (i_sc s1 I1)|exact (i_sc s2 I2)|]. intros c.
        pose proof (i_cr s1 I1) as U1. pose proof (i_cr s2 I2) as U2. replace (o_cost_own (p_opts s1)) with true in U1 by congruence. rewrite W in U2.
        specialize (U1 c). specialize (U2 c). pose proof (ncost_uses s1 a c I1 R1). pose proof (ncost_uses s2 a c I2 R2).
        rewrite <- (zfind_none_not (p_cref s1) c), <- (zfind_none_not (p_cref s2) c), U1, U2.
        assert (QQ : (0 < ncost c s1)%nat <-> (0 < ncost c s2)%nat) by tauto. destruct (Nat.eqb_spec (ncost c s1) 0), (Nat.eqb_spec (ncost c s2) 0); split; intros; try congruence; exfalso; lia.
      - destruct (o_loss_own (p_opts s2)) eqn:W; auto.
        assert (KE : zkeys (p_lref s1) = zkeys (p_lref s2)); [|rewrite KE; auto].
        apply sorted_ext; [exact (i_sl s1 I1)|exact (i_sl s2 I2)|]. intros c.
        pose proof (i_lr s1 I1) as U1. pose proof (i_lr s2 I2) as U2. replace (o_loss_own (p_opts s1)) with true in U1 by congruence. rewrite W in U2.
        specialize (U1 c). specialize (U2 c). pose proof (nloss_uses s1 a c I1 R1). pose proof (nloss_uses s2 a c I2 R2).
        rewrite <- (zfind_none_not (p_lref s1) c), <- (zfind_none_not (p_lref s2) c), U1, U2.
        assert (QQ : (0 < nloss c s1)%nat <-> (0 < nloss c s2)%nat) by tauto. destruct (Nat.eqb_spec (nloss c s1) 0), (Nat.eqb_spec (nloss c s2) 0); split; intros; try congruence; exfalso; lia. }
    exists a. split; [exact (proj1 (rel_reports s1 a I1 R1))|exact (proj1 (rel_reports s2 a I2 R2))].
  - destruct SH as [S1 S2]. cbn [ProblemModel.run].
    pose proof (both_step cf_sizes mf_amb mf_tan hash_order Hperm x s1 s2 a B S1) as K.
    destruct (step x s1) as [t1| | |], (step x s2) as [t2| | |]; try contradiction; cbn [bind]; auto.
    destruct K as [K1 [K2 _]]. exact (IH _ t1 t2 K2 (S2 K1)).
Qed.

(** C01. A history that did not stop the program was accepted by the user's
    picture; so [problem_refines] covers every history that did not abort. *)
Theorem running_is_accepted : forall o os s, o_nochecks o = false -> sane_history os empty_spec ->
  run os (new_problem o) = Ok s -> accepted os empty_spec.
Proof.
  intros o os s NC. assert (G : forall os s0 a, Inv s0 -> Rel s0 a -> o_nochecks (p_opts s0) = false -> sane_history os a -> run os s0 = Ok s -> accepted os a).
  { clear - Hperm. intros os; induction os as [|x os IH]; intros s0 a I R NC SH E; simpl; auto. destruct SH as [S1 S2]. cbn [ProblemModel.run] in E.
    pose proof (step_ok cf_sizes mf_amb mf_tan hash_order Hperm x s0 a I R NC S1) as K.
    destruct (step x s0) as [s1| | |]; try discriminate. destruct K as [K1 [K2 [K3 [K4 _]]]]. cbn [bind] in E.
    split; auto. split; auto. apply (IH s1 _ K2 K3); auto. congruence. }
  intros SH E. exact (G os (new_problem o) empty_spec (inv_new o) (rel_new o) NC SH E).
Qed.

(** C04. Ownership.  At any moment of an accepted history in which functions
    already destroyed are not handed over again: an owned cost / loss function
    in use has not been destroyed; when no longer used it has been destroyed
    exactly once; nothing else has been destroyed.  After the Problem itself
    is destroyed, each owned object handed over has been destroyed exactly
    once and no other object has. *)
Theorem ownership_exactly_once : forall o os s, o_nochecks o = false -> accepted os empty_spec -> no_reuse [] [] os empty_spec ->
  run os (new_problem o) = Ok s ->
  (forall c, uses_cost (effects os empty_spec) c -> nfreed (FCost c) (p_log s) = 0%nat) /\
  (forall l, uses_loss (effects os empty_spec) l -> nfreed (FLoss l) (p_log s) = 0%nat) /\
  (forall c, o_cost_own o = true -> In c (flat_map cost_given os) -> ~ uses_cost (effects os empty_spec) c -> nfreed (FCost c) (p_log s) = 1%nat) /\
  (forall l, o_loss_own o = true -> In l (flat_map loss_given os) -> ~ uses_loss (effects os empty_spec) l -> nfreed (FLoss l) (p_log s) = 1%nat) /\
  (forall m, nfreed (FManifold m) (p_log s) = 0%nat) /\
  (forall c, nfreed (FCost c) (destroy s) = one (o_cost_own o && existsb (Z.eqb c) (flat_map cost_given os))) /\
  (forall l, nfreed (FLoss l) (destroy s) = one (o_loss_own o && existsb (Z.eqb l) (flat_map loss_given os))) /\
  (forall m, nfreed (FManifold m) (destroy s) = one (o_man_own o && existsb (Z.eqb m) (flat_map man_given os))).
Proof.
  intros o os s NC AC NR E. destruct (reach o os s NC AC E) as [I [R O]].
  destruct (run_log cf_sizes mf_amb mf_tan hash_order Hperm os (new_problem o) empty_spec [] [] [] (inv_new o) (rel_new o) NC AC NR) with (s' := s) as [L _]; auto.
  { unfold LInv. cbn. split; [|split; [|split]]; intros; rewrite ?andb_false_r; auto. destruct (o_man_own o); auto. }
  simpl in L. pose proof (destroy_counts cf_sizes mf_amb mf_tan s _ _ _ I L) as [D1 [D2 D3]]. destruct L as [L1 [L2 [L3 L4]]]. rewrite O in *.
  split; [|split; [|split; [|split; [|auto]]]].
  - intros c H. apply (ncost_uses s _ c I R) in H. specialize (L1 c). apply Nat.ltb_lt in H. rewrite H in L1.
    destruct (o_cost_own o), (existsb (Z.eqb c) (flat_map cost_given os)); simpl in L1; lia.
  - intros c H. apply (nloss_uses s _ c I R) in H. specialize (L2 c). apply Nat.ltb_lt in H. rewrite H in L2.
    destruct (o_loss_own o), (existsb (Z.eqb c) (flat_map loss_given os)); simpl in L2; lia.
  - intros c W H U. specialize (L1 c). rewrite W in L1. apply existsb_eqb in H. rewrite H in L1.
    destruct (Nat.ltb_spec 0 (ncost c s)); [apply (ncost_uses s _ c I R) in H0; contradiction|]. simpl in L1. lia.
  - intros c W H U. specialize (L2 c). rewrite W in L2. apply existsb_eqb in H. rewrite H in L2.
    destruct (Nat.ltb_spec 0 (nloss c s)); [apply (nloss_uses s _ c I R) in H0; contradiction|]. simpl in L2. lia.
Qed.

(** C05. No double belongs to two live parameter blocks. *)
Theorem blocks_disjoint : forall o os s, o_nochecks o = false -> accepted os empty_spec -> run os (new_problem o) = Ok s ->
  forall v w n m x, get_size v s = Ok n -> get_size w s = Ok m -> v <= x < v + n -> w <= x < w + m -> v = w.
Proof.
  intros o os s NC AC E v w n m x Hn Hm X1 X2. destruct (reach o os s NC AC E) as [I [R O]].
  unfold get_size in *. pose proof (find_block_ok s _ v I R) as F1. pose proof (find_block_ok s _ w I R) as F2.
  destruct (find_block v s) as [[p b]| | |]; try discriminate. destruct (find_block w s) as [[q c]| | |]; try discriminate.
  cbn [bind] in *. inversion Hn. inversion Hm. subst n m. destruct F1 as [B1 [B2 _]], F2 as [C1 [C2 _]]. subst.
  destruct (Z.lt_trichotomy (b_addr b) (b_addr c)) as [H|[H|H]]; auto.
  - pose proof (i_ch s I p b q c B1 C1 H). lia.
  - pose proof (i_ch s I q c p b C1 B1 H). lia.
Qed.

(** C05. Adding a block (directly or through a residual block) that shares a
    double with a different live block stops the program, and so does adding
    an existing block with another size. *)
Theorem overlap_rejected : forall o os s, o_nochecks o = false -> accepted os empty_spec -> run os (new_problem o) = Ok s ->
  forall v w n m x, get_size w s = Ok m -> v <> w -> v <= x < v + n -> w <= x < w + m ->
  step (OAddParameter v n) s = Abort /\
  forall r c l, sane (OAddResidual r c l [v]) (effects os empty_spec) -> cf_sizes c = [n] -> step (OAddResidual r c l [v]) s = Abort.
Proof.
  intros o os s NC AC E v w n m x Hw NE X1 X2. destruct (reach o os s NC AC E) as [I [R O]].
  assert (NF : ~ fits (effects os empty_spec) v n).
  { intros [NZ H]. destruct (a_par (effects os empty_spec) v) as [i|] eqn:Q.
    - destruct (accessors_ok mf_tan s _ v i I R Q) as [A _]. rewrite H in A.
      apply NE. exact (blocks_disjoint o os s NC AC E v w n m x A Hw X1 X2).
    - destruct (a_par (effects os empty_spec) w) as [i|] eqn:Q2.
      + destruct (accessors_ok mf_tan s _ w i I R Q2) as [A _]. rewrite Hw in A. inversion A. specialize (H w i Q2). unfold apart in H. lia.
      + destruct (accessors_abort mf_tan hash_order s _ w I R Q2) as [A _]. congruence. }
  split.
  - exact (proj2 (problem_rejects o os s NC AC E (OAddParameter v n) Logic.I) NF).
  - intros r c l SN SZ. apply (proj2 (problem_rejects o os s NC AC E (OAddResidual r c l [v]) SN)).
    simpl. rewrite SZ. simpl. tauto.
Qed.

Theorem size_change_rejected : forall o os s, o_nochecks o = false -> accepted os empty_spec -> run os (new_problem o) = Ok s ->
  forall v n m, get_size v s = Ok m -> n <> m -> step (OAddParameter v n) s = Abort.
Proof.
  intros o os s NC AC E v n m Hw NE. destruct (reach o os s NC AC E) as [I [R O]].
  apply (proj2 (problem_rejects o os s NC AC E (OAddParameter v n) Logic.I)). intros [_ H].
  destruct (a_par (effects os empty_spec) v) as [i|] eqn:Q.
  - destruct (accessors_ok mf_tan s _ v i I R Q) as [A _]. congruence.
  - destruct (accessors_abort mf_tan hash_order s _ v I R Q) as [A _]. congruence.
Qed.

(** C06. Problem::Evaluate with any subset [vs] of the blocks, whatever fails
    inside: on return every block reports the same constness (size, manifold,
    ...) and the lists of blocks are the same; and the residuals are evaluated
    in a state where a block varies iff it varied before and is in [vs] (or
    [vs] is empty). *)
Theorem evaluate_keeps_constness : forall o os s, o_nochecks o = false -> accepted os empty_spec -> run os (new_problem o) = Ok s ->
  forall jac eval rs vs, incl rs (get_residual_blocks s) -> incl vs (get_parameter_blocks s) ->
  exists s' ok, evaluate mf_tan jac eval rs vs s = Ok (s', ok) /\
    (forall v, get_constant mf_tan v s' = get_constant mf_tan v s /\ get_size v s' = get_size v s /\ get_manifold v s' = get_manifold v s /\
               (forall k, get_lower v k s' = get_lower v k s /\ get_upper v k s' = get_upper v k s) /\
               get_residuals_for hash_order v s' = get_residuals_for hash_order v s) /\
    get_parameter_blocks s' = get_parameter_blocks s /\ get_residual_blocks s' = get_residual_blocks s /\
    (forall r, get_residual r s' = get_residual r s) /\ positions s' /\
    exists s2 ps jok, ok = jok && eval s2 ps /\
      forall v c, get_constant mf_tan v s = Ok c ->
        get_constant mf_tan v s2 = Ok (c || match vs with [] => false | _ => negb (existsb (Z.eqb v) vs) end).
Proof.
  intros o os s NC AC E jac eval rs vs Hrs Hvs. destruct (reach o os s NC AC E) as [I [R O]].
  assert (HR : forall r, In r rs -> zfind r (p_rheap s) <> None) by (intros r Hr; apply live_iff; [exact I|]; exact (Hrs r Hr)).
  pose proof (evaluate_ok mf_tan jac eval rs vs s I HR) as K.
  destruct (evaluate mf_tan jac eval rs vs s) as [[s' ok]| | |]; try contradiction.
  2:{ destruct K as [v [K1 K2]]. apply Hvs in K1. apply (par_live s _ v I R) in K1. apply (rel_par_none s _ v R) in K2. contradiction. }
  destruct K as [_ [SB [_ [s2 [ps [jok [Eb [PS [M2 [H2 C2]]]]]]]]]].
  exists s', ok. split; auto.
  destruct (sbu_fields s s' SB) as [F1 [F2 [F3 [F4 [F5 _]]]]].
  assert (W : forall q, match zfind q (p_pheap s), zfind q (p_pheap s') with Some b, Some b' => b' = with_user b (b_user b') | None, None => True | _, _ => False end) by apply SB.
  split; [|split; [unfold get_parameter_blocks; rewrite F5; auto|split; [exact F4|split; [|split]]]].
  - intros v. unfold get_constant, get_size, get_manifold, get_lower, get_upper, get_residuals_for, find_block. rewrite F5, F1, F4.
    destruct (zfind v (p_pmap s)) as [p|]; [|cbn [bind]; auto 10]. specialize (W p).
    destruct (zfind p (p_pheap s)) as [b|], (zfind p (p_pheap s')) as [b'|]; try contradiction; cbn [deref bind]; [|auto 10].
    rewrite W. split; [reflexivity|split; [reflexivity|split; [reflexivity|split; [auto|]]]].
    destruct (o_fast (p_opts s)); auto. clear - F2.
    induction (p_rvec s) as [|r l IH]; cbn [scan_uses]; auto. rewrite F2, IH. auto.
  - intros r. unfold get_residual. rewrite F2. destruct (zfind r (p_rheap s)) as [rb|]; auto. cbn [deref bind].
    assert (U : user_states (r_params rb) s' = user_states (r_params rb) s); [|rewrite U; auto].
    unfold user_states. induction (r_params rb) as [|p l IH]; simpl; auto. rewrite IH. specialize (W p).
    destruct (zfind p (p_pheap s)) as [b|], (zfind p (p_pheap s')) as [b'|]; try contradiction; auto. rewrite W. auto.
  - exact (proj2 (rel_reports s' _ (inv_sbu s s' I SB) (rel_sbu s s' _ SB R))).
  - exists s2, ps, jok. split; auto. intros v c Hc. unfold get_constant in *. unfold find_block in *. rewrite M2.
    destruct (zfind v (p_pmap s)) as [p|] eqn:P; [|discriminate].
    destruct (zfind p (p_pheap s)) as [b|] eqn:B; [|discriminate]. cbn [deref bind] in Hc.
    destruct (C2 p b B) as [b2 [B2 [_ CC]]]. rewrite B2. cbn [deref bind]. rewrite CC. inversion Hc. f_equal. f_equal.
    assert (A : addr_of s p = v). { unfold addr_of. rewrite B. apply (i_pm s I) in P. destruct P as [b' [P1 P2]]. congruence. }
    assert (LP : forall q, In q ps -> In (addr_of s q) (match vs with [] => map (addr_of s) (p_pvec s) | _ => vs end)) by (intros q Hq; rewrite <- PS; apply in_map; auto).
    assert (UQ : forall q, addr_of s q = v -> q = p).
    { intros q Hq. unfold addr_of in Hq. destruct (zfind q (p_pheap s)) as [bq|] eqn:Q.
      - assert (b_addr b = v) by (unfold addr_of in A; rewrite B in A; auto). destruct (addr_unique s q bq p b I Q B); congruence.
      - exfalso. assert (b_addr b = v) by (unfold addr_of in A; rewrite B in A; auto). destruct (i_bl s I p b B) as [NZ _]. congruence. }
    assert (PI : In p ps <-> In v (match vs with [] => map (addr_of s) (p_pvec s) | _ => vs end)).
    { split; [intros H; rewrite <- A; apply LP; auto|]. rewrite <- PS. intros H. apply in_map_iff in H. destruct H as [q [Q1 Q2]].
      rewrite <- (UQ q Q1). auto. }
    destruct vs as [|v0 vs].
    + assert (In p ps). { apply PI. rewrite <- A. apply in_map. apply (plive_iff s p I). congruence. }
      apply existsb_eqb in H. rewrite H. auto.
    + f_equal. apply eq_true_iff_eq. rewrite !existsb_eqb. exact PI.
Qed.

(** C06. If all Plus Jacobians can be computed (or no subset was given), in
    every Evaluate of the history and in this one, Evaluate leaves the complete
    internal state exactly as it was: it is a pure query. *)
Theorem evaluate_restores : forall o os s, o_nochecks o = false -> accepted os empty_spec -> Forall benign os -> run os (new_problem o) = Ok s ->
  forall jac eval rs vs, incl rs (get_residual_blocks s) -> incl vs (get_parameter_blocks s) -> (vs = [] \/ forall a, jac a = true) ->
  exists ok, evaluate mf_tan jac eval rs vs s = Ok (s, ok).
Proof.
  intros o os s NC AC BN E jac eval rs vs Hrs Hvs HB. destruct (reach o os s NC AC E) as [I [R O]].
  assert (HR : forall r, In r rs -> zfind r (p_rheap s) <> None) by (intros r Hr; apply live_iff; [exact I|]; exact (Hrs r Hr)).
  pose proof (evaluate_ok mf_tan jac eval rs vs s I HR) as K.
  destruct (evaluate mf_tan jac eval rs vs s) as [[s' ok]| | |]; try contradiction.
  2:{ destruct K as [v [K1 K2]]. apply Hvs in K1. apply (par_live s _ v I R) in K1. apply (rel_par_none s _ v R) in K2. contradiction. }
  destruct K as [_ [SB [AU _]]]. exists ok. f_equal. f_equal.
  assert (A : all_user s).
  { apply (au_iff s (i_sp s I)).
    refine (au_run cf_sizes mf_amb mf_tan hash_order Hperm os (new_problem o) empty_spec s (inv_new o) (rel_new o) NC AC BN _ E). constructor. }
  apply (same_all_user s s' (i_sp s I) SB A (AU HB A)).
Qed.

(** C07. The bound of a coordinate is the last value set for it, as long as
    the block is not removed, whatever else happens. *)
Definition keeps_lower (v k : Z) (x : op) : Prop :=
  match x with ORemoveParameter w => w <> v | OSetLower w j _ => w <> v \/ j <> k | _ => True end.
Definition keeps_upper (v k : Z) (x : op) : Prop :=
  match x with ORemoveParameter w => w <> v | OSetUpper w j _ => w <> v \/ j <> k | _ => True end.

Lemma add_many_keep : forall vs szs a v i, a_par a v = Some i -> a_par (add_many vs szs a) v = Some i.
Proof.
  induction vs as [|w vs IH]; intros [|z szs] a v i H; simpl; auto. apply IH. unfold add1.
  destruct (a_par a w) eqn:E; auto. simpl. unfold fupd. destruct (Z.eqb_spec v w); [congruence|auto].
Qed.

Lemma effects_keep : forall os v i a, a_par a v = Some i ->
  forall k, (Forall (keeps_lower v k) os -> exists i', a_par (effects os a) v = Some i' /\ i_size i' = i_size i /\ i_lo i' k = i_lo i k) /\
            (Forall (keeps_upper v k) os -> exists i', a_par (effects os a) v = Some i' /\ i_size i' = i_size i /\ i_hi i' k = i_hi i k).
Proof.
  assert (A1 : forall a w z v i, a_par a v = Some i -> a_par (add1 w z a) v = Some i)
   by (intros a w z v i H; apply (add_many_keep [w] [z] a v i H)).
  assert (UP : forall a w f v i, a_par a v = Some i -> a_par (upd_par w f a) v = Some (if v =? w then f i else i)).
  { intros a w f v i H. unfold upd_par. destruct (a_par a w) eqn:E.
    - simpl. unfold fupd. destruct (Z.eqb_spec v w); auto. subst. congruence.
    - destruct (Z.eqb_spec v w); auto. congruence. }
  induction os as [|x os IH]; intros v i a H k; simpl; [split; intros; eauto|].
  split; intros F; inversion F as [|? ? F1 F2]; subst; clear F.
  - assert (ST : exists i', a_par (effect x a) v = Some i' /\ i_size i' = i_size i /\ i_lo i' k = i_lo i k).
    { destruct x; simpl in F1 |- *;
        try (eexists; split; [apply UP; try apply A1; eassumption|]; destruct (v =? _); simpl; auto; fail).
      - exists i; auto.
      - exists i. split; auto. apply add_many_keep; auto.
      - exists i; auto.
      - exists i. split; auto. unfold fupd. destruct (Z.eqb_spec v v0); [subst; contradiction|auto].
      - eexists; split; [apply UP; eassumption|]. destruct (Z.eqb_spec v v0); simpl; auto. unfold fupd.
        destruct (Z.eqb_spec k i0); auto. subst. destruct F1; contradiction.
      - exists i; auto. }
    destruct ST as [i1 [S1 [S2 S3]]]. destruct (proj1 (IH v i1 _ S1 k) F2) as [i2 [T1 [T2 T3]]]. exists i2. rewrite T2, T3. auto.
  - assert (ST : exists i', a_par (effect x a) v = Some i' /\ i_size i' = i_size i /\ i_hi i' k = i_hi i k).
    { destruct x; simpl in F1 |- *;
        try (eexists; split; [apply UP; try apply A1; eassumption|]; destruct (v =? _); simpl; auto; fail).
      - exists i; auto.
      - exists i. split; auto. apply add_many_keep; auto.
      - exists i; auto.
      - exists i. split; auto. unfold fupd. destruct (Z.eqb_spec v v0); [subst; contradiction|auto].
      - eexists; split; [apply UP; eassumption|]. destruct (Z.eqb_spec v v0); simpl; auto. unfold fupd.
        destruct (Z.eqb_spec k i0); auto. subst. destruct F1; contradiction.
      - exists i; auto. }
    destruct ST as [i1 [S1 [S2 S3]]]. destruct (proj2 (IH v i1 _ S1 k) F2) as [i2 [T1 [T2 T3]]]. exists i2. rewrite T2, T3. auto.
Qed.

Lemma effects_app : forall os os' a, effects (os ++ os') a = effects os' (effects os a).
Proof. induction os; intros; simpl; auto. Qed.
Lemma accepted_app : forall os os' a, accepted (os ++ os') a -> accepted os a /\ accepted os' (effects os a).
Proof.
  induction os as [|x os IH]; intros os' a H; simpl in *; auto. destruct H as [H1 [H2 H3]]. destruct (IH _ _ H3). auto.
Qed.

Theorem lower_bound_last_set : forall o os v k x os' s, o_nochecks o = false ->
  accepted (os ++ OSetLower v (Z.of_nat k) x :: os') empty_spec -> Forall (keeps_lower v (Z.of_nat k)) os' ->
  run (os ++ OSetLower v (Z.of_nat k) x :: os') (new_problem o) = Ok s ->
  exists y, get_lower v k s = Ok y /\ reports_lo x y.
Proof.
  intros o os v k x os' s NC AC KP E. destruct (reach o _ s NC AC E) as [I [R O]].
  apply accepted_app in AC. destruct AC as [_ AC]. simpl in AC. destruct AC as [SN [[i [A1 A2]] _]].
  rewrite effects_app in R. cbn [ProblemSpec.effects] in R.
  assert (Q : a_par (effect (OSetLower v (Z.of_nat k) x) (effects os empty_spec)) v = Some (mkI (i_size i) (i_const i) (i_man i) (fupd (Z.of_nat k) x (i_lo i)) (i_hi i))).
  { simpl. unfold upd_par. rewrite A1. simpl. unfold fupd. rewrite Z.eqb_refl. auto. }
  destruct (proj1 (effects_keep os' v _ _ Q (Z.of_nat k)) KP) as [i' [T1 [T2 T3]]]. simpl in T2, T3. unfold fupd in T3. rewrite Z.eqb_refl in T3.
  destruct (accessors_ok mf_tan s _ v i' I R T1) as [_ [_ [_ [_ B]]]]. destruct (B k ltac:(lia)) as [y [z [B1 [B2 _]]]]. rewrite T3 in B2. eauto.
Qed.

Theorem upper_bound_last_set : forall o os v k x os' s, o_nochecks o = false ->
  accepted (os ++ OSetUpper v (Z.of_nat k) x :: os') empty_spec -> Forall (keeps_upper v (Z.of_nat k)) os' ->
  run (os ++ OSetUpper v (Z.of_nat k) x :: os') (new_problem o) = Ok s ->
  exists y, get_upper v k s = Ok y /\ reports_hi x y.
Proof.
  intros o os v k x os' s NC AC KP E. destruct (reach o _ s NC AC E) as [I [R O]].
  apply accepted_app in AC. destruct AC as [_ AC]. simpl in AC. destruct AC as [SN [[i [A1 A2]] _]].
  rewrite effects_app in R. cbn [ProblemSpec.effects] in R.
  assert (Q : a_par (effect (OSetUpper v (Z.of_nat k) x) (effects os empty_spec)) v = Some (mkI (i_size i) (i_const i) (i_man i) (i_lo i) (fupd (Z.of_nat k) x (i_hi i)))).
  { simpl. unfold upd_par. rewrite A1. simpl. unfold fupd. rewrite Z.eqb_refl. auto. }
  destruct (proj2 (effects_keep os' v _ _ Q (Z.of_nat k)) KP) as [i' [T1 [T2 T3]]]. simpl in T2, T3. unfold fupd in T3. rewrite Z.eqb_refl in T3.
  destruct (accessors_ok mf_tan s _ v i' I R T1) as [_ [_ [_ [_ B]]]]. destruct (B k ltac:(lia)) as [y [z [_ [_ [B1 B2]]]]]. rewrite T3 in B2. eauto.
Qed.

(** C07. A block just added (not present before), whose coordinate was never
    given a bound, reports -/+ DBL_MAX. *)
Theorem default_bounds : forall o os v n os' s k, o_nochecks o = false ->
  accepted (os ++ OAddParameter v n :: os') empty_spec -> a_par (effects os empty_spec) v = None ->
  Z.of_nat k < n -> run (os ++ OAddParameter v n :: os') (new_problem o) = Ok s ->
  (Forall (keeps_lower v (Z.of_nat k)) os' -> get_lower v k s = Ok DBL_LOWEST) /\
  (Forall (keeps_upper v (Z.of_nat k)) os' -> get_upper v k s = Ok DBL_MAX).
Proof.
  intros o os v n os' s k NC AC NW HK E. destruct (reach o _ s NC AC E) as [I [R O]].
  rewrite effects_app in R. cbn [ProblemSpec.effects] in R.
  assert (Q : a_par (effect (OAddParameter v n) (effects os empty_spec)) v = Some (fresh_info n)).
  { simpl. unfold add1. rewrite NW. simpl. unfold fupd. rewrite Z.eqb_refl. auto. }
  split; intros KP.
  - destruct (proj1 (effects_keep os' v _ _ Q (Z.of_nat k)) KP) as [i' [T1 [T2 T3]]]. simpl in T2, T3.
    destruct (accessors_ok mf_tan s _ v i' I R T1) as [_ [_ [_ [_ B]]]]. destruct (B k ltac:(lia)) as [y [z [B1 [B2 _]]]]. rewrite T3 in B2.
    rewrite B1. destruct B2 as [->|[_ ->]]; auto.
  - destruct (proj2 (effects_keep os' v _ _ Q (Z.of_nat k)) KP) as [i' [T1 [T2 T3]]]. simpl in T2, T3.
    destruct (accessors_ok mf_tan s _ v i' I R T1) as [_ [_ [_ [_ B]]]]. destruct (B k ltac:(lia)) as [y [z [_ [_ [B1 B2]]]]]. rewrite T3 in B2.
    rewrite B1. destruct B2 as [->|[_ ->]]; auto.
Qed.

(** C07. Whatever finite point [xs] the step of a block leads to, the point
    stored is coordinate by coordinate the nearest point of the box reported by
    GetParameterLowerBound/UpperBound (when it is not empty). *)
Theorem update_lands_in_box : forall o os s, o_nochecks o = false -> accepted os empty_spec -> run os (new_problem o) = Ok s ->
  forall v p b xs, find_block v s = Ok (p, b) -> Z.of_nat (length xs) = b_size b ->
  exists ys, project b xs = Some ys /\ length ys = length xs /\
    forall k x lo hi, nth_error xs k = Some (Fin x) -> is_dbl (Fin x) ->
      get_lower v k s = Ok lo -> get_upper v k s = Ok hi -> dle lo hi = true ->
      exists y, nth_error ys k = Some y /\ dle lo y = true /\ dle y hi = true /\
        (dle lo (Fin x) = true -> dle (Fin x) hi = true -> y = Fin x) /\
        (dlt (Fin x) lo = true -> y = lo) /\ (dlt hi (Fin x) = true -> y = hi).
Proof.
  intros o os s NC AC E v p b xs FB LEN. destruct (reach o os s NC AC E) as [I [R O]].
  pose proof (find_block_find v s p b FB) as B. destruct (i_bl s I p b B) as [_ [L1 L2]].
  destruct (project_ok (b_lo b) (b_hi b) (Z.to_nat (b_size b)) xs 0 L1 L2 ltac:(simpl; lia)) as [ys [P1 [P2 P3]]].
  exists ys. split; [exact P1|]. split; auto. intros k x lo hi Hx Hd Hlo Hhi LE.
  destruct (P3 k (Fin x) Hx) as [y [Y1 Y2]]. exists y. split; auto.
  assert (KL : (k < Z.to_nat (b_size b))%nat). { assert ((k < length xs)%nat) by (apply nth_error_Some; congruence). lia. }
  unfold get_lower, get_upper in *. rewrite FB in *. cbn [bind] in *. unfold pb_lower, pb_upper in *.
  assert (EL : (match b_lo b with None => DBL_LOWEST | Some l => nth (0 + k) l NaN end) = lo).
  { destruct (b_lo b) as [l|]; [|inversion Hlo; auto]. simpl. destruct (nth_error l k) as [z|] eqn:Z1; [|discriminate]. inversion Hlo; subst.
    apply nth_error_nth; auto. }
  assert (EH : (match b_hi b with None => DBL_MAX | Some l => nth (0 + k) l NaN end) = hi).
  { destruct (b_hi b) as [l|]; [|inversion Hhi; auto]. simpl. destruct (nth_error l k) as [z|] eqn:Z1; [|discriminate]. inversion Hhi; subst.
    apply nth_error_nth; auto. }
  rewrite EL, EH in Y2. cbv zeta in Y2. apply Y2; auto; discriminate.
Qed.
End Props.
Print Assumptions problem_refines.
Print Assumptions problem_rejects.
Print Assumptions remove_parameter_exact.
Print Assumptions remove_residual_exact.
Print Assumptions running_is_accepted.
Print Assumptions fast_removal_equivalent.
Print Assumptions ownership_exactly_once.
Print Assumptions blocks_disjoint.
Print Assumptions overlap_rejected.
Print Assumptions size_change_rejected.
Print Assumptions evaluate_keeps_constness.
Print Assumptions evaluate_restores.
Print Assumptions lower_bound_last_set.
Print Assumptions upper_bound_last_set.
Print Assumptions default_bounds.
Print Assumptions update_lands_in_box.

(** ** Concrete cases *)
(* cost functions 50: blocks of size 1 and 2; 51: size 2; manifolds: ambient 2, tangent 1 *)
Definition ex_sizes (c : Z) : list Z := if c =? 50 then [1; 2] else if c =? 51 then [2] else [].
Definition ex_amb (m : Z) : Z := 2.
Definition ex_tan (m : Z) : Z := 1.
Definition ex_order (l : list Z) : list Z := rev l.
Lemma ex_perm : forall l, Permutation (ex_order l) l.
Proof. intros l. apply Permutation_sym, Permutation_rev. Qed.
Definition ex_opts : options := mkOpts true false true true true.
Notation ex_run := (run ex_sizes ex_amb ex_tan ex_order).

(* blocks at 100 (size 1), 200 (size 2), 300 (size 2); three residual blocks
   sharing cost function 51 and loss function 60 *)
Definition ex_history : list op :=
  [OAddParameter 100 1; OAddResidual 1 50 0 [100; 200]; OAddResidual 2 51 60 [200]; OAddResidual 3 51 60 [300];
   OSetManifold 300 70 true; OSetConstant 100; OSetLower 200 1 (Fin 5); OSetUpper 200 1 (Fin 9);
   OEvaluate (fun _ => true) (fun _ _ => false) [3; 1] [200; 100]].
Definition ex_state : problem := match ex_run ex_history (new_problem ex_opts) with Ok s => s | _ => new_problem ex_opts end.

Lemma ex_runs : ex_run ex_history (new_problem ex_opts) = Ok ex_state.
Proof. vm_compute. reflexivity. Qed.
Lemma ex_sane : sane_history ex_sizes ex_amb ex_tan ex_history empty_spec.
Proof.
  unfold ex_history. cbn [sane_history sane]. repeat match goal with
  | |- _ /\ _ => split
  | |- _ -> _ => intros
  | |- True => exact I
  | |- _ <> _ => vm_compute; congruence
  | |- _ = None => vm_compute; reflexivity
  | |- _ <= _ => lia
  end.
  all: match goal with H : In _ _ |- _ => destruct H as [<-|[<-|[]]]; vm_compute; congruence end.
Qed.
Lemma ex_accepted : accepted ex_sizes ex_amb ex_tan ex_history empty_spec.
Proof. exact (running_is_accepted ex_sizes ex_amb ex_tan ex_order ex_perm ex_opts ex_history ex_state eq_refl ex_sane ex_runs). Qed.

Example problem_refines_case :
  accepted ex_sizes ex_amb ex_tan ex_history empty_spec /\
  get_parameter_blocks ex_state = [100; 200; 300] /\ get_residual_blocks ex_state = [1; 2; 3] /\
  get_residual 1 ex_state = Ok (50, 0, [100; 200]) /\ get_constant ex_tan 100 ex_state = Ok true /\
  get_tangent_size ex_tan 300 ex_state = Ok 1.
Proof. split; [exact ex_accepted|]. vm_compute. auto 10. Qed.

Example problem_rejects_case :
  step ex_sizes ex_amb ex_tan ex_order (OAddResidual 4 50 0 [100; 300]) ex_state <> Abort /\
  step ex_sizes ex_amb ex_tan ex_order (OAddResidual 4 50 0 [100; 100]) ex_state = Abort /\
  step ex_sizes ex_amb ex_tan ex_order (ORemoveParameter 400) ex_state = Abort.
Proof. split; [vm_compute; congruence|]. vm_compute. auto. Qed.

Example remove_parameter_exact_case : In 200 (get_parameter_blocks ex_state) /\
  exists s', step ex_sizes ex_amb ex_tan ex_order (ORemoveParameter 200) ex_state = Ok s' /\
    get_residual_blocks s' = [3] /\ get_parameter_blocks s' = [100; 300].
Proof. split; [vm_compute; auto|]. eexists. split; [vm_compute; reflexivity|]. vm_compute. auto. Qed.

Example remove_residual_exact_case : In 1 (get_residual_blocks ex_state) /\
  exists s', step ex_sizes ex_amb ex_tan ex_order (ORemoveResidual 1) ex_state = Ok s' /\ get_residual_blocks s' = [3; 2].
Proof. split; [vm_compute; auto|]. eexists. split; [vm_compute; reflexivity|]. vm_compute. auto. Qed.

(* the orders do differ between the two modes *)
Example fast_removal_equivalent_case :
  let os := ex_history ++ [OAddResidual 4 51 60 [200]; ORemoveParameter 200] in
  sane_history ex_sizes ex_amb ex_tan ex_history empty_spec /\
  (match ex_run (os ++ [OAddResidual 5 51 0 [300]]) (new_problem (fast ex_opts)) with Ok s => get_residual_blocks s | _ => [] end) = [3; 5] /\
  (match ex_run (os ++ [OAddResidual 5 51 0 [300]]) (new_problem (slow ex_opts)) with Ok s => get_residual_blocks s | _ => [] end) = [3; 5].
Proof. split; [exact ex_sane|]. vm_compute. auto. Qed.

Example ownership_exactly_once_case :
  no_reuse ex_sizes [] [] (ex_history ++ [ORemoveParameter 200]) empty_spec /\
  exists s, ex_run (ex_history ++ [ORemoveParameter 200]) (new_problem ex_opts) = Ok s /\
    p_log s = [FCost 50] /\ destroy s = [FCost 50; FCost 51; FLoss 60; FManifold 70].
Proof.
  split.
  - cbn [no_reuse ex_history app cost_given loss_given Z.eqb].
    repeat match goal with
    | |- _ /\ _ => split
    | |- True => exact I
    | |- forall c, In c [] -> _ => intros c []
    | |- forall c, In c [_] -> In c [] -> _ => intros c _ []
    end.
    all: intros c H1 H2; simpl in H1; try contradiction; destruct H1 as [<-|[]].
    + exfalso. simpl in H2. destruct H2 as [H2|[]]; discriminate.
    + exists 2, 60, [200]. vm_compute. reflexivity.
    + split; [discriminate|]. exists 2, 51, [200]. vm_compute. reflexivity.
  - eexists. split; [vm_compute; reflexivity|]. vm_compute. auto.
Qed.

Example overlap_rejected_case :
  get_size 200 ex_state = Ok 2 /\ step ex_sizes ex_amb ex_tan ex_order (OAddParameter 199 2) ex_state = Abort /\
  step ex_sizes ex_amb ex_tan ex_order (OAddParameter 201 1) ex_state = Abort /\
  step ex_sizes ex_amb ex_tan ex_order (OAddParameter 202 1) ex_state <> Abort /\
  step ex_sizes ex_amb ex_tan ex_order (OAddParameter 200 3) ex_state = Abort.
Proof. repeat split; try (vm_compute; congruence). Qed.

Example evaluate_case :
  incl [2] (get_residual_blocks ex_state) /\ incl [300] (get_parameter_blocks ex_state) /\
  exists s2 ps, evaluate ex_tan (fun _ => true) (fun s l => match get_constant ex_tan 200 s, get_constant ex_tan 300 s with Ok true, Ok false => true | _, _ => false end)
     [2] [300] ex_state = Ok (s2, ps) /\ ps = true /\ s2 = ex_state.
Proof. split; [intros x [<-|[]]; vm_compute; auto|]. split; [intros x [<-|[]]; vm_compute; auto|]. eexists. eexists. split; [vm_compute; reflexivity|]. split; reflexivity. Qed.

(** C06, what fails without that hypothesis: when the Plus Jacobian of an
    excluded block [X] fails, Evaluate({B}) succeeds but leaves the state
    pointer of [B] at the evaluation's temporary vector (freed on return).
    SetParameterBlockStatePtrsToUserStatePtrs stops at the first failure
    (program.cc:104-112) and its result is ignored (problem_impl.cc:741). *)
Theorem evaluate_state_pointer_refuted :
  exists os s jac eval vs s' p b,
    accepted ex_sizes ex_amb ex_tan os empty_spec /\ ex_run os (new_problem ex_opts) = Ok s /\
    incl vs (get_parameter_blocks s) /\
    evaluate ex_tan jac eval [] vs s = Ok (s', true) /\
    find_block 300 s' = Ok (p, b) /\ b_const b = false /\ b_user b = false /\ s' <> s.
Proof.
  set (os := [OAddParameterManifold 200 2 70 true; OAddParameter 300 1]).
  destruct (ex_run os (new_problem ex_opts)) as [s| | |] eqn:E; try (vm_compute in E; discriminate).
  exists os, s, (fun a => negb (a =? 200)), (fun _ _ => true), [300]. vm_compute in E. inversion E; subst s; clear E.
  eexists. eexists. eexists. split.
  { eapply (running_is_accepted ex_sizes ex_amb ex_tan ex_order ex_perm ex_opts os _ eq_refl); [cbn; tauto|vm_compute; reflexivity]. }
  split; [reflexivity|]. split; [intros x [<-|[]]; vm_compute; auto|].
  split; [vm_compute; reflexivity|]. split; [vm_compute; reflexivity|]. split; [reflexivity|]. split; [reflexivity|]. discriminate.
Qed.
Print Assumptions evaluate_state_pointer_refuted.

Example bounds_case :
  get_lower 200 1 ex_state = Ok (Fin 5) /\ get_upper 200 1 ex_state = Ok (Fin 9) /\ get_lower 200 0 ex_state = Ok DBL_LOWEST /\
  (match find_block 200 ex_state with Ok (_, b) => project b [Fin 12; Fin 12] | _ => None end) = Some [Fin 12; Fin 9].
Proof. vm_compute. auto. Qed.

(** C07, not checked by the library: a negative coordinate is an out of bounds
    write (parameter_block.h:191-223 only checks [index < size_]). *)
Theorem negative_bound_index_refuted :
  exists os s, accepted ex_sizes ex_amb ex_tan os empty_spec /\ ex_run os (new_problem ex_opts) = Ok s /\
    step ex_sizes ex_amb ex_tan ex_order (OSetLower 200 (-1) (Fin 0)) s = Crash.
Proof. exists ex_history, ex_state. split; [exact ex_accepted|]. split; [exact ex_runs|]. vm_compute. reflexivity. Qed.
Print Assumptions negative_bound_index_refuted.
