(** Observers of a state related to a specification, and comparison of the two
    removal modes. *)
Require Import ZArith List Lia Bool Permutation Sorted.
From Verif Require Import ZMap Dbl ProblemModel ProblemSpec ProblemProofs1 ProblemProofs2 ProblemProofs3 ProblemProofs4 ProblemProofs5 ProblemProofs6 ProblemProofs7 ProblemProofs8 ProblemProofs9.
Import ListNotations.
Open Scope Z_scope.

Lemma nfreed_app : forall x l l', nfreed x (l ++ l') = (nfreed x l + nfreed x l')%nat.
Proof. intros. apply count_occ_app. Qed.

Lemma sorted_ext : forall l l' : list Z, StronglySorted Z.lt l -> StronglySorted Z.lt l' -> (forall x, In x l <-> In x l') -> l = l'.
Proof.
  induction l as [|x l IH]; intros [|y l'] S S' H; auto.
  - exfalso. apply (proj2 (H y)); simpl; auto.
  - exfalso. apply (proj1 (H x)); simpl; auto.
  - apply StronglySorted_inv in S. apply StronglySorted_inv in S'. destruct S as [S F], S' as [S' F'].
    rewrite Forall_forall in F, F'.
    assert (x = y).
    { destruct (proj1 (H x) (or_introl eq_refl)) as [E|E]; [auto|]. destruct (proj2 (H y) (or_introl eq_refl)) as [E'|E']; [auto|].
      specialize (F _ E'). specialize (F' _ E). lia. }
    subst y. f_equal. apply IH; auto. intros z. split; intros Hz.
    + destruct (proj1 (H z) (or_intror Hz)); auto. subst. specialize (F _ Hz). lia.
    + destruct (proj2 (H z) (or_intror Hz)); auto. subst. specialize (F' _ Hz). lia.
Qed.

Lemma zfind_none_not : forall A (m : zmap A) k, zfind k m <> None <-> In k (zkeys m).
Proof.
  intros A m k. split.
  - destruct (zfind k m) eqn:E; [|congruence]. intros _. eapply zfind_in_keys; eauto.
  - intros H E. apply zfind_none_keys in E. contradiction.
Qed.
Arguments zfind_none_not {A}.

Lemma par_live : forall s a v, Inv s -> Rel s a -> (In v (get_parameter_blocks s) <-> a_par a v <> None).
Proof.
  intros s a v I R. unfold get_parameter_blocks. rewrite <- (rel_par_none s a v R), (view_none s v I).
  destruct (zfind v (p_pmap s)) eqn:E.
  - split; [congruence|]. intros _. eapply zfind_in_keys; eauto.
  - split; [|congruence]. intros H _. apply zfind_none_keys in E; auto.
Qed.

Lemma res_live : forall s a r, Inv s -> Rel s a -> (In r (get_residual_blocks s) <-> a_res a r <> None).
Proof.
  intros s a r I R. unfold get_residual_blocks. rewrite (live_iff s r I), (rel_res_none s a r R). tauto.
Qed.

Lemma num_par : forall s, Inv s -> num_parameter_blocks s = Z.of_nat (length (get_parameter_blocks s)).
Proof.
  intros s I. unfold num_parameter_blocks, get_parameter_blocks. rewrite <- (Permutation_length (blocks_perm s I)), map_length. auto.
Qed.

Lemma get_residual_ok : forall s a r e, Inv s -> Rel s a -> a_res a r = Some e -> get_residual r s = Ok e.
Proof.
  intros s a r e I R E. unfold get_residual. pose proof (proj2 R r) as Q. rewrite E in Q. unfold rview in Q.
  destruct (zfind r (p_rheap s)) as [rb|] eqn:F; [|discriminate]. cbn [deref bind].
  rewrite user_states_ok by apply (i_rp s I r rb F). cbn [deref bind]. congruence.
Qed.

Section Rep.
Variables (cf_sizes : Z -> list Z) (mf_amb mf_tan : Z -> Z) (hash_order : list Z -> list Z).
Hypothesis Hperm : forall l, Permutation (hash_order l) l.
Notation step := (step cf_sizes mf_amb mf_tan hash_order).
Notation run := (run cf_sizes mf_amb mf_tan hash_order).
Notation allows := (allows cf_sizes mf_amb mf_tan).
Notation effect := (effect cf_sizes).
Notation effects := (effects cf_sizes).

Lemma accessors_ok : forall s a v i, Inv s -> Rel s a -> a_par a v = Some i ->
  get_size v s = Ok (i_size i) /\
  get_tangent_size mf_tan v s = Ok (if i_man i =? 0 then i_size i else mf_tan (i_man i)) /\
  get_constant mf_tan v s = Ok (i_const i || ((if i_man i =? 0 then i_size i else mf_tan (i_man i)) =? 0)) /\
  get_manifold v s = Ok (i_man i) /\
  forall k, (Z.of_nat k < i_size i) -> exists y z, get_lower v k s = Ok y /\ reports_lo (i_lo i (Z.of_nat k)) y /\
                                            get_upper v k s = Ok z /\ reports_hi (i_hi i (Z.of_nat k)) z.
Proof.
  intros s a v i I R E. pose proof (find_block_ok s a v I R) as F.
  unfold get_size, get_tangent_size, get_constant, get_manifold, get_lower, get_upper, is_constant, tangent_size.
  destruct (find_block v s) as [[p b]| | |]; try contradiction; [|congruence].
  cbn [bind]. destruct F as [B1 [B2 [i' [A [P1 [P2 [P3 P4]]]]]]]. assert (i' = i) by congruence. subst i'.
  rewrite P1, P2, P3. split; [|split; [|split; [|split]]]; auto.
  intros k Hk. destruct (P4 (Z.of_nat k) ltac:(lia)) as [Q1 Q2].
  destruct (i_bl s I p b B1) as [_ [L1 L2]].
  exists (lo_at b (Z.of_nat k)), (hi_at b (Z.of_nat k)). unfold lo_at, hi_at, pb_lower, pb_upper in *. rewrite Nat2Z.id in *.
  split; [|split; [auto|split; [|auto]]].
  - destruct (b_lo b) as [l|]; [|auto]. rewrite (nth_error_nth' l NaN); auto. rewrite (L1 l); auto. lia.
  - destruct (b_hi b) as [l|]; [|auto]. rewrite (nth_error_nth' l NaN); auto. rewrite (L2 l); auto. lia.
Qed.

Lemma accessors_abort : forall s a v, Inv s -> Rel s a -> a_par a v = None ->
  get_size v s = Abort /\ get_tangent_size mf_tan v s = Abort /\ get_constant mf_tan v s = Abort /\ get_manifold v s = Abort /\
  (forall k, get_lower v k s = Abort /\ get_upper v k s = Abort) /\ get_residuals_for hash_order v s = Abort.
Proof.
  intros s a v I R E. pose proof (find_block_ok s a v I R) as F.
  unfold get_size, get_tangent_size, get_constant, get_manifold, get_lower, get_upper, get_residuals_for.
  destruct (find_block v s) as [[p b]| | |]; try contradiction; [|auto 10].
  destruct F as [_ [_ [i [A _]]]]. congruence.
Qed.

(** ** The two removal modes *)
Definition both (s1 s2 : problem) (a : pspec) : Prop :=
  Inv s1 /\ Inv s2 /\ Rel s1 a /\ Rel s2 a /\
  o_nochecks (p_opts s1) = false /\ o_nochecks (p_opts s2) = false /\
  o_cost_own (p_opts s1) = o_cost_own (p_opts s2) /\ o_loss_own (p_opts s1) = o_loss_own (p_opts s2) /\ o_man_own (p_opts s1) = o_man_own (p_opts s2) /\
  p_mdel s1 = p_mdel s2 /\ forall x, nfreed x (p_log s1) = nfreed x (p_log s2).

Lemma dies_iff : forall own n0 n1 m0 m1, ((0 < n0)%nat <-> (0 < m0)%nat) -> ((0 < n1)%nat <-> (0 < m1)%nat) -> dies own n0 n1 = dies own m0 m1.
Proof.
  intros own n0 n1 m0 m1 H1 H2. unfold dies. destruct own; auto.
  destruct (Nat.ltb_spec 0 n0), (Nat.ltb_spec 0 m0), (Nat.eqb_spec n1 0), (Nat.eqb_spec m1 0); auto; lia.
Qed.

Lemma both_step : forall o s1 s2 a, both s1 s2 a -> sane o a ->
  match step o s1, step o s2 with
  | Ok t1, Ok t2 => allows o a /\ both t1 t2 (effect o a) /\ p_opts t1 = p_opts s1 /\ p_opts t2 = p_opts s2
  | Abort, Abort => ~ allows o a
  | _, _ => False
  end.
Proof.
  intros o s1 s2 a [I1 [I2 [R1 [R2 [N1 [N2 [C1 [C2 [C3 [MD LG]]]]]]]]]] SN.
  pose proof (step_ok cf_sizes mf_amb mf_tan hash_order Hperm o s1 a I1 R1 N1 SN) as K1.
  pose proof (step_ok cf_sizes mf_amb mf_tan hash_order Hperm o s2 a I2 R2 N2 SN) as K2.
  destruct (step o s1) as [t1| | |], (step o s2) as [t2| | |]; try contradiction; try tauto.
  destruct K1 as [A1 [J1 [S1 [O1 [[f1 [F1 [FC1 [FL1 FM1]]]] M1]]]]]. destruct K2 as [A2 [J2 [S2 [O2 [[f2 [F2 [FC2 [FL2 FM2]]]] M2]]]]].
  split; auto. split; [|auto]. unfold both. rewrite O1, O2. split; auto. split; auto. split; auto. split; auto. split; auto.
  split; auto. split; auto. split; auto. split; auto. split; [rewrite M1, M2, C3, MD; auto|].
  intros x. rewrite F1, F2. rewrite !nfreed_app, LG. f_equal. destruct x as [c|l|m].
  - rewrite FC1, FC2, C1. apply dies_iff.
    + rewrite (ncost_uses s1 a c), (ncost_uses s2 a c); tauto.
    + rewrite (ncost_uses t1 _ c J1 S1), (ncost_uses t2 _ c J2 S2); tauto.
  - rewrite FL1, FL2, C2. apply dies_iff.
    + rewrite (nloss_uses s1 a l), (nloss_uses s2 a l); tauto.
    + rewrite (nloss_uses t1 _ l J1 S1), (nloss_uses t2 _ l J2 S2); tauto.
  - rewrite FM1, FM2. auto.
Qed.

Lemma both_observe : forall s1 s2 a, both s1 s2 a ->
  get_parameter_blocks s1 = get_parameter_blocks s2 /\
  Permutation (get_residual_blocks s1) (get_residual_blocks s2).
Proof.
  intros s1 s2 a [I1 [I2 [R1 [R2 _]]]]. split.
  - assert (E : forall v, In v (get_parameter_blocks s1) <-> In v (get_parameter_blocks s2))
     by (intros v; rewrite (par_live s1 a v), (par_live s2 a v); tauto).
    apply sorted_ext; [exact (i_sm s1 I1)|exact (i_sm s2 I2)|exact E].
  - apply NoDup_Permutation.
    + eapply indexed_nodup; exact (i_rv s1 I1).
    + eapply indexed_nodup; exact (i_rv s2 I2).
    + intros r. rewrite (res_live s1 a r), (res_live s2 a r); tauto.
Qed.
End Rep.
