(** What the observers report, state pointers over histories, projection. *)
Require Import ZArith List Lia Bool Permutation.
From Verif Require Import ZMap Dbl ProblemModel ProblemSpec ProblemProofs1 ProblemProofs2 ProblemProofs3 ProblemProofs4 ProblemProofs5 ProblemProofs6 ProblemProofs7 ProblemProofs8.
Import ListNotations.
Open Scope Z_scope.

Section Obs.
Variables (cf_sizes : Z -> list Z) (mf_amb mf_tan : Z -> Z) (hash_order : list Z -> list Z).
Hypothesis Hperm : forall l, Permutation (hash_order l) l.

Lemma blocks_perm : forall s, Inv s -> Permutation (map (addr_of s) (p_pvec s)) (zkeys (p_pmap s)).
Proof.
  intros s I. apply NoDup_Permutation.
  - assert (ND : NoDup (p_pvec s)) by (eapply indexed_nodup; exact (i_pv s I)).
    assert (LV : forall p, In p (p_pvec s) -> zfind p (p_pheap s) <> None) by (intros p; apply plive_iff; auto).
    induction (p_pvec s) as [|p ps IH]; simpl; constructor.
    + inversion ND as [|? ? NI ND']; subst. intros H. apply in_map_iff in H. destruct H as [q [H1 H2]].
      pose proof (LV p (or_introl eq_refl)) as P1. pose proof (LV q (or_intror H2)) as P2. unfold addr_of in H1.
      destruct (zfind p (p_pheap s)) as [b|] eqn:B; [|congruence]. destruct (zfind q (p_pheap s)) as [c|] eqn:C; [|congruence].
      destruct (addr_unique s p b q c I B C (eq_sym H1)). subst. contradiction.
    + inversion ND; subst. apply IH; auto with datatypes.
  - apply zsorted_nodup. exact (i_sm s I).
  - intros v. split.
    + intros H. apply in_map_iff in H. destruct H as [p [H1 H2]]. apply plive_iff in H2; auto. unfold addr_of in H1.
      destruct (zfind p (p_pheap s)) as [b|] eqn:B; [|congruence].
      assert (zfind v (p_pmap s) = Some p) by (apply (i_pm s I); eauto). eapply zfind_in_keys; eauto.
    + intros H. apply zfind_some_keys in H. destruct H as [p H]. apply (i_pm s I) in H. destruct H as [b [B1 B2]].
      apply in_map_iff. exists p. split; [unfold addr_of; rewrite B1; auto|]. apply plive_iff; auto. congruence.
Qed.

Lemma user_states_ok : forall s ps, (forall p, In p ps -> zfind p (p_pheap s) <> None) -> user_states ps s = Some (map (addr_of s) ps).
Proof.
  intros s ps; unfold user_states; induction ps as [|p ps IH]; simpl; auto. intros H. rewrite IH by auto.
  unfold addr_of. destruct (zfind p (p_pheap s)) eqn:E; auto. exfalso. exact (H p (or_introl eq_refl) E).
Qed.

Lemma scan_uses_ok : forall s p rs, Inv s -> (forall r, In r rs -> zfind r (p_rheap s) <> None) ->
  scan_uses p rs s = Ok (filter (uses p s) rs).
Proof.
  intros s p rs I; induction rs as [|r rs IH]; intros H; simpl; auto.
  destruct (zfind r (p_rheap s)) as [rb|] eqn:E; [|exfalso; exact (H r (or_introl eq_refl) E)].
  cbn [deref bind]. rewrite IH by auto with datatypes. cbn [bind]. assert (U : uses p s r = existsb (Z.eqb p) (r_params rb)) by (unfold uses; rewrite E; auto). rewrite U.
  destruct (existsb (Z.eqb p) (r_params rb)); auto.
Qed.

Lemma get_residuals_for_ok : forall s a v, Inv s -> Rel s a -> a_par a v <> None ->
  exists l, get_residuals_for hash_order v s = Ok l /\ NoDup l /\
    forall r, In r l <-> exists c lo vs, a_res a r = Some (c, lo, vs) /\ In v vs.
Proof.
  intros s a v I R HV. unfold get_residuals_for. pose proof (find_block_ok s a v I R) as F.
  destruct (find_block v s) as [[p b]| | |]; try contradiction. cbn [bind]. destruct F as [B1 [B2 _]].
  assert (U : forall r, uses p s r = true <-> exists c lo vs, a_res a r = Some (c, lo, vs) /\ In v vs).
  { intros r. pose proof (proj2 R r) as Q. unfold rview in Q. unfold uses. split.
    - destruct (zfind r (p_rheap s)) as [rb|]; [|discriminate]. intros H. apply existsb_eqb in H.
      exists (r_cost rb), (r_loss rb), (map (addr_of s) (r_params rb)). split; auto. apply in_map_iff. exists p. split; auto.
      unfold addr_of. rewrite B1. auto.
    - intros [c [lo [vs [H1 H2]]]]. rewrite H1 in Q. destruct (zfind r (p_rheap s)) as [rb|] eqn:ER; [|discriminate].
      inversion Q; subst. apply existsb_eqb. apply in_map_iff in H2. destruct H2 as [q [H2 H3]].
      destruct (i_rp s I r rb ER) as [_ [_ LV]]. specialize (LV q H3). unfold addr_of in H2.
      destruct (zfind q (p_pheap s)) as [c|] eqn:C; [|congruence]. destruct (addr_unique s p b q c I B1 C (eq_sym H2)). subst. auto. }
  destruct (o_fast (p_opts s)) eqn:OF.
  - pose proof (i_dep s I p b B1) as D. rewrite OF in D. destruct D as [d [D1 [D2 D3]]]. rewrite D1. cbn [deref bind].
    exists (hash_order (zkeys d)). split; auto. split.
    + eapply Permutation_NoDup; [apply Permutation_sym, Hperm|]. apply zsorted_nodup; auto.
    + intros r. rewrite <- U. transitivity (In r (zkeys d)).
      * split; apply Permutation_in; [|apply Permutation_sym]; auto.
      * rewrite D3. unfold uses. split.
        -- intros [rb [H1 H2]]. rewrite H1. apply existsb_eqb; auto.
        -- destruct (zfind r (p_rheap s)) as [rb|]; [|discriminate]. intros H. exists rb. split; auto. apply existsb_eqb; auto.
  - rewrite scan_uses_ok; auto; [|intros r; apply live_iff; auto]. exists (filter (uses p s) (p_rvec s)). split; auto. split.
    + apply NoDup_filter. eapply indexed_nodup; exact (i_rv s I).
    + intros r. rewrite filter_In. rewrite <- U. split; [tauto|]. intros H. split; auto. apply live_iff; auto.
      unfold uses in H. destruct (zfind r (p_rheap s)); [discriminate|discriminate].
Qed.

(** ** State pointers over a history *)
Definition au (s : problem) : Prop := Forall (fun e => b_user (snd e) = true) (p_pheap s).

Lemma forall_zput : forall A (P : Z * A -> Prop) k v m, P (k, v) -> Forall P m -> Forall P (zput k v m).
Proof.
  intros A P k v m H. induction m as [|[k' v'] m IH]; simpl; intros F; [constructor; auto|].
  inversion F; subst. destruct (k <? k'); [constructor; auto|]. destruct (k =? k'); constructor; auto.
Qed.
Lemma forall_zerase : forall A (P : Z * A -> Prop) k m, Forall P m -> Forall P (zerase k m).
Proof.
  intros A P k m. induction m as [|[k' v'] m IH]; simpl; intros F; auto. inversion F; subst. destruct (k =? k'); auto.
Qed.
Lemma au_find : forall s p b, au s -> zfind p (p_pheap s) = Some b -> b_user b = true.
Proof. intros s p b H E. apply zfind_in in E. unfold au in H. rewrite Forall_forall in H. apply (H _ E). Qed.
Lemma au_put : forall s p b b', au s -> zfind p (p_pheap s) = Some b -> b_user b' = b_user b -> au (set_pheap s (zput p b' (p_pheap s))).
Proof.
  intros s p b b' H E U. unfold au. simpl. apply forall_zput; auto. simpl. rewrite U. eapply au_find; eauto.
Qed.

Ltac inv_ok :=
  repeat match goal with
  | H : Ok _ = Ok _ |- _ => inversion H; clear H; subst
  | H : Abort = Ok _ |- _ => discriminate H
  | H : Crash = Ok _ |- _ => discriminate H
  | H : Impossible = Ok _ |- _ => discriminate H
  | H : bind ?x _ = Ok _ |- _ => destruct x eqn:?; cbn [bind] in H; [|discriminate H|discriminate H|discriminate H]
  | H : deref ?x = Ok _ |- _ => destruct x eqn:?; cbn [deref] in H; [|discriminate H]
  | H : check ?x = Ok _ |- _ => destruct x eqn:?; cbn [check] in H; [|discriminate H]
  | H : (let '(_, _) := ?x in _) = Ok _ |- _ => destruct x
  end.

Lemma au_internal_add : forall v z s s' p, au s -> internal_add v z s = Ok (s', p) -> au s'.
Proof.
  intros v z s s' p H E. unfold internal_add in E. inv_ok.
  destruct (zfind v (p_pmap s)) as [q|].
  - destruct (o_nochecks (p_opts s)); inv_ok; auto.
  - inv_ok. unfold au. simpl. apply forall_zput; auto.
Qed.

Lemma au_add_all : forall vs szs s s' ps, au s -> add_all vs szs s = Ok (s', ps) -> au s'.
Proof.
  induction vs as [|v vs IH]; intros [|z szs] s s' ps H E; simpl in E; inv_ok; auto.
  eapply IH; [|eauto]. eapply au_internal_add; eauto.
Qed.

Lemma au_foreach : forall A (f : A -> problem -> res problem) l s s', (forall x s s', au s -> f x s = Ok s' -> au s') ->
  au s -> foreach f l s = Ok s' -> au s'.
Proof.
  intros A f; induction l as [|x l IH]; intros s s' Hf H E; simpl in E; inv_ok; auto. eapply IH; [auto| |eauto]. eauto.
Qed.

Lemma au_heap : forall s s', p_pheap s' = p_pheap s -> au s -> au s'.
Proof. intros s s' E H. unfold au. rewrite E. auto. Qed.

Lemma bind_ok : forall A B (x : res A) (f : A -> res B) y, bind x f = Ok y -> exists z, x = Ok z /\ f z = Ok y.
Proof. intros A B [z| | |] f y H; try discriminate. exists z. auto. Qed.

Lemma au_pb_add : forall r p s s', au s -> pb_add_residual r p s = Ok s' -> au s'.
Proof.
  intros r p s s' H E. unfold pb_add_residual in E. apply bind_ok in E. destruct E as [b [E1 E]].
  destruct (zfind p (p_pheap s)) eqn:F; [|discriminate]. inversion E1; subst.
  destruct (b_deps b); [|discriminate]. inversion E; subst. eapply au_put; eauto.
Qed.
Lemma au_pb_remove : forall r p s s', au s -> pb_remove_residual r p s = Ok s' -> au s'.
Proof.
  intros r p s s' H E. unfold pb_remove_residual in E. apply bind_ok in E. destruct E as [b [E1 E]].
  destruct (zfind p (p_pheap s)) eqn:F; [|discriminate]. inversion E1; subst.
  destruct (b_deps b); [|discriminate]. apply bind_ok in E; destruct E as [u [_ E]]; inversion E; subst. eapply au_put; eauto.
Qed.

Lemma au_add_residual : forall r c l vs s s', au s -> add_residual cf_sizes r c l vs s = Ok s' -> au s'.
Proof.
  intros r c l vs s s' H E. unfold add_residual in E. destruct ((r =? 0) || zmem r (p_rheap s)); [discriminate|].
  apply bind_ok in E. destruct E as [u1 [_ E]]. apply bind_ok in E. destruct E as [u2 [_ E]].
  apply bind_ok in E. destruct E as [u3 [_ E]]. apply bind_ok in E. destruct E as [[s1 ps] [E1 E]].
  apply bind_ok in E. destruct E as [u4 [_ E]]. apply bind_ok in E. destruct E as [s2 [E2 E]].
  apply (au_add_all _ _ _ _ _ H) in E1.
  assert (A2 : au s2).
  { match type of E2 with (if ?c then _ else Ok ?x) = _ => assert (AX : au x) by (eapply au_heap; [|exact E1]; reflexivity); destruct c end.
    - eapply au_foreach; [| |exact E2]; auto. intros; eapply au_pb_add; eauto.
    - inversion E2; subst; auto. }
  inversion E; subst. clear E. eapply au_heap; [|exact A2].
  simpl. destruct (o_fast (p_opts s2)); simpl; destruct (o_cost_own (p_opts s2)); simpl;
    destruct (o_loss_own (p_opts s2) && negb (l =? 0)); auto.
Qed.

Lemma au_delete_residual : forall r s s', au s -> delete_residual r s = Ok s' -> au s'.
Proof.
  intros r s s' H E. unfold delete_residual in E.
  apply bind_ok in E. destruct E as [rb [_ E]]. apply bind_ok in E. destruct E as [s1 [E1 E]].
  apply bind_ok in E. destruct E as [s2 [E2 E]]. inversion E; subst; clear E.
  assert (A1 : p_pheap s1 = p_pheap s).
  { destruct (o_cost_own (p_opts s)); [|inversion E1; auto]. apply bind_ok in E1. destruct E1 as [[m d] [_ E1]].
    inversion E1. destruct d; auto. }
  assert (A2 : p_pheap s2 = p_pheap s1).
  { destruct (o_loss_own (p_opts s1) && negb (r_loss rb =? 0)); [|inversion E2; auto]. apply bind_ok in E2. destruct E2 as [[m d] [_ E2]].
    inversion E2. destruct d; auto. }
  eapply au_heap; [|exact H]. simpl. congruence.
Qed.

Lemma au_internal_remove : forall r s s', au s -> internal_remove_residual r s = Ok s' -> au s'.
Proof.
  intros r s s' H E. unfold internal_remove_residual in E. apply bind_ok in E. destruct E as [s1 [E1 E]].
  assert (A1 : au s1).
  { destruct (o_fast (p_opts s)); [|inversion E1; subst; auto]. apply bind_ok in E1. destruct E1 as [rb [_ E1]].
    apply bind_ok in E1. destruct E1 as [s2 [E2 E1]]. destruct (zsmem r (p_rset s2)); [|discriminate]. inversion E1; subst.
    change (au s2). eapply au_foreach; [|exact H|exact E2]. intros; eapply au_pb_remove; eauto. }
  unfold delete_residual_in_vector in E. apply bind_ok in E. destruct E as [rb [_ E]]. apply bind_ok in E. destruct E as [x [_ E]].
  apply bind_ok in E. destruct E as [u [_ E]]. apply bind_ok in E. destruct E as [tmp [_ E]].
  apply bind_ok in E. destruct E as [tb [_ E]]. apply bind_ok in E. destruct E as [s3 [E3 E]]. inversion E; subst.
  change (au s3). eapply au_delete_residual; [|exact E3]. exact A1.
Qed.

Lemma au_scan : forall p n s s', au s -> scan_remove p n s = Ok s' -> au s'.
Proof.
  intros p; induction n as [|n IH]; intros s s' H E; cbn [scan_remove] in E.
  - inversion E; subst; auto.
  - apply bind_ok in E. destruct E as [r [_ E]]. apply bind_ok in E. destruct E as [rb [_ E]].
    apply bind_ok in E. destruct E as [s1 [E1 E]]. eapply IH; [|exact E].
    destruct (existsb (Z.eqb p) (r_params rb)); [eapply au_internal_remove; eauto|inversion E1; subst; auto].
Qed.

Lemma au_remove_parameter : forall v s s', au s -> remove_parameter hash_order v s = Ok s' -> au s'.
Proof.
  intros v s s' H E. unfold remove_parameter in E. destruct (zfind v (p_pmap s)) as [p|]; [|discriminate].
  apply bind_ok in E. destruct E as [s1 [E1 E]].
  assert (A1 : au s1).
  { destruct (o_fast (p_opts s)).
    - apply bind_ok in E1. destruct E1 as [b [_ E1]]. apply bind_ok in E1. destruct E1 as [d [_ E1]].
      eapply au_foreach; [|exact H|exact E1]. intros; eapply au_internal_remove; eauto.
    - eapply au_scan; eauto. }
  unfold delete_parameter_in_vector in E. apply bind_ok in E. destruct E as [b [_ E]]. apply bind_ok in E. destruct E as [x [_ E]].
  apply bind_ok in E. destruct E as [u [_ E]]. apply bind_ok in E. destruct E as [tmp [_ E]].
  apply bind_ok in E. destruct E as [tb [E2 E]]. apply bind_ok in E. destruct E as [s3 [E3 E]]. inversion E; subst; clear E.
  unfold delete_parameter in E3. apply bind_ok in E3. destruct E3 as [b' [_ E3]]. inversion E3; subst; clear E3.
  unfold au. simpl. apply forall_zerase. apply forall_zput; [|exact A1]. simpl.
  destruct (zfind tmp (p_pheap s1)) eqn:ET; [|discriminate]. simpl in E2. inversion E2; subst. eapply au_find; eauto.
Qed.

Lemma au_iff : forall s, zsorted (p_pheap s) -> (au s <-> all_user s).
Proof.
  intros s Hs. split.
  - intros H q b E. eapply au_find; eauto.
  - intros H. apply Forall_forall. intros [q b] Hin. apply (H q). apply in_zfind; auto.
Qed.

Notation step := (step cf_sizes mf_amb mf_tan hash_order).
Notation run := (run cf_sizes mf_amb mf_tan hash_order).
Notation accepted := (accepted cf_sizes mf_amb mf_tan).

(** Evaluate calls for which every PlusJacobian succeeds, or which use all
    parameter blocks. *)
Definition benign (o : op) : Prop :=
  match o with OEvaluate jac _ _ vs => vs = [] \/ (forall a, jac a = true) | _ => True end.

Lemma find_block_find : forall v s p b, find_block v s = Ok (p, b) -> zfind p (p_pheap s) = Some b.
Proof.
  intros v s p b E. unfold find_block in E. destruct (zfind v (p_pmap s)) as [q|]; [|discriminate].
  apply bind_ok in E. destruct E as [b' [E1 E]]. inversion E; subst. destruct (zfind p (p_pheap s)); inversion E1; auto.
Qed.

Lemma au_set_manifold : forall p m ok s s', au s -> internal_set_manifold mf_amb mf_tan p m ok s = Ok s' -> au s'.
Proof.
  intros p m ok s s' H E. unfold internal_set_manifold in E. apply bind_ok in E. destruct E as [b [E1 E]].
  apply bind_ok in E. destruct E as [b' [E2 E]]. inversion E; subst; clear E.
  set (s0 := if negb (m =? 0) && o_man_own (p_opts s) then set_mdel s (p_mdel s ++ [m]) else s) in *.
  assert (A0 : au s0) by (unfold s0; destruct (negb (m =? 0) && o_man_own (p_opts s)); auto).
  destruct (zfind p (p_pheap s0)) eqn:EZ; [|discriminate]. inversion E1; subst.
  eapply au_put; eauto. unfold pb_set_manifold in E2. destruct (m =? b_man b); [inversion E2; auto|].
  destruct (m =? 0); [inversion E2; auto|]. inv_ok. auto.
Qed.

Lemma au_step : forall o s a s', Inv s -> Rel s a -> sane o a -> benign o -> au s -> step o s = Ok s' -> au s'.
Proof.
  intros o s a s' I R SN BN H E. destruct o; cbn [ProblemModel.step] in E.
  - unfold add_parameter in E. apply bind_ok in E. destruct E as [[s1 p] [E1 E]]. inversion E; subst. eapply au_internal_add; eauto.
  - unfold add_parameter_manifold in E. apply bind_ok in E. destruct E as [[s1 p] [E1 E]].
    eapply au_set_manifold; [|exact E]. eapply au_internal_add; eauto.
  - eapply au_add_residual; eauto.
  - unfold remove_residual in E. apply bind_ok in E. destruct E as [u [_ E]]. apply bind_ok in E. destruct E as [u2 [_ E]].
    eapply au_internal_remove; eauto.
  - eapply au_remove_parameter; eauto.
  - unfold set_constant in E. apply bind_ok in E. destruct E as [[p b] [E1 E]]. inversion E; subst.
    apply find_block_find in E1. eapply au_put; eauto.
  - unfold set_constant in E. apply bind_ok in E. destruct E as [[p b] [E1 E]]. inversion E; subst.
    apply find_block_find in E1. eapply au_put; eauto.
  - unfold set_manifold in E. apply bind_ok in E. destruct E as [[p b] [E1 E]]. eapply au_set_manifold; eauto.
  - unfold set_lower in E. apply bind_ok in E. destruct E as [[p b] [E1 E]]. apply bind_ok in E. destruct E as [b' [E2 E]]. inversion E; subst.
    apply find_block_find in E1. eapply au_put; eauto. unfold pb_set_lower in E2. apply bind_ok in E2. destruct E2 as [u [_ E2]].
    destruct (b_lo b); [|destruct (dle x DBL_LOWEST); [inversion E2; auto|]]; (destruct (i <? 0); [discriminate|]);
      apply bind_ok in E2; destruct E2 as [l' [_ E2]]; inversion E2; auto.
  - unfold set_upper in E. apply bind_ok in E. destruct E as [[p b] [E1 E]]. apply bind_ok in E. destruct E as [b' [E2 E]]. inversion E; subst.
    apply find_block_find in E1. eapply au_put; eauto. unfold pb_set_upper in E2. apply bind_ok in E2. destruct E2 as [u [_ E2]].
    destruct (b_hi b); [|destruct (dle DBL_MAX x); [inversion E2; auto|]]; (destruct (i <? 0); [discriminate|]);
      apply bind_ok in E2; destruct E2 as [l' [_ E2]]; inversion E2; auto.
  - apply bind_ok in E. destruct E as [[s1 bb] [E1 E]]. inversion E; subst.
    assert (LR : forall r, In r rs -> zfind r (p_rheap s) <> None).
    { intros r Hr. rewrite (rel_res_none s a r R). apply SN; auto. }
    pose proof (evaluate_ok mf_tan jac eval rs vs s I LR) as K. rewrite E1 in K. destruct K as [_ [K1 [K2 _]]].
    apply au_iff; [apply K1|]. apply K2; auto. apply au_iff; auto. exact (i_sp s I).
Qed.

Lemma au_run : forall os s a s', Inv s -> Rel s a -> o_nochecks (p_opts s) = false -> accepted os a -> Forall benign os -> au s -> run os s = Ok s' -> au s'.
Proof.
  induction os as [|o os IH]; intros s a s' I R NC AC BN H E; cbn [ProblemModel.run] in E; [inversion E; subst; auto|].
  destruct AC as [A1 [A2 A3]]. inversion BN; subst.
  pose proof (step_ok cf_sizes mf_amb mf_tan hash_order Hperm o s a I R NC A1) as K.
  destruct (step o s) as [s1| | |] eqn:ES; try discriminate. cbn [bind] in E. destruct K as [K1 [K2 [K3 [K4 _]]]].
  refine (IH s1 _ s' K2 K3 _ A3 _ _ E); [congruence|auto|]. eapply au_step; [exact I|exact R|exact A1| |exact H|exact ES]. auto.
Qed.

(** ** Projection onto the box *)
Lemma project_ok : forall lo hi n xs k0, 
  (forall l, lo = Some l -> length l = n) -> (forall h, hi = Some h -> length h = n) -> (k0 + length xs <= n)%nat ->
  exists ys, project_from k0 lo hi xs = Some ys /\ length ys = length xs /\
   forall j x, nth_error xs j = Some x -> exists y, nth_error ys j = Some y /\
     (let a := match lo with None => DBL_LOWEST | Some l => nth (k0 + j)%nat l NaN end in
      let b := match hi with None => DBL_MAX | Some l => nth (k0 + j)%nat l NaN end in
      x <> NaN -> x <> NInf -> x <> PInf -> is_dbl x -> dle a b = true ->
      dle a y = true /\ dle y b = true /\ (dle a x = true -> dle x b = true -> y = x) /\
      (dlt x a = true -> y = a) /\ (dlt b x = true -> y = b)).
Proof.
  intros lo hi n; induction xs as [|x xs IH]; intros k0 HL HH HN.
  - exists []. simpl. split; auto. split; auto. intros [|j] x E; discriminate.
  - simpl in HN. destruct (IH (S k0) HL HH) as [ys [E1 [E2 E3]]]; [lia|].
    assert (P : exists y, project1 lo hi k0 x = Some y /\
     (let a := match lo with None => DBL_LOWEST | Some l => nth k0 l NaN end in
      let b := match hi with None => DBL_MAX | Some l => nth k0 l NaN end in
      x <> NaN -> x <> NInf -> x <> PInf -> is_dbl x -> dle a b = true ->
      dle a y = true /\ dle y b = true /\ (dle a x = true -> dle x b = true -> y = x) /\
      (dlt x a = true -> y = a) /\ (dlt b x = true -> y = b))).
    { assert (NTH : forall l, length l = n -> nth_error l k0 = Some (nth k0 l NaN)) by (intros l Hl; apply nth_error_nth'; lia).
      assert (LE : forall a b : dbl, dle a b = true -> a <> NaN /\ b <> NaN) by (intros [| | |] [| | |]; simpl; intros; split; congruence).
      assert (ANTI : forall a b : dbl, dlt a b = true -> dle b a = true -> False) by (intros [| | |] [| | |]; simpl; try congruence; lia).
      unfold project1. destruct lo as [l|], hi as [h|].
      - rewrite (NTH l), (NTH h) by auto. eexists. split; [reflexivity|]. cbv zeta. intros N1 N2 N3 D AB.
        destruct (LE _ _ AB) as [NA NB]. unfold dclamp. destruct (dlt x (nth k0 l NaN)) eqn:X1; [|destruct (dlt (nth k0 h NaN) x) eqn:X2].
        + split; [apply dle_refl; auto|]. split; auto. split; [intros Q; exfalso; eapply ANTI; eauto|]. split; auto.
          intros Q. exfalso. apply dlt_le in Q. eapply ANTI; [exact X1|]. eapply dle_trans; eauto.
        + split; auto. split; [apply dle_refl; auto|]. split; [intros _ Q; exfalso; eapply ANTI; eauto|]. split; [congruence|auto].
        + split; [apply dlt_false_le; auto|]. split; [apply dlt_false_le; auto|]. split; auto. split; congruence.
      - rewrite (NTH l) by auto. eexists. split; [reflexivity|]. cbv zeta. intros N1 N2 N3 D AB.
        destruct (LE _ _ AB) as [NA NB]. unfold dmax.
        assert (XM : dle x DBL_MAX = true) by (destruct x; try congruence; unfold is_dbl in D; unfold dle, DBL_MAX; lia).
        destruct (dlt x (nth k0 l NaN)) eqn:X1.
        + split; [apply dle_refl; auto|]. split; auto. split; [intros Q; exfalso; eapply ANTI; eauto|]. split; auto.
          intros Q. exfalso. eapply ANTI; eauto.
        + split; [apply dlt_false_le; auto|]. split; auto. split; auto. split; [congruence|]. intros Q. exfalso. eapply ANTI; eauto.
      - rewrite (NTH h) by auto. eexists. split; [reflexivity|]. cbv zeta. intros N1 N2 N3 D AB.
        destruct (LE _ _ AB) as [NA NB]. unfold dmin.
        assert (XM : dle DBL_LOWEST x = true) by (destruct x; try congruence; unfold is_dbl in D; unfold dle, DBL_LOWEST; lia).
        destruct (dlt (nth k0 h NaN) x) eqn:X1.
        + split; auto. split; [apply dle_refl; auto|]. split; [intros _ Q; exfalso; eapply ANTI; eauto|]. split; auto.
          intros Q. exfalso. eapply ANTI; eauto.
        + split; auto. split; [apply dlt_false_le; auto|]. split; auto. split; [|congruence]. intros Q. exfalso. eapply ANTI; eauto.
      - eexists. split; [reflexivity|]. cbv zeta. intros N1 N2 N3 D AB.
        assert (XM : dle x DBL_MAX = true) by (destruct x; try congruence; unfold is_dbl in D; unfold dle, DBL_MAX; lia).
        assert (XM' : dle DBL_LOWEST x = true) by (destruct x; try congruence; unfold is_dbl in D; unfold dle, DBL_LOWEST; lia).
        split; auto. split; auto. split; auto. split; intros Q; exfalso; eapply ANTI; eauto. }
    destruct P as [y [P1 P2]]. cbn [project_from]. rewrite P1, E1. exists (y :: ys). split; auto. split; [simpl; lia|].
    intros [|j] x' Hx.
    + simpl in Hx. inversion Hx; subst x'. exists y. split; auto. rewrite Nat.add_0_r. exact P2.
    + simpl in Hx. destruct (E3 j x' Hx) as [y' [Y1 Y2]]. exists y'. split; auto. replace (k0 + S j)%nat with (S k0 + j)%nat by lia. exact Y2.
Qed.
End Obs.
