(** One public call, and whole histories. *)
Require Import ZArith List Lia Bool Permutation.
From Verif Require Import ZMap Dbl ProblemModel ProblemSpec ProblemProofs1 ProblemProofs2 ProblemProofs3 ProblemProofs4 ProblemProofs5 ProblemProofs6 ProblemProofs7.
Import ListNotations.
Open Scope Z_scope.

Lemma sbu_fields : forall s s', same_but_user s s' ->
  p_opts s' = p_opts s /\ p_rheap s' = p_rheap s /\ p_pvec s' = p_pvec s /\ p_rvec s' = p_rvec s /\ p_pmap s' = p_pmap s /\
  p_rset s' = p_rset s /\ p_cref s' = p_cref s /\ p_lref s' = p_lref s /\ p_mdel s' = p_mdel s /\ p_next s' = p_next s /\ p_log s' = p_log s.
Proof. intros s s' [H _]. rewrite H. auto 20. Qed.

Lemma inv_sbu : forall s s', Inv s -> same_but_user s s' -> Inv s'.
Proof.
  intros s s' I H. destruct (sbu_fields s s' H) as [F1 [F2 [F3 [F4 [F5 [F6 [F7 [F8 [F9 [F10 F11]]]]]]]]]].
  assert (G : forall q b', zfind q (p_pheap s') = Some b' -> exists b, zfind q (p_pheap s) = Some b /\ b' = with_user b (b_user b'))
   by (intros q b' Hq; eapply hrel_some' in Hq; [|exact H]; exact Hq).
  assert (L : forall q, zfind q (p_pheap s') <> None <-> zfind q (p_pheap s) <> None) by (intros q; eapply hrel_live; exact H).
  constructor; rewrite ?F1, ?F2, ?F3, ?F4, ?F5, ?F6, ?F7, ?F8, ?F10.
  - apply H.
  - exact (i_sr s I).
  - exact (i_sm s I).
  - exact (i_ss s I).
  - exact (i_sc s I).
  - exact (i_sl s I).
  - eapply indexed_ext; [|exact (i_pv s I)]. intros q. unfold pidx. destruct H as [_ [_ H]]. specialize (H q).
    destruct (zfind q (p_pheap s)) as [b|], (zfind q (p_pheap s')) as [b'|]; try contradiction; auto. rewrite H. auto.
  - eapply indexed_ext; [|exact (i_rv s I)]. intros q. unfold ridx. rewrite F2. auto.
  - intros v p. rewrite (i_pm s I). split.
    + intros [b [B1 B2]]. destruct (hrel_some _ _ _ _ _ H B1) as [b' [B3 B4]]. exists b'. split; auto. rewrite B4. auto.
    + intros [b' [B1 B2]]. destruct (G _ _ B1) as [b [B3 B4]]. exists b. split; auto. rewrite B4 in B2. auto.
  - intros r rb Hr. destruct (i_rp s I r rb Hr) as [A [B C]]. split; auto. split; auto. intros p Hp. apply L. auto.
  - intros p b' Hb. destruct (G _ _ Hb) as [b [B3 B4]]. pose proof (i_dep s I p b B3) as D. rewrite B4. exact D.
  - exact (i_rs s I).
  - assert (E : (fun c => ncost c s') = (fun c => ncost c s)) by (unfold ncost; rewrite F2; auto). rewrite E. exact (i_cr s I).
  - assert (E : (fun c => nloss c s') = (fun c => nloss c s)) by (unfold nloss; rewrite F2; auto). rewrite E. exact (i_lr s I).
  - intros p b' q c' Hb Hc. destruct (G _ _ Hb) as [b [B3 B4]]. destruct (G _ _ Hc) as [c [C3 C4]]. rewrite B4, C4.
    exact (i_ch s I p b q c B3 C3).
  - intros p Hp. apply (i_nx s I). apply L. auto.
  - intros p b' Hb. destruct (G _ _ Hb) as [b [B3 B4]]. rewrite B4. exact (i_bl s I p b B3).
Qed.

Lemma rel_sbu : forall s s' a, same_but_user s s' -> Rel s a -> Rel s' a.
Proof.
  intros s s' a H [R1 R2]. destruct (sbu_fields s s' H) as [F1 [F2 [F3 [F4 [F5 _]]]]].
  assert (W : forall q, match zfind q (p_pheap s), zfind q (p_pheap s') with Some b, Some b' => b' = with_user b (b_user b') | None, None => True | _, _ => False end) by apply H.
  split.
  - intros v. eapply prel_same; [|apply R1]. unfold view. rewrite F5. destruct (zfind v (p_pmap s)) as [p|]; [|simpl; auto].
    specialize (W p). destruct (zfind p (p_pheap s)) as [b|], (zfind p (p_pheap s')) as [b'|]; try contradiction; simpl; auto.
    rewrite W. simpl. auto 10.
  - intros r. rewrite <- R2. unfold rview. rewrite F2. destruct (zfind r (p_rheap s)) as [rb|]; auto. f_equal. f_equal.
    apply map_ext. intros q. unfold addr_of. specialize (W q).
    destruct (zfind q (p_pheap s)) as [b|], (zfind q (p_pheap s')) as [b'|]; try contradiction; auto. rewrite W. auto.
Qed.

Section Steps.
Variables (cf_sizes : Z -> list Z) (mf_amb mf_tan : Z -> Z) (hash_order : list Z -> list Z).
Hypothesis Hperm : forall l, Permutation (hash_order l) l.
Notation step := (step cf_sizes mf_amb mf_tan hash_order).
Notation run := (run cf_sizes mf_amb mf_tan hash_order).
Notation allows := (allows cf_sizes mf_amb mf_tan).
Notation effect := (effect cf_sizes).
Notation effects := (effects cf_sizes).
Notation accepted := (accepted cf_sizes mf_amb mf_tan).
Notation no_reuse := (no_reuse cf_sizes).

Lemma ncost_uses : forall s a c, Inv s -> Rel s a -> ((0 < ncost c s)%nat <-> uses_cost a c).
Proof.
  intros s a c I [_ R]. unfold ncost. rewrite (zcount_pos _ _ _ (i_sr s I)). split.
  - intros [r [rb [H1 H2]]]. apply Z.eqb_eq in H2. specialize (R r). unfold rview in R. rewrite H1 in R.
    exists r, (r_loss rb), (map (addr_of s) (r_params rb)). rewrite <- R. congruence.
  - intros [r [l [vs H]]]. specialize (R r). rewrite H in R. unfold rview in R.
    destruct (zfind r (p_rheap s)) as [rb|] eqn:E; [|discriminate]. exists r, rb. split; auto. apply Z.eqb_eq. congruence.
Qed.

Lemma nloss_uses : forall s a c, Inv s -> Rel s a -> ((0 < nloss c s)%nat <-> uses_loss a c).
Proof.
  intros s a c I [_ R]. unfold nloss. rewrite (zcount_pos _ _ _ (i_sr s I)). split.
  - intros [r [rb [H1 H2]]]. apply andb_true_iff in H2. destruct H2 as [H2 H3]. apply Z.eqb_eq in H2.
    specialize (R r). unfold rview in R. rewrite H1 in R. split; [destruct (Z.eqb_spec c 0); [discriminate|auto]|].
    exists r, (r_cost rb), (map (addr_of s) (r_params rb)). rewrite <- R. congruence.
  - intros [NZ [r [l [vs H]]]]. specialize (R r). rewrite H in R. unfold rview in R.
    destruct (zfind r (p_rheap s)) as [rb|] eqn:E; [|discriminate]. exists r, rb. split; auto.
    apply andb_true_iff. split; [apply Z.eqb_eq; congruence|]. destruct (Z.eqb_spec c 0); [contradiction|auto].
Qed.

Lemma add_many_res : forall vs szs a r, a_res (add_many vs szs a) r = a_res a r.
Proof.
  induction vs as [|v vs IH]; intros [|z szs] a r; simpl; auto. rewrite IH. unfold add1. destruct (a_par a v); auto.
Qed.

Lemma frees_const : forall s s' a a', Inv s -> Rel s a -> Inv s' -> Rel s' a' -> p_log s' = p_log s ->
  (forall c, uses_cost a c -> uses_cost a' c) -> (forall c, uses_loss a c -> uses_loss a' c) -> frees s s'.
Proof.
  intros s s' a a' I R I' R' L H1 H2. exists []. split; [rewrite app_nil_r; auto|]. split; [|split].
  - intros c. unfold dies. destruct (o_cost_own (p_opts s)); auto. destruct (Nat.ltb_spec 0 (ncost c s)); auto.
    apply (ncost_uses s a c I R) in H. apply H1 in H. apply (ncost_uses s' a' c I' R') in H.
    destruct (Nat.eqb_spec (ncost c s') 0); [lia|auto].
  - intros c. unfold dies. destruct (o_loss_own (p_opts s)); auto. destruct (Nat.ltb_spec 0 (nloss c s)); auto.
    apply (nloss_uses s a c I R) in H. apply H2 in H. apply (nloss_uses s' a' c I' R') in H.
    destruct (Nat.eqb_spec (nloss c s') 0); [lia|auto].
  - auto.
Qed.

Lemma frees_same : forall s s', p_log s' = p_log s -> p_rheap s' = p_rheap s -> frees s s'.
Proof.
  intros s s' L H. exists []. split; [rewrite app_nil_r; auto|].
  split; [|split]; intros; rewrite ?(ncost_rheap s s'), ?(nloss_rheap s s'), ?dies_same; auto.
Qed.

Lemma step_ok : forall o s a, Inv s -> Rel s a -> o_nochecks (p_opts s) = false -> sane o a ->
  match step o s with
  | Ok s' => allows o a /\ Inv s' /\ Rel s' (effect o a) /\ p_opts s' = p_opts s /\ frees s s' /\
             p_mdel s' = p_mdel s ++ (if o_man_own (p_opts s) then man_given o else [])
  | Abort => ~ allows o a
  | _ => False
  end.
Proof.
  intros o s a I R NC SN.
  assert (NM : forall l : list Z, l = l ++ (if o_man_own (p_opts s) then [] else [])) by (intros l; destruct (o_man_own (p_opts s)); rewrite app_nil_r; auto).
  assert (MO : forall m, mown m s = if o_man_own (p_opts s) then (if m =? 0 then [] else [m]) else []).
  { intros m. unfold mown. destruct (m =? 0), (o_man_own (p_opts s)); auto. }
  destruct o; simpl in SN; cbn [ProblemModel.step ProblemSpec.allows ProblemSpec.effect man_given].
  - pose proof (add_parameter_ok mf_amb mf_tan s a v size I R NC) as K.
    destruct (add_parameter v size s) as [s'| | |]; auto.
    destruct K as [K1 [K2 [K3 [K4 [K5 [K6 K7]]]]]]. rewrite <- NM. auto 10 using frees_same.
  - pose proof (add_parameter_manifold_ok mf_amb mf_tan s a v size m ok I R NC) as K.
    destruct (add_parameter_manifold mf_amb mf_tan v size m ok s) as [s'| | |]; auto.
    destruct K as [K1 [K2 [K3 [K4 [K5 [K6 K7]]]]]]. rewrite <- MO. auto 10 using frees_same.
  - destruct SN as [NZ AR].
    pose proof (add_residual_ok cf_sizes s a r c l vs I R NC NZ AR) as K.
    destruct (add_residual cf_sizes r c l vs s) as [s'| | |]; auto.
    destruct K as [K1 [K2 [K3 [K4 [K5 K6]]]]]. split; auto. split; auto. split; auto. split; auto. split; [|rewrite <- NM; auto].
    eapply frees_const; eauto.
    + intros x [r' [l' [vs' H]]]. exists r', l', vs'. simpl. unfold fupd. rewrite add_many_res.
      destruct (Z.eqb_spec r' r); [subst; congruence|auto].
    + intros x [NX [r' [l' [vs' H]]]]. split; auto. exists r', l', vs'. simpl. unfold fupd. rewrite add_many_res.
      destruct (Z.eqb_spec r' r); [subst; congruence|auto].
  - pose proof (remove_residual_ok s a r I R) as K.
    destruct (remove_residual r s) as [s'| | |]; auto.
    destruct K as [K1 [K2 [K3 K4]]]. split; auto. split; auto. split; auto. split; [apply (sh_opts _ _ _ K4)|].
    split; [apply (sh_log _ _ _ K4)|]. rewrite <- NM. apply (sh_mdel _ _ _ K4).
  - pose proof (remove_parameter_ok hash_order Hperm s a v I R) as K.
    destruct (remove_parameter hash_order v s) as [s'| | |]; auto.
    destruct K as [K1 [K2 [K3 [K4 [K5 K6]]]]]. rewrite <- NM. auto 10.
  - pose proof (set_constant_ok true s a v I R) as K.
    destruct (set_constant true v s) as [s'| | |]; auto.
    destruct K as [K1 [K2 [K3 [K4 [K5 [K6 K7]]]]]]. rewrite <- NM. auto 10 using frees_same.
  - pose proof (set_constant_ok false s a v I R) as K.
    destruct (set_constant false v s) as [s'| | |]; auto.
    destruct K as [K1 [K2 [K3 [K4 [K5 [K6 K7]]]]]]. rewrite <- NM. auto 10 using frees_same.
  - pose proof (set_manifold_ok mf_amb mf_tan s a v m ok I R) as K.
    destruct (set_manifold mf_amb mf_tan v m ok s) as [s'| | |]; auto.
    destruct K as [K1 [K2 [K3 [K4 [K5 [K6 K7]]]]]]. rewrite <- MO. auto 10 using frees_same.
  - pose proof (set_lower_ok s a v i x I R SN) as K.
    destruct (set_lower v i x s) as [s'| | |]; auto.
    destruct K as [K1 [K2 [K3 [K4 [K5 [K6 K7]]]]]]. rewrite <- NM. auto 10 using frees_same.
  - pose proof (set_upper_ok s a v i x I R SN) as K.
    destruct (set_upper v i x s) as [s'| | |]; auto.
    destruct K as [K1 [K2 [K3 [K4 [K5 [K6 K7]]]]]]. rewrite <- NM. auto 10 using frees_same.
  - assert (LR : forall r, In r rs -> zfind r (p_rheap s) <> None).
    { intros r Hr. rewrite (rel_res_none s a r R). auto. }
    pose proof (evaluate_ok mf_tan jac eval rs vs s I LR) as K.
    destruct (evaluate mf_tan jac eval rs vs s) as [[s' b]| | |]; cbn [bind]; auto.
    + destruct K as [K1 [K2 _]]. split.
      { intros v Hv. rewrite <- (rel_par_none s a v R). auto. }
      destruct (sbu_fields s s' K2) as [F1 [F2 [F3 [F4 [F5 [F6 [F7 [F8 [F9 [F10 F11]]]]]]]]]].
      split; [eapply inv_sbu; eauto|]. split; [eapply rel_sbu; eauto|]. rewrite <- NM. auto using frees_same.
    + destruct K as [v [K1 K2]]. intros H. apply (H v K1). apply (rel_par_none s a v R). auto.
Qed.

(** ** Histories *)
Lemma run_ok : forall os s a, Inv s -> Rel s a -> o_nochecks (p_opts s) = false -> accepted os a ->
  exists s', run os s = Ok s' /\ Inv s' /\ Rel s' (effects os a) /\ p_opts s' = p_opts s.
Proof.
  induction os as [|o os IH]; intros s a I R NC AC.
  - exists s. auto.
  - destruct AC as [A1 [A2 A3]]. cbn [ProblemModel.run ProblemSpec.effects].
    pose proof (step_ok o s a I R NC A1) as K. destruct (step o s) as [s1| | |]; try contradiction.
    destruct K as [K1 [K2 [K3 [K4 _]]]]. cbn [bind].
    destruct (IH s1 (effect o a) K2 K3) as [s2 [B1 [B2 [B3 B4]]]]; auto; [congruence|].
    exists s2. split; auto. split; auto. split; auto. congruence.
Qed.

Lemma run_app : forall os os' s, run (os ++ os') s = bind (run os s) (run os').
Proof.
  induction os as [|o os IH]; intros os' s; cbn [app ProblemModel.run bind]; auto.
  destruct (step o s); cbn [bind]; auto.
Qed.

(** ** Ownership over a whole history *)
Definition one (b : bool) : nat := if b then 1%nat else 0%nat.

Definition LInv (cs ls ms : list Z) (s : problem) : Prop :=
  (forall c, (nfreed (FCost c) (p_log s) + one (o_cost_own (p_opts s) && Nat.ltb 0 (ncost c s)) = one (o_cost_own (p_opts s) && existsb (Z.eqb c) cs))%nat) /\
  (forall l, (nfreed (FLoss l) (p_log s) + one (o_loss_own (p_opts s) && Nat.ltb 0 (nloss l s)) = one (o_loss_own (p_opts s) && existsb (Z.eqb l) ls))%nat) /\
  (forall m, nfreed (FManifold m) (p_log s) = 0%nat) /\
  p_mdel s = (if o_man_own (p_opts s) then ms else []).

Lemma existsb_app_eqb : forall c l l', existsb (Z.eqb c) (l ++ l') = existsb (Z.eqb c) l || existsb (Z.eqb c) l'.
Proof. intros. apply existsb_app. Qed.

Lemma effect_uses_cost : forall o a c, uses_cost (effect o a) c -> uses_cost a c \/ In c (cost_given o).
Proof.
  assert (U : forall v f a, a_res (upd_par v f a) = a_res a) by (intros v f a; unfold upd_par; destruct (a_par a v); auto).
  assert (A1 : forall v z a, a_res (add1 v z a) = a_res a) by (intros v z a; unfold add1; destruct (a_par a v); auto).
  intros o a c [r [l [vs H]]].
  destruct o; cbn [ProblemSpec.effect] in H; rewrite ?U, ?A1 in H; try (left; exists r, l, vs; exact H).
  - simpl in H. unfold fupd in H. destruct (r =? r0).
    + right. inversion H. left. auto.
    + left. rewrite add_many_res in H. exists r, l, vs; auto.
  - simpl in H. unfold fupd in H. destruct (r =? r0); [discriminate|]. left; exists r, l, vs; auto.
  - simpl in H. destruct (a_res a r) as [[[c' l'] vs']|] eqn:E; [|discriminate].
    destruct (in_dec Z.eq_dec v vs'); [discriminate|]. left. exists r, l, vs. congruence.
Qed.

Lemma effect_uses_loss : forall o a c, uses_loss (effect o a) c -> uses_loss a c \/ In c (loss_given o).
Proof.
  assert (U : forall v f a, a_res (upd_par v f a) = a_res a) by (intros v f a; unfold upd_par; destruct (a_par a v); auto).
  assert (A1 : forall v z a, a_res (add1 v z a) = a_res a) by (intros v z a; unfold add1; destruct (a_par a v); auto).
  intros o a c [NZ [r [l [vs H]]]].
  destruct o; cbn [ProblemSpec.effect] in H; rewrite ?U, ?A1 in H; try (left; split; [auto|exists r, l, vs; exact H]).
  - simpl in H. unfold fupd in H. destruct (r =? r0).
    + right. inversion H. subst. simpl. destruct (Z.eqb_spec c 0); [contradiction|left; auto].
    + left. rewrite add_many_res in H. split; auto. exists r, l, vs; auto.
  - simpl in H. unfold fupd in H. destruct (r =? r0); [discriminate|]. left. split; auto. exists r, l, vs; auto.
  - simpl in H. destruct (a_res a r) as [[[c' l'] vs']|] eqn:E; [|discriminate].
    destruct (in_dec Z.eq_dec v vs'); [discriminate|]. left. split; auto. exists r, l, vs. congruence.
Qed.

Lemma effect_given_cost : forall o a c, In c (cost_given o) -> uses_cost (effect o a) c.
Proof.
  intros o a c H. destruct o; simpl in H; try contradiction. destruct H as [->|[]].
  exists r, l, vs. simpl. unfold fupd. rewrite Z.eqb_refl. auto.
Qed.
Lemma effect_given_loss : forall o a c, In c (loss_given o) -> uses_loss (effect o a) c.
Proof.
  intros o a c H. destruct o; simpl in H; try contradiction. destruct (Z.eqb_spec l 0); [contradiction|]. destruct H as [->|[]].
  split; auto. exists r, c0, vs. simpl. unfold fupd. rewrite Z.eqb_refl. auto.
Qed.

(** Arithmetic heart: one object over one call. *)
Lemma life_step : forall own n0 n1 f l (seen given : bool),
  (f + one (own && Nat.ltb 0 n0) = one (own && seen))%nat -> l = dies own n0 n1 ->
  ((0 < n1)%nat -> (0 < n0)%nat \/ given = true) -> (given = true -> (0 < n1)%nat) -> (given = true -> seen = true -> (0 < n0)%nat) ->
  (f + l + one (own && Nat.ltb 0 n1) = one (own && (seen || given)))%nat.
Proof.
  intros own n0 n1 f l seen given H -> H1 H2 H3. unfold dies. destruct own; simpl in *; [|lia].
  destruct (Nat.ltb_spec 0 n0), (Nat.ltb_spec 0 n1), (Nat.eqb_spec n1 0), seen, given; simpl in *; try lia;
    try (specialize (H2 eq_refl); lia); try (specialize (H3 eq_refl eq_refl); lia); try (destruct (H1 H4); [lia|discriminate]);
    try (destruct (H1 H0); [lia|discriminate]).
Qed.

Lemma run_log : forall os s a cs ls ms, Inv s -> Rel s a -> o_nochecks (p_opts s) = false -> accepted os a ->
  no_reuse cs ls os a -> LInv cs ls ms s ->
  forall s', run os s = Ok s' -> LInv (cs ++ flat_map cost_given os) (ls ++ flat_map loss_given os) (ms ++ flat_map man_given os) s' /\ p_opts s' = p_opts s.
Proof.
  induction os as [|o os IH]; intros s a cs ls ms I R NC AC NR LI s' E.
  - cbn in E. inversion E; subst. simpl. rewrite !app_nil_r. auto.
  - destruct AC as [A1 [A2 A3]]. destruct NR as [N1 [N2 N3]]. cbn [ProblemModel.run] in E.
    pose proof (step_ok o s a I R NC A1) as K. destruct (step o s) as [s1| | |]; try contradiction.
    destruct K as [K1 [K2 [K3 [K4 [K5 K6]]]]]. cbn [bind] in E.
    assert (LI1 : LInv (cs ++ cost_given o) (ls ++ loss_given o) (ms ++ man_given o) s1).
    { destruct LI as [L1 [L2 [L3 L4]]]. destruct K5 as [l [J1 [J2 [J3 J4]]]]. unfold LInv. rewrite K4, J1. split; [|split; [|split]].
      - intros c. rewrite nfreed_app, existsb_app_eqb. eapply life_step; [apply L1|apply J2| | |].
        + intros H. apply (ncost_uses s1 _ c K2 K3) in H. apply effect_uses_cost in H.
          destruct H as [H|H]; [left; apply (ncost_uses s a c I R); auto|right; apply existsb_eqb; auto].
        + intros H. apply existsb_eqb in H. apply (ncost_uses s1 _ c K2 K3). apply effect_given_cost; auto.
        + intros H1 H2. apply existsb_eqb in H1. apply existsb_eqb in H2. apply (ncost_uses s a c I R). auto.
      - intros c. rewrite nfreed_app, existsb_app_eqb. eapply life_step; [apply L2|apply J3| | |].
        + intros H. apply (nloss_uses s1 _ c K2 K3) in H. apply effect_uses_loss in H.
          destruct H as [H|H]; [left; apply (nloss_uses s a c I R); auto|right; apply existsb_eqb; auto].
        + intros H. apply existsb_eqb in H. apply (nloss_uses s1 _ c K2 K3). apply effect_given_loss; auto.
        + intros H1 H2. apply existsb_eqb in H1. apply existsb_eqb in H2. apply (nloss_uses s a c I R). auto.
      - intros m. rewrite nfreed_app, L3, J4. auto.
      - rewrite K6, L4. destruct (o_man_own (p_opts s)); auto. }
    destruct (IH s1 (effect o a) _ _ _ K2 K3 ltac:(congruence) A3 N3 LI1 s' E) as [Q1 Q2].
    simpl. rewrite !app_assoc. split; auto. congruence.
Qed.

Lemma nfreed_map : forall (f : Z -> freed) (ks : list Z) k, (forall x y, f x = f y -> x = y) -> NoDup ks ->
  nfreed (f k) (map f ks) = one (existsb (Z.eqb k) ks).
Proof.
  intros f ks k Hf ND. unfold nfreed. induction ks as [|x ks IH]; simpl; auto. inversion ND; subst.
  destruct (freed_dec (f x) (f k)) as [E|E].
  - apply Hf in E. subst. rewrite Z.eqb_refl. simpl. rewrite IH by auto.
    assert (X : existsb (Z.eqb k) ks = false) by (apply existsb_eqb_false; auto). rewrite X. auto.
  - destruct (Z.eqb_spec k x); [subst; congruence|]. simpl. auto.
Qed.

Lemma nfreed_map_other : forall (f : Z -> freed) (ks : list Z) y, (forall x, f x <> y) -> nfreed y (map f ks) = 0%nat.
Proof.
  intros f ks y H. unfold nfreed. induction ks as [|x ks IH]; simpl; auto. destruct (freed_dec (f x) y); auto. exfalso. eapply H; eauto.
Qed.

Lemma destroy_counts : forall s cs ls ms, Inv s -> LInv cs ls ms s ->
  (forall c, nfreed (FCost c) (destroy s) = one (o_cost_own (p_opts s) && existsb (Z.eqb c) cs)) /\
  (forall l, nfreed (FLoss l) (destroy s) = one (o_loss_own (p_opts s) && existsb (Z.eqb l) ls)) /\
  (forall m, nfreed (FManifold m) (destroy s) = one (o_man_own (p_opts s) && existsb (Z.eqb m) ms)).
Proof.
  intros s cs ls ms I [L1 [L2 [L3 L4]]]. unfold destroy.
  assert (KC : forall c m n, refs_ok m n -> zsorted m -> existsb (Z.eqb c) (zkeys m) = Nat.ltb 0 (n c)).
  { intros c m n H Hs. specialize (H c). destruct (Nat.ltb_spec 0 (n c)).
    - apply existsb_eqb. destruct (Nat.eqb_spec (n c) 0); [lia|]. eapply zfind_in_keys; eauto.
    - apply existsb_eqb_false. destruct (Nat.eqb_spec (n c) 0); [|lia]. apply zfind_none_keys; auto. }
  split; [|split].
  - intros c. rewrite !nfreed_app. rewrite (nfreed_map_other FManifold) by discriminate.
    assert (E : nfreed (FCost c) (if o_loss_own (p_opts s) then map FLoss (zkeys (p_lref s)) else []) = 0%nat).
    { destruct (o_loss_own (p_opts s)); auto. apply nfreed_map_other. discriminate. }
    rewrite E, <- (L1 c). pose proof (i_cr s I) as X. destruct (o_cost_own (p_opts s)); simpl; [|lia].
    rewrite nfreed_map; [|congruence|apply zsorted_nodup; exact (i_sc s I)]. rewrite (KC c _ _ X (i_sc s I)). lia.
  - intros c. rewrite !nfreed_app. rewrite (nfreed_map_other FManifold) by discriminate.
    assert (E : nfreed (FLoss c) (if o_cost_own (p_opts s) then map FCost (zkeys (p_cref s)) else []) = 0%nat).
    { destruct (o_cost_own (p_opts s)); auto. apply nfreed_map_other. discriminate. }
    rewrite E, <- (L2 c). pose proof (i_lr s I) as X. destruct (o_loss_own (p_opts s)); simpl; [|lia].
    rewrite nfreed_map; [|congruence|apply zsorted_nodup; exact (i_sl s I)]. rewrite (KC c _ _ X (i_sl s I)). lia.
  - intros m. rewrite !nfreed_app, L3.
    assert (E : nfreed (FManifold m) (if o_cost_own (p_opts s) then map FCost (zkeys (p_cref s)) else []) = 0%nat).
    { destruct (o_cost_own (p_opts s)); auto. apply nfreed_map_other. discriminate. }
    assert (E2 : nfreed (FManifold m) (if o_loss_own (p_opts s) then map FLoss (zkeys (p_lref s)) else []) = 0%nat).
    { destruct (o_loss_own (p_opts s)); auto. apply nfreed_map_other. discriminate. }
    rewrite E, E2, L4. rewrite nfreed_map; [|congruence|apply NoDup_nodup].
    destruct (o_man_own (p_opts s)); auto. simpl. f_equal.
    assert (Q : In m (nodup Z.eq_dec ms) <-> In m ms) by apply nodup_In. rewrite <- !existsb_eqb in Q.
    destruct (existsb (Z.eqb m) (nodup Z.eq_dec ms)), (existsb (Z.eqb m) ms); auto; intuition congruence.
Qed.
End Steps.
