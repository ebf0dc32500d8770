(** Graph histories, Schur orderings and the recursive ordering. *)
Require Import List Arith Bool Lia Permutation Sorted ZArith.
From Verif Require Import ZMap OrderedGroupsModel OrderedGroupsProofs GraphModel GraphSpec GraphProofs.
Import ListNotations.
Open Scope nat_scope.

Lemma grun_app : forall l1 l2 g, grun (l1 ++ l2) g = match grun l1 g with Some g' => grun l2 g' | None => None end.
Proof. induction l1 as [|o l1 IH]; intros l2 g; simpl; auto. destruct (gstep o g); auto. Qed.

Definition represents (h : list gop) (g : graph) : Prop :=
  GInv g /\ (forall v, In v (g_v g) <-> has_v h v) /\ (forall a b, adj g a b <-> has_e h a b).

Lemma gstep_rep : forall o h g, represents h g ->
  match gstep o g with
  | Some g' => represents (o :: h) g' /\ (allowed h -> allowed (o :: h))
  | None => ~ allowed (o :: h)
  end.
Proof.
  intros o h g [I [V E]]. destruct o as [v|v|a b]; simpl.
  - split; [|auto]. split; [apply ginv_addv; auto|]. split.
    + intros u. simpl. rewrite <- V. unfold add_vertex. destruct (mem v (g_v g)) eqn:M; simpl; [|intuition]. apply mem_in in M. split; auto. intros [X|X]; subst; auto.
    + intros a b. rewrite adj_addv; auto. apply E.
  - destruct (remove_vertex v g) as [[g' r]|] eqn:R.
    + destruct (remv_spec v g g' r I R) as [I' [V' [E' _]]]. split.
      * split; auto. split.
        { intros u. simpl. rewrite V', V. tauto. }
        { intros a b. simpl. rewrite E', E. tauto. }
      * intros AL. split; auto. intros X. apply E in X. unfold remove_vertex in R. destruct (mem v (g_v g)) eqn:M; simpl in R.
        { destruct (mem v (at_ (g_e g) v)) eqn:M2; [discriminate|]. apply mem_out in M2. apply M2. exact X. }
        { apply mem_out in M. apply M. eapply vert_l; eauto. }
    + unfold remove_vertex in R. destruct (mem v (g_v g)); simpl in R; [|discriminate]. destruct (mem v (at_ (g_e g) v)) eqn:M2; [|discriminate].
      apply mem_in in M2. intros [X _]. apply X. apply E. exact M2.
  - destruct (add_edge a b g) as [g'|] eqn:A.
    + destruct (ginv_adde a b g g' I A) as [I' V']. split.
      * split; auto. split; [intros u; rewrite V'; apply V|]. intros x y. simpl. rewrite (adj_adde a b g g' x y I A), E. tauto.
      * intros AL. unfold add_edge in A. destruct (mem a (g_v g)) eqn:MA, (mem b (g_v g)) eqn:MB; simpl in A; try discriminate.
        apply mem_in in MA, MB. rewrite <- !V. auto.
    + unfold add_edge in A. destruct (mem a (g_v g)) eqn:MA, (mem b (g_v g)) eqn:MB; simpl in A; try (destruct (mem b (at_ (g_e g) a)); discriminate).
      * apply mem_out in MB. intros [_ [X _]]. apply V in X. auto.
      * apply mem_out in MA. intros [X _]. apply V in X. auto.
      * apply mem_out in MA. intros [X _]. apply V in X. auto.
Qed.

Lemma allowed_tail : forall l h, allowed (l ++ h) -> allowed h.
Proof. induction l as [|o l IH]; intros h H; auto. destruct o; simpl in H; apply IH; tauto. Qed.

Lemma grun_rep : forall ops h g, represents h g -> allowed h ->
  match grun ops g with
  | Some g' => represents (rev ops ++ h) g' /\ allowed (rev ops ++ h)
  | None => ~ allowed (rev ops ++ h)
  end.
Proof.
  induction ops as [|o ops IH]; intros h g R AL; simpl; [auto|]. pose proof (gstep_rep o h g R) as G.
  destruct (gstep o g) as [g1|].
  - destruct G as [R1 A1]. specialize (IH (o :: h) g1 R1 (A1 AL)). destruct (grun ops g1); rewrite <- app_assoc; simpl; auto.
  - rewrite <- app_assoc. simpl. intros X. apply G. eapply allowed_tail; eauto.
Qed.

Lemma rep_empty_graph : represents [] g_empty.
Proof. split; [apply ginv_empty|]. split; simpl; [tauto|]. intros a b. unfold adj, at_. simpl. tauto. Qed.

(** ** The Hessian graph. *)
Definition only_edges (l : list gop) : Prop := forall o, In o l -> exists a b, o = AddE a b.
Lemma has_v_edges : forall l h v, only_edges l -> has_v (l ++ h) v <-> has_v h v.
Proof.
  induction l as [|o l IH]; intros h v O; simpl; [tauto|]. destruct (O o) as [a [b E]]; [left; auto|]. subst. apply IH. intros o X. apply O. right; auto.
Qed.
Lemma has_v_adds : forall l h v, has_v (map AddV l ++ h) v <-> In v l \/ has_v h v.
Proof. induction l as [|x l IH]; intros h v; simpl; [tauto|]. rewrite IH. intuition. Qed.
Lemma has_e_adds : forall l h x y, has_e (map AddV l ++ h) x y <-> has_e h x y.
Proof. induction l as [|v l IH]; intros h x y; simpl; [tauto|]. apply IH. Qed.
Lemma has_e_edges : forall l h x y, only_edges l -> has_e (l ++ h) x y <-> In (AddE x y) l \/ In (AddE y x) l \/ has_e h x y.
Proof.
  induction l as [|o l IH]; intros h x y O; simpl; [tauto|]. destruct (O o) as [a [b E]]; [left; auto|]. subst.
  rewrite IH; [|intros o X; apply O; right; auto]. split.
  - intros [[? ?]|[[? ?]|[?|[?|?]]]]; subst; auto.
  - intros [[X|?]|[[X|?]|?]]; auto; inversion X; subst; auto.
Qed.
Lemma allowed_edges : forall l h, only_edges l -> (forall a b, In (AddE a b) l -> has_v h a /\ has_v h b) -> allowed h -> allowed (l ++ h).
Proof.
  induction l as [|o l IH]; intros h O V A; simpl; auto. destruct (O o) as [a [b E]]; [left; auto|]. subst.
  assert (O' : only_edges l) by (intros o X; apply O; right; auto).
  destruct (V a b) as [Va Vb]; [left; auto|]. rewrite !has_v_edges by auto. split; auto. split; auto. apply IH; auto. intros; apply V; right; auto.
Qed.
Lemma allowed_adds : forall l, allowed (map AddV l).
Proof. induction l; simpl; auto. Qed.

Lemma pairs_in : forall c l x y, NoDup l -> (In (AddE x y) (pairs c l) \/ In (AddE y x) (pairs c l)) <-> (x <> y /\ In x l /\ In y l /\ c x = false /\ c y = false).
Proof.
  intros c. induction l as [|j r IH]; intros x y N; simpl; [tauto|]. inversion N; subst. rewrite !in_app_iff.
  assert (P : forall a b, In (AddE a b) (if c j then [] else map (AddE j) (filter (fun k => negb (c k)) r)) <-> a = j /\ c j = false /\ In b r /\ c b = false).
  { intros a b. destruct (c j) eqn:C; [simpl; split; [tauto|intros [_ [X _]]; discriminate]|]. rewrite in_map_iff. split.
    - intros [k [E F]]. inversion E; subst. apply filter_In in F. rewrite negb_true_iff in F. tauto.
    - intros [E [_ F]]. subst. exists b. split; auto. apply filter_In. rewrite negb_true_iff. auto. }
  rewrite !P. specialize (IH x y H2). split.
  - intros [[[E [C1 [I1 C2]]]|X]|[[E [C1 [I1 C2]]]|X]].
    + subst. repeat split; auto. intro; subst; auto.
    + assert (Y : In (AddE x y) (pairs c r) \/ In (AddE y x) (pairs c r)) by auto. apply IH in Y. intuition.
    + subst. repeat split; auto. intro; subst; auto.
    + assert (Y : In (AddE x y) (pairs c r) \/ In (AddE y x) (pairs c r)) by auto. apply IH in Y. intuition.
  - intros [NE [[X1|X1] [[X2|X2] [C1 C2]]]].
    + congruence.
    + subst. left. left. auto.
    + subst. right. left. auto.
    + assert (Y : In (AddE x y) (pairs c r) \/ In (AddE y x) (pairs c r)) by (apply IH; auto). tauto.
Qed.
Lemma pairs_edges : forall c l, only_edges (pairs c l).
Proof.
  intros c. induction l as [|j r IH]; intros o H; simpl in H; [contradiction|]. apply in_app_or in H. destruct H as [H|H]; [|auto].
  destruct (c j); [contradiction|]. apply in_map_iff in H. destruct H as [k [E _]]. eauto.
Qed.

Lemma hessian_ok : forall p, valid_prog p -> exists g, hessian_graph p = Some g /\ GInv g /\ isolated_loops g /\
  (forall v, In v (g_v g) <-> var_block p v) /\
  (forall a b, adj g a b <-> a <> b /\ var_block p a /\ var_block p b /\ together p a b).
Proof.
  intros p [ND RS]. unfold hessian_graph, hessian_ops. set (vs := filter (fun b => negb (p_const p b)) (p_blocks p)).
  set (es := flat_map (pairs (p_const p)) (p_res p)).
  assert (OE : only_edges es).
  { intros o H. apply in_flat_map in H. destruct H as [r [_ H]]. apply pairs_edges in H. auto. }
  assert (OR : only_edges (rev es)) by (intros o H; apply OE; apply in_rev; auto).
  assert (VV : forall v, In v (rev vs) <-> var_block p v).
  { intros v. rewrite <- in_rev. unfold vs, var_block. rewrite filter_In, negb_true_iff. tauto. }
  assert (EE : forall a b, (In (AddE a b) es \/ In (AddE b a) es) <-> (a <> b /\ var_block p a /\ var_block p b /\ together p a b)).
  { intros a b. unfold es. rewrite !in_flat_map. split.
    - intros H. assert (X : exists r, In r (p_res p) /\ (In (AddE a b) (pairs (p_const p) r) \/ In (AddE b a) (pairs (p_const p) r))).
      { destruct H as [[r [H1 H2]]|[r [H1 H2]]]; exists r; auto. }
      destruct X as [r [R1 R2]]. destruct (RS r R1) as [N S]. apply pairs_in in R2; auto. destruct R2 as [A [B [C [D E]]]].
      unfold var_block, together. repeat split; auto. exists r; auto.
    - intros [A [[B1 B2] [[C1 C2] [r [R1 [R2 R3]]]]]]. destruct (RS r R1) as [N S].
      assert (X : In (AddE a b) (pairs (p_const p) r) \/ In (AddE b a) (pairs (p_const p) r)) by (apply pairs_in; auto).
      destruct X; [left|right]; exists r; auto. }
  pose proof (grun_rep (map AddV vs ++ es) [] g_empty rep_empty_graph I) as G. rewrite rev_app_distr, <- map_rev, app_nil_r in G.
  assert (AL : allowed (rev es ++ map AddV (rev vs))).
  { apply allowed_edges; auto; [|apply allowed_adds]. intros a b H. apply in_rev in H.
    assert (Y : In (AddE a b) es \/ In (AddE b a) es) by auto. apply EE in Y. destruct Y as [_ [Y1 [Y2 _]]].
    rewrite <- (app_nil_r (map AddV (rev vs))), !has_v_adds, !VV. auto. }
  destruct (grun (map AddV vs ++ es) g_empty) as [g|]; [|contradiction]. destruct G as [[GI [GV GE]] _]. exists g. split; auto.
  assert (AD : forall a b, adj g a b <-> a <> b /\ var_block p a /\ var_block p b /\ together p a b).
  { intros a b. rewrite GE, has_e_edges by auto. rewrite <- EE. rewrite <- !in_rev. rewrite <- (app_nil_r (map AddV (rev vs))), has_e_adds. simpl. tauto. }
  split; auto. split; [intros v X; apply AD in X; tauto|]. split; auto. intros v. rewrite GV, has_v_edges by auto.
  rewrite <- (app_nil_r (map AddV (rev vs))), has_v_adds, VV. simpl. tauto.
Qed.

Lemma degree_lt_asym : forall g x y, degree_lt g y x = true -> degree_lt g x y = false.
Proof. intros g x y. unfold degree_lt. rewrite Nat.ltb_lt, Nat.ltb_ge. lia. Qed.
Lemma total_lt_spec : forall g x y, total_lt g x y = true <-> degree g x < degree g y \/ (degree g x = degree g y /\ x < y).
Proof.
  intros g x y. unfold total_lt. destruct (Nat.eqb_spec (degree g x) (degree g y)).
  - rewrite Nat.ltb_lt. lia.
  - rewrite Nat.ltb_lt. lia.
Qed.
Lemma total_lt_asym : forall g x y, total_lt g y x = true -> total_lt g x y = false.
Proof.
  intros g x y H. destruct (total_lt g x y) eqn:E; auto. apply total_lt_spec in H, E. lia.
Qed.

Lemma iso_ok : forall g, GInv g -> isolated_loops g ->
  exists ordering k, independent_set_ordering g = Some (ordering, k) /\ OQ g (ssort (total_lt g) (g_v g)) ordering k.
Proof. intros g I L. apply order_queue_ok; auto. apply ssort_perm. Qed.
Lemma siso_ok : forall g l, GInv g -> isolated_loops g -> Permutation l (g_v g) ->
  exists ordering k, stable_independent_set_ordering g l = Some (ordering, k) /\ OQ g (ssort (degree_lt g) l) ordering k.
Proof.
  intros g l I L P. unfold stable_independent_set_ordering.
  replace (length (g_v g) =? length l) with true by (symmetry; apply Nat.eqb_eq; symmetry; apply Permutation_length; auto). simpl.
  apply order_queue_ok; auto. rewrite ssort_perm. auto.
Qed.

Lemma oq_spec : forall g q o k, GInv g -> OQ g q o k -> first_k_independent (fun v => In v (g_v g)) (adj g) o k.
Proof.
  intros g q o k I [P K _ IN MX]. repeat split; auto.
  - eapply Permutation_NoDup; [symmetry; exact P|apply gi_nodup; auto].
  - apply Permutation_in; auto.
  - apply Permutation_in. symmetry; auto.
Qed.

(** Sortedness of the parts. *)
Lemma strong_filter : forall (R : nat -> nat -> Prop) f l, StronglySorted R l -> StronglySorted R (filter f l).
Proof.
  induction l as [|x l IH]; intros H; simpl; [constructor|]. inversion H; subst. destruct (f x); auto. constructor; auto.
  rewrite Forall_forall in *. intros y Y. apply filter_In in Y. apply H3. tauto.
Qed.
Lemma sorted_degree_total : forall g l, StronglySorted (fun a b => degree g a <= degree g b) (ssort (total_lt g) l).
Proof.
  intros g l. assert (S : StronglySorted (fun a b => total_lt g b a = false) (ssort (total_lt g) l)).
  { apply Sorted_StronglySorted; [|apply ssort_sorted; apply total_lt_asym]. intros x y z A B.
    destruct (total_lt g z x) eqn:E; auto. apply total_lt_spec in E.
    assert (A' : ~ total_lt g y x = true) by congruence. assert (B' : ~ total_lt g z y = true) by congruence. rewrite total_lt_spec in A', B'. lia. }
  induction S; constructor; auto. rewrite Forall_forall in *. intros y Y. specialize (H y Y).
  assert (A' : ~ total_lt g y a = true) by congruence. rewrite total_lt_spec in A'. lia.
Qed.
Lemma sorted_degree : forall g l, StronglySorted (fun a b => degree g a <= degree g b) (ssort (degree_lt g) l).
Proof.
  intros g l. apply Sorted_StronglySorted; [intros x y z; lia|]. 
  pose proof (ssort_sorted nat (degree_lt g) (degree_lt_asym g) l) as S. induction S; constructor; auto.
  inversion H; subst; constructor. unfold degree_lt in H0. apply Nat.ltb_ge in H0. lia.
Qed.
