(** The recursive ordering, and independence of iteration order. *)
Require Import List Arith Bool Lia Permutation Sorted ZArith.
From Verif Require Import ZMap OrderedGroupsModel OrderedGroupsProofs GraphModel GraphSpec GraphProofs GraphProofs2.
Import ListNotations.
Open Scope nat_scope.

Lemma take_round_ok : forall bs round g o, GInv g -> isolated_loops g -> ok o -> NoDup bs -> incl bs (g_v g) -> (0 <= round)%Z ->
  exists g' o', take_round bs round g o = Some (g', o') /\ GInv g' /\ ok o' /\
    (forall u, In u (g_v g') <-> In u (g_v g) /\ ~ In u bs) /\
    (forall a b, adj g' a b <-> adj g a b /\ ~ In a bs /\ ~ In b bs) /\
    (forall b, In b bs -> zfind (Z.of_nat b) (e2g o') = Some round) /\
    (forall x, (forall b, In b bs -> x <> Z.of_nat b) -> zfind x (e2g o') = zfind x (e2g o)) /\
    length (g_v g) = length bs + length (g_v g').
Proof.
  induction bs as [|b bs IH]; intros round g o I L O N IC R; simpl.
  - exists g, o. split; auto. split; auto. split; auto. split; [intros; tauto|]. split; [intros; tauto|]. split; [intros; contradiction|]. split; [auto|lia].
  - inversion N; subst. assert (Vb : In b (g_v g)) by (apply IC; left; auto).
    destruct (remove_vertex b g) as [[g1 r]|] eqn:RV.
    2:{ exfalso. unfold remove_vertex in RV. destruct (mem b (g_v g)); simpl in RV; [|discriminate]. destruct (mem b (at_ (g_e g) b)) eqn:M; [|discriminate].
        apply mem_in in M. exact (L b M). }
    destruct (remv_spec b g g1 r I RV) as [I1 [V1 [E1 [_ P1]]]]. destruct (add_element (Z.of_nat b) round o) as [o1 ok1] eqn:AE.
    destruct (add_ok _ _ _ _ _ O AE) as [O1 [B1 F1]]. assert (LE : (0 <=? round)%Z = true) by (apply Z.leb_le; auto). rewrite B1, LE in F1. cbn [andb] in F1. cbn [fst].
    destruct (IH round g1 o1) as [g' [o' [T [I' [O' [V' [E' [F' [G' LN]]]]]]]]]; auto.
    { intros v X. apply E1 in X. apply (L v). tauto. }
    { intros x X. apply V1. split; [apply IC; right; auto|intro; subst; auto]. }
    exists g', o'. split; auto. split; auto. split; auto. split; [|split; [|split; [|split]]].
    + intros u. rewrite V', V1. simpl. intuition.
    + intros x y. rewrite E', E1. simpl. intuition.
    + intros x [X|X]; [|auto]. subst x. destruct (mem_dec b bs); [auto|]. rewrite G', F1, Z.eqb_refl; auto.
      intros y Y Z. apply Nat2Z.inj in Z. congruence.
    + intros x X. rewrite G' by (intros; apply X; right; auto). rewrite F1. destruct (Z.eqb_spec x (Z.of_nat b)); auto. exfalso. apply (X b); auto.
    + apply P1 in Vb. apply Permutation_length in Vb. simpl in *. lia.
Qed.

(** State of the loop; [E0] is the initial adjacency. *)
Record RI (blocks : list nat) (E0 : nat -> nat -> Prop) (covered : nat) (round : Z) (g : graph) (o : og) : Prop := mkRI {
  ri_g : GInv g; ri_o : ok o; ri_round : (0 <= round)%Z;
  ri_cov : covered + length (g_v g) = length blocks;
  ri_sub : incl (g_v g) blocks;
  ri_adj : forall a b, adj g a b <-> In a (g_v g) /\ In b (g_v g) /\ E0 a b;
  ri_grp : forall x r, zfind x (e2g o) = Some r -> (0 <= r < round)%Z /\ exists b, x = Z.of_nat b /\ In b blocks /\ ~ In b (g_v g);
  ri_all : forall b, In b blocks -> ~ In b (g_v g) -> exists r, zfind (Z.of_nat b) (e2g o) = Some r;
  ri_ind : forall a b r, zfind (Z.of_nat a) (e2g o) = Some r -> zfind (Z.of_nat b) (e2g o) = Some r -> ~ E0 a b }.

Lemma rec_step : forall blocks E0 covered round g o, NoDup blocks -> (forall v, ~ E0 v v) ->
  RI blocks E0 covered round g o ->
  exists ord k g' o', independent_set_ordering g = Some (ord, k) /\ take_round (firstn k ord) round g o = Some (g', o') /\
    (g_v g <> [] -> 1 <= k) /\ RI blocks E0 (covered + k) (round + 1) g' o'.
Proof.
  intros blocks E0 covered round g o ND L0 I.
  assert (L : isolated_loops g) by (intros v X; apply (ri_adj _ _ _ _ _ _ I) in X; destruct X as [_ [_ X]]; exact (L0 v X)).
  destruct (iso_ok g (ri_g _ _ _ _ _ _ I) L) as [ord [k [E OQ]]]. destruct OQ as [P K SP IN MX].
  assert (NO : NoDup ord) by (eapply Permutation_NoDup; [symmetry; exact P|apply gi_nodup; apply (ri_g _ _ _ _ _ _ I)]).
  assert (NF : NoDup (firstn k ord)).
  { rewrite <- (firstn_skipn k ord) in NO. clear - NO. induction (firstn k ord) as [|x l IH]; [constructor|]. simpl in NO. inversion NO; subst.
    constructor; auto. intro; apply H1; apply in_or_app; auto. }
  assert (IF : incl (firstn k ord) (g_v g)).
  { intros x X. eapply Permutation_in; [exact P|]. rewrite <- (firstn_skipn k ord). apply in_or_app; auto. }
  destruct (take_round_ok (firstn k ord) round g o) as [g' [o' [T [I' [O' [V' [E' [F' [G' LN]]]]]]]]]; auto;
    try apply I.
  exists ord, k, g', o'. split; auto. split; auto.
  assert (LK : length (firstn k ord) = k) by (rewrite firstn_length; lia).
  split.
  - intros NE. destruct k; [|lia]. exfalso. destruct (g_v g) as [|v l] eqn:GV; [congruence|].
    destruct (MX v) as [a [A _]]; [|contradiction]. simpl. eapply Permutation_in; [symmetry; exact P|left; auto].
  - pose proof (ri_grp _ _ _ _ _ _ I) as GR. pose proof (ri_all _ _ _ _ _ _ I) as AL. pose proof (ri_ind _ _ _ _ _ _ I) as ID.
    pose proof (ri_round _ _ _ _ _ _ I) as RR. pose proof (ri_cov _ _ _ _ _ _ I) as CV. pose proof (ri_sub _ _ _ _ _ _ I) as SB. pose proof (ri_adj _ _ _ _ _ _ I) as AD.
    assert (LOOK : forall b r, zfind (Z.of_nat b) (e2g o') = Some r -> (In b (firstn k ord) /\ r = round) \/ (~ In b (firstn k ord) /\ zfind (Z.of_nat b) (e2g o) = Some r)).
    { intros b r H. destruct (mem_dec b (firstn k ord)) as [M|M]; [left; rewrite (F' b M) in H; split; auto; congruence|]. right. split; auto. rewrite <- G'; auto.
      intros c C D. apply Nat2Z.inj in D. congruence. }
    constructor; auto; try lia.
    + intros x X. apply V' in X. apply SB. tauto.
    + intros a b. rewrite E', !V', AD. tauto.
    + intros x r H. destruct (zfind x (e2g o)) as [r0|] eqn:FX.
      * destruct (GR x r0 FX) as [R1 [b [-> [B2 B3]]]]. apply LOOK in H. destruct H as [[H1 H2]|[H1 H2]].
        { exfalso. apply B3. apply IF. auto. }
        { split; [|exists b; rewrite V'; tauto]. assert (r = r0) by congruence. lia. }
      * assert (X : exists b, In b (firstn k ord) /\ x = Z.of_nat b).
        { clear - H FX G'. destruct (in_dec Z.eq_dec x (map Z.of_nat (firstn k ord))) as [M|M].
          - apply in_map_iff in M. destruct M as [b [? ?]]. exists b; auto.
          - rewrite G' in H; [congruence|]. intros b B C. apply M. subst. apply in_map; auto. }
        destruct X as [b [B ->]]. rewrite (F' b B) in H. inversion H; subst. split; [lia|]. exists b. rewrite V'. repeat split; auto. tauto.
    + intros b B NB. destruct (mem_dec b (firstn k ord)) as [M|M]; [exists round; auto|]. destruct (AL b B) as [r R].
      * intros X. apply NB. apply V'. auto.
      * exists r. rewrite G'; auto. intros c C D. apply Nat2Z.inj in D. congruence.
    + intros a b r A B. apply LOOK in A, B. destruct A as [[A1 A2]|[A1 A2]], B as [[B1 B2]|[B1 B2]].
      * intros X. apply (IN a b A1 B1). apply AD. auto.
      * apply GR in B2. lia.
      * apply GR in A2. lia.
      * eapply ID; eauto.
Qed.

Lemma rec_loop_done : forall fuel blocks E0 covered round g o, NoDup blocks -> (forall v, ~ E0 v v) -> RI blocks E0 covered round g o ->
  length blocks - covered <= fuel ->
  exists o', rec_loop fuel (length blocks) covered round g o = RDone o' /\ ok o' /\
    (forall x r, zfind x (e2g o') = Some r -> (0 <= r)%Z /\ exists b, x = Z.of_nat b /\ In b blocks) /\
    (forall b, In b blocks -> exists r, zfind (Z.of_nat b) (e2g o') = Some r) /\
    (forall a b r, zfind (Z.of_nat a) (e2g o') = Some r -> zfind (Z.of_nat b) (e2g o') = Some r -> ~ E0 a b).
Proof.
  induction fuel as [|fuel IH]; intros blocks E0 covered round g o ND L0 I F.
  - simpl. destruct (Nat.leb_spec (length blocks) covered); [|lia]. exists o. split; auto.
    pose proof (ri_cov _ _ _ _ _ _ I) as CV. assert (GV : g_v g = []) by (destruct (g_v g); auto; simpl in CV; lia).
    split; [apply I|]. split; [|split].
    + intros x r X. apply (ri_grp _ _ _ _ _ _ I) in X. destruct X as [X [b [B1 [B2 _]]]]. split; [lia|eauto].
    + intros b B. apply (ri_all _ _ _ _ _ _ I); auto. rewrite GV. auto.
    + apply I.
  - simpl. destruct (Nat.leb_spec (length blocks) covered).
    + exists o. split; auto.
      pose proof (ri_cov _ _ _ _ _ _ I) as CV. assert (GV : g_v g = []) by (destruct (g_v g); auto; simpl in CV; lia).
      split; [apply I|]. split; [|split].
      * intros x r X. apply (ri_grp _ _ _ _ _ _ I) in X. destruct X as [X [b [B1 [B2 _]]]]. split; [lia|eauto].
      * intros b B. apply (ri_all _ _ _ _ _ _ I); auto. rewrite GV. auto.
      * apply I.
    + destruct (rec_step blocks E0 covered round g o ND L0 I) as [ord [k [g' [o' [E1 [E2 [K I']]]]]]]. rewrite E1, E2.
      apply (IH blocks E0 (covered + k) (round + 1)%Z g' o' ND L0 I').
      assert (1 <= k); [|lia]. apply K. intros GV. pose proof (ri_cov _ _ _ _ _ _ I). rewrite GV in *. simpl in *. lia.
Qed.

(** With blocks outside the graph the loop goes on for ever. *)
Lemma rec_loop_forever : forall fuel total covered round g o, GInv g -> isolated_loops g -> ok o -> (0 <= round)%Z -> covered + length (g_v g) < total ->
  rec_loop fuel total covered round g o = RRunning.
Proof.
  induction fuel as [|fuel IH]; intros total covered round g o I L O R C; simpl; destruct (Nat.leb_spec total covered); try lia; auto.
  destruct (iso_ok g I L) as [ord [k [E OQ]]]. rewrite E. destruct OQ as [P K SP IN MX].
  assert (NO : NoDup ord) by (eapply Permutation_NoDup; [symmetry; exact P|apply gi_nodup; auto]).
  destruct (take_round_ok (firstn k ord) round g o) as [g' [o' [T [I' [O' [V' [E' [F' [G' LN]]]]]]]]]; auto.
  - rewrite <- (firstn_skipn k ord) in NO. clear - NO. induction (firstn k ord) as [|x l IH]; [constructor|]. simpl in NO. inversion NO; subst.
    constructor; auto. intro; apply H1; apply in_or_app; auto.
  - intros x X. eapply Permutation_in; [exact P|]. rewrite <- (firstn_skipn k ord). apply in_or_app; auto.
  - rewrite T. apply IH; auto; try lia.
    + intros v X. apply E' in X. apply (L v). tauto.
    + rewrite firstn_length in LN. lia.
Qed.

(** ** Independence of hash table iteration order. *)
Definition same_graph (g g' : graph) : Prop := (forall v, In v (g_v g) <-> In v (g_v g')) /\ (forall a b, adj g a b <-> adj g' a b).

Lemma nodup_same_length : forall (l l' : list nat), NoDup l -> NoDup l' -> (forall x, In x l <-> In x l') -> length l = length l'.
Proof.
  intros l l' N N' H. apply Nat.le_antisymm; apply NoDup_incl_length; auto; intros x X; apply H; auto.
Qed.

Lemma same_degree : forall g g' v, GInv g -> GInv g' -> same_graph g g' -> degree g v = degree g' v.
Proof. intros g g' v I I' [_ A]. apply nodup_same_length; try apply gi_set; auto. intros x. apply (A v x). Qed.

Lemma sorted_unique : forall (lt : nat -> nat -> bool) l l',
  (forall x y, lt x y = true \/ x = y \/ lt y x = true) -> (forall x y, lt x y = true -> lt y x = false) ->
  StronglySorted (fun a b => lt b a = false) l -> StronglySorted (fun a b => lt b a = false) l' -> Permutation l l' -> l = l'.
Proof.
  intros lt l. induction l as [|x l IH]; intros l' T A S S' P; [apply Permutation_nil in P; auto|].
  destruct l' as [|x' l']; [symmetry in P; apply Permutation_nil in P; discriminate|].
  inversion S; subst. inversion S'; subst. rewrite Forall_forall in *.
  assert (x = x').
  { destruct (T x x') as [X|[X|X]]; auto.
    - assert (In x (x' :: l')) by (eapply Permutation_in; [exact P|left; auto]). destruct H; [auto|]. apply H4 in H. congruence.
    - assert (In x' (x :: l)) by (eapply Permutation_in; [symmetry; exact P|left; auto]). destruct H; [auto|]. apply H2 in H. congruence. }
  subst. f_equal. apply (IH l'); auto. eapply Permutation_cons_inv; eauto.
Qed.

Lemma ssort_ext : forall A (lt lt' : A -> A -> bool) l, (forall x y, lt x y = lt' x y) -> ssort lt l = ssort lt' l.
Proof.
  intros A lt lt' l H. induction l as [|x l IH]; simpl; auto. rewrite IH. clear IH. induction (ssort lt' l) as [|y r IHr]; simpl; auto. rewrite H, IHr. auto.
Qed.

Lemma pass1_same : forall g g', (forall v, neighbors g v = None <-> neighbors g' v = None) -> (forall a b, adj g a b <-> adj g' a b) ->
  forall q c c' ord, (forall v, c v = c' v) ->
  match pass1 g q c ord, pass1 g' q c' ord with
  | Some (c1, o1), Some (c2, o2) => (forall v, c1 v = c2 v) /\ o1 = o2
  | None, None => True
  | _, _ => False
  end.
Proof.
  intros g g' HN HA. induction q as [|v q IH]; intros c c' ord HC; simpl; [auto|]. rewrite <- HC. destruct (negb (c v =? 0)); [apply IH; auto|].
  destruct (neighbors g v) as [l|] eqn:E1, (neighbors g' v) as [l'|] eqn:E2; auto.
  - apply IH. intros u. rewrite !greys. assert (M : mem u l = mem u l').
    { apply eq_true_iff_eq. rewrite !mem_in. pose proof (HA v u) as X. unfold adj, at_ in X. unfold neighbors in *. rewrite E1, E2 in X. auto. }
    rewrite M. destruct (mem u l'); auto. unfold cset. rewrite HC. auto.
  - apply HN in E2. congruence.
  - apply HN in E1. congruence.
Qed.

Lemma iso_same : forall g g', GInv g -> GInv g' -> same_graph g g' -> independent_set_ordering g = independent_set_ordering g'.
Proof.
  intros g g' I I' SG. pose proof (fun v => same_degree g g' v I I' SG) as DG. destruct SG as [SV SA].
  assert (Q : ssort (total_lt g) (g_v g) = ssort (total_lt g') (g_v g')).
  { rewrite (ssort_ext nat (total_lt g) (total_lt g')) by (intros; unfold total_lt; rewrite !DG; auto).
    assert (TR : forall h l, StronglySorted (fun a b => total_lt h b a = false) (ssort (total_lt h) l)).
    { intros h l. apply Sorted_StronglySorted; [|apply ssort_sorted; apply total_lt_asym]. intros x y z A B.
      destruct (total_lt h z x) eqn:E; auto. apply total_lt_spec in E.
      assert (A' : ~ total_lt h y x = true) by congruence. assert (B' : ~ total_lt h z y = true) by congruence. rewrite total_lt_spec in A', B'. lia. }
    apply (sorted_unique (total_lt g')); auto.
    - intros x y. rewrite !total_lt_spec. lia.
    - intros x y. apply total_lt_asym.
    - rewrite !ssort_perm. apply NoDup_Permutation; try apply gi_nodup; auto. }
  unfold independent_set_ordering. rewrite Q. unfold order_queue.
  assert (HN : forall v, neighbors g v = None <-> neighbors g' v = None).
  { intros v. pose proof (gi_dom g I v) as D1. pose proof (gi_dom g' I' v) as D2. rewrite SV in D1. unfold neighbors.
    assert (SD : g_e g v <> None <-> g_e g' v <> None) by (rewrite <- D1, <- D2; tauto).
    destruct (g_e g v), (g_e g' v); split; intros X; try congruence; exfalso; destruct SD as [S1 S2]; first [apply S1; congruence | apply S2; congruence]. }
  pose proof (pass1_same g g' HN SA (ssort (total_lt g') (g_v g')) (fun _ => 0) (fun _ => 0) [] (fun _ => eq_refl)) as P.
  destruct (pass1 g _ _ _) as [[c1 o1]|], (pass1 g' _ _ _) as [[c2 o2]|]; try contradiction; auto.
  destruct P as [PC PO]. subst o2. rewrite (filter_ext (fun v => negb (c1 v =? 2)) (fun v => negb (c2 v =? 2))) by (intros; rewrite PC; auto).
  rewrite (nodup_same_length (g_v g) (g_v g')); auto; apply gi_nodup; auto.
Qed.
