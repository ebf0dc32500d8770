Require Import ZArith List Lia Bool Sorting.Sorted Sorting.Permutation.
From Verif Require Import ZMap OrderedGroupsModel OrderedGroupsSpec.
Import ListNotations.
Open Scope Z_scope.

(** Representation invariant. *)
Record ok (s : og) : Prop := mkOk {
  ok_g : zsorted (g2e s);
  ok_e : zsorted (e2g s);
  ok_sets : forall g es, zfind g (g2e s) = Some es -> zsorted es /\ es <> [];
  ok_pos : forall e g, zfind e (e2g s) = Some g -> 0 <= g;
  ok_eq : forall e g, zfind e (e2g s) = Some g <->
                      exists es, zfind g (g2e s) = Some es /\ In e (zkeys es) }.

Lemma ok_empty : ok og_empty.
Proof.
  constructor; simpl; try apply zsorted_nil; try discriminate.
  intros e g; split; [discriminate|]. intros [es [H _]]; discriminate.
Qed.

Lemma zfind_erase_from_group : forall e g m k, zsorted m ->
  zfind k (erase_from_group e g m) =
  if k =? g then (match zsrem e (group_get g m) with [] => None | x => Some x end)
  else zfind k m.
Proof.
  intros e g m k Hs. unfold erase_from_group.
  destruct (zsrem e (group_get g m)) eqn:E.
  - rewrite zfind_erase by (apply zsorted_put; auto).
    destruct (k =? g) eqn:Ek; auto. rewrite zfind_put, Ek. auto.
  - rewrite zfind_put. auto.
Qed.

Lemma zsorted_erase_from_group : forall e g m, zsorted m -> zsorted (erase_from_group e g m).
Proof.
  intros. unfold erase_from_group. destruct (zsrem e (group_get g m)).
  - apply zsorted_erase, zsorted_put; auto.
  - apply zsorted_put; auto.
Qed.

Lemma in_zkeys_rem : forall e x (s : zset), zsorted s ->
  (In x (zkeys (zsrem e s)) <-> x <> e /\ In x (zkeys s)).
Proof.
  intros e x s Hs. unfold zsrem.
  destruct (zfind x (zerase e s)) eqn:F.
  - pose proof F as F'. rewrite zfind_erase in F' by auto.
    apply zfind_in_keys in F. destruct (x =? e) eqn:E; [discriminate|].
    apply Z.eqb_neq in E. apply zfind_in_keys in F'. intuition.
  - pose proof F as F'. apply zfind_none_keys in F. rewrite zfind_erase in F' by auto.
    split; [intuition|]. intros [H1 H2]. apply Z.eqb_neq in H1. rewrite H1 in F'.
    apply zfind_none_keys in F'. contradiction.
Qed.

Lemma in_zkeys_add : forall e x (s : zset), In x (zkeys (zsadd e s)) <-> x = e \/ In x (zkeys s).
Proof. intros. apply zkeys_put_in. Qed.

(** Erasing [e] from its group [g], as a fact about the pair of maps. *)
Lemma erase_spec : forall s e g, ok s -> zfind e (e2g s) = Some g ->
  let m := erase_from_group e g (g2e s) in
  zsorted m /\
  (forall h es, zfind h m = Some es -> zsorted es /\ es <> []) /\
  (forall x h, (x <> e /\ zfind x (e2g s) = Some h) <->
               exists es, zfind h m = Some es /\ In x (zkeys es)).
Proof.
  intros s e g O Hf m.
  destruct (proj1 (ok_eq s O e g) Hf) as [es0 [F0 I0]].
  destruct (ok_sets s O g es0 F0) as [S0 N0].
  assert (G : group_get g (g2e s) = es0) by (unfold group_get; rewrite F0; auto).
  repeat split.
  - apply zsorted_erase_from_group, (ok_g s O).
  - unfold m in H. rewrite zfind_erase_from_group in H by apply (ok_g s O).
    destruct (h =? g) eqn:E.
    + rewrite G in H. destruct (zsrem e es0) eqn:R; [discriminate|].
      inversion H; subst. rewrite <- R. apply zsorted_erase; auto.
    + apply (ok_sets s O) in H. tauto.
  - unfold m in H. rewrite zfind_erase_from_group in H by apply (ok_g s O).
    destruct (h =? g) eqn:E.
    + destruct (zsrem e (group_get g (g2e s))) eqn:R; [discriminate|].
      inversion H; discriminate.
    + apply (ok_sets s O) in H. tauto.
  - intros [Hx Hh]. unfold m. rewrite zfind_erase_from_group by apply (ok_g s O).
    destruct (h =? g) eqn:E.
    + apply Z.eqb_eq in E; subst h. apply (ok_eq s O) in Hh. destruct Hh as [es [F I]].
      assert (es = es0) by congruence; subst es. rewrite G.
      assert (I' : In x (zkeys (zsrem e es0))) by (apply in_zkeys_rem; auto).
      destruct (zsrem e es0) as [|p q] eqn:R; [contradiction|]. exists (p :: q). auto.
    + apply (ok_eq s O) in Hh. auto.
  - destruct H as [es [F I]]. unfold m in F.
    rewrite zfind_erase_from_group in F by apply (ok_g s O).
    destruct (h =? g) eqn:E.
    + rewrite G in F. destruct (zsrem e es0) eqn:R; [discriminate|]. inversion F; subst.
      rewrite <- R in I. apply in_zkeys_rem in I; tauto.
    + intros ->. assert (zfind e (e2g s) = Some h) by (apply (ok_eq s O); eauto).
      apply Z.eqb_neq in E. congruence.
  - destruct H as [es [F I]]. unfold m in F.
    rewrite zfind_erase_from_group in F by apply (ok_g s O).
    destruct (h =? g) eqn:E.
    + apply Z.eqb_eq in E; subst h.
      rewrite G in F. destruct (zsrem e es0) eqn:R; [discriminate|]. inversion F; subst.
      rewrite <- R in I. apply in_zkeys_rem in I; [|auto]. apply (ok_eq s O). eexists; split; [exact F0|tauto].
    + apply (ok_eq s O). eauto.
Qed.

(** Inserting [e] in group [g] when it is in no group of [m]. *)
Lemma insert_spec : forall (m : zmap zset) (M : zmap Z) e g, 0 <= g -> zsorted m -> zsorted M ->
  (forall h es, zfind h m = Some es -> zsorted es /\ es <> []) ->
  (forall x h, zfind x M = Some h -> 0 <= h) ->
  (forall x h, (x <> e /\ zfind x M = Some h) <->
               exists es, zfind h m = Some es /\ In x (zkeys es)) ->
  ok (mkOG (zput g (zsadd e (group_get g m)) m) (zput e g M)).
Proof.
  intros m M e g Hg Sm SM Hsets Hpos Heq.
  assert (SG : zsorted (group_get g m)).
  { unfold group_get. destruct (zfind g m) eqn:F; [apply Hsets in F; tauto | apply zsorted_nil]. }
  constructor; simpl.
  - apply zsorted_put; auto.
  - apply zsorted_put; auto.
  - intros h es F. rewrite zfind_put in F. destruct (h =? g).
    + inversion F; subst. split.
      * apply zsorted_put; auto.
      * intros C. assert (I : In e (zkeys (zsadd e (group_get g m)))) by (apply in_zkeys_add; auto).
        rewrite C in I. contradiction.
    + apply Hsets in F; auto.
  - intros x h F. rewrite zfind_put in F. destruct (x =? e); [inversion F; lia|eauto].
  - intros x h. rewrite zfind_put. destruct (x =? e) eqn:Ex.
    + apply Z.eqb_eq in Ex; subst x. split.
      * intros H; inversion H; subst. exists (zsadd e (group_get h m)).
        rewrite zfind_put_same. split; auto. apply in_zkeys_add; auto.
      * intros [es [F I]]. rewrite zfind_put in F. destruct (h =? g) eqn:E.
        -- apply Z.eqb_eq in E; subst; auto.
        -- assert (C : e <> e /\ zfind e M = Some h) by (apply Heq; eauto). tauto.
    + apply Z.eqb_neq in Ex. split.
      * intros H. assert (C : exists es, zfind h m = Some es /\ In x (zkeys es)) by (apply Heq; auto).
        destruct C as [es [F I]]. destruct (h =? g) eqn:E.
        -- apply Z.eqb_eq in E; subst h. exists (zsadd e (group_get g m)).
           rewrite zfind_put_same. split; auto. apply in_zkeys_add. right.
           unfold group_get. rewrite F. auto.
        -- exists es. rewrite zfind_put, E. auto.
      * intros [es [F I]]. rewrite zfind_put in F. destruct (h =? g) eqn:E.
        -- apply Z.eqb_eq in E; subst h. inversion F; subst. apply in_zkeys_add in I.
           destruct I as [I|I]; [contradiction|].
           unfold group_get in I. destruct (zfind g m) eqn:F'; [|contradiction].
           eapply Heq; eauto.
        -- eapply Heq; eauto.
Qed.

Lemma add_ok : forall e g s s' b, ok s -> add_element e g s = (s', b) ->
  ok s' /\ b = (0 <=? g) /\
  (forall x, zfind x (e2g s') = if b && (x =? e) then Some g else zfind x (e2g s)).
Proof.
  intros e g s s' b O H. unfold add_element in H.
  destruct (g <? 0) eqn:Eg.
  - inversion H; subst. apply Z.ltb_lt in Eg. split; [auto|split; [|auto]].
    symmetry. apply Z.leb_gt. lia.
  - apply Z.ltb_ge in Eg. destruct (zfind e (e2g s)) as [g0|] eqn:F.
    + destruct (g0 =? g) eqn:E.
      * inversion H; subst. apply Z.eqb_eq in E; subst. split; [auto|split].
        -- symmetry; apply Z.leb_le; lia.
        -- intros x. simpl. destruct (x =? e) eqn:Ex; auto. apply Z.eqb_eq in Ex; subst; auto.
      * inversion H; subst; clear H.
        destruct (erase_spec s e g0 O F) as [H1 [H2 H3]].
        split; [|split].
        -- apply insert_spec; auto; [apply (ok_e s O) | apply (ok_pos s O)].
        -- symmetry; apply Z.leb_le; lia.
        -- intros x. simpl. rewrite zfind_put. auto.
    + inversion H; subst; clear H. split; [|split].
      * apply insert_spec; auto; try apply O.
        intros x h. rewrite <- (ok_eq s O). split; [tauto|]. intros Hx; split; auto. congruence.
      * symmetry; apply Z.leb_le; lia.
      * intros x. simpl. rewrite zfind_put. auto.
Qed.

Lemma remove_ok : forall e s s' b, ok s -> remove e s = (s', b) ->
  ok s' /\ b = zmem e (e2g s) /\
  (forall x, zfind x (e2g s') = if x =? e then None else zfind x (e2g s)).
Proof.
  intros e s s' b O H. unfold remove, group_id in H. unfold zmem.
  destruct (zfind e (e2g s)) as [g|] eqn:F.
  - pose proof (ok_pos s O _ _ F). assert (E : (g <? 0) = false) by (apply Z.ltb_ge; lia).
    rewrite E in H. inversion H; subst; clear H.
    destruct (erase_spec s e g O F) as [H1 [H2 H3]].
    split; [|split; auto].
    + constructor; simpl; auto.
      * apply zsorted_erase, O.
      * intros x h. rewrite zfind_erase by apply O. destruct (x =? e); [discriminate|]. apply O.
      * intros x h. rewrite <- H3. rewrite zfind_erase by apply O.
        destruct (x =? e) eqn:Ex; [apply Z.eqb_eq in Ex | apply Z.eqb_neq in Ex]; subst; split; try tauto.
        discriminate.
    + intros x. simpl. apply zfind_erase, O.
  - simpl in H. inversion H; subst. split; [auto|split; [auto|]].
    intros x. destruct (x =? e) eqn:Ex; auto. apply Z.eqb_eq in Ex; subst; auto.
Qed.

Lemma count_is_ext : forall P Q n, (forall x, P x <-> Q x) -> count_is P n -> count_is Q n.
Proof.
  intros P Q n H [l [N [I L]]]. exists l. split; auto. split; auto.
  intros x. rewrite I. auto.
Qed.

Lemma remove_all_ok : forall es n s s' k, ok s -> remove_all es n s = (s', k) ->
  ok s' /\
  count_is (fun e => In e es /\ zfind e (e2g s) <> None) (k - n) /\
  (forall x, zfind x (e2g s') = if in_dec Z.eq_dec x es then None else zfind x (e2g s)).
Proof.
  induction es as [|e es IH]; intros n s s' k O H; simpl in H.
  - inversion H; subst. split; [auto|split; [|auto]].
    exists []. split; [constructor|]. split; [|simpl; lia]. simpl. intuition.
  - destruct (remove e s) as [s1 b] eqn:R.
    destruct (remove_ok e s s1 b O R) as [O1 [B F]].
    destruct (IH _ _ _ _ O1 H) as [O' [C F']]. split; auto. split.
    + destruct C as [l [N [I L]]]. unfold zmem in B. destruct (zfind e (e2g s)) as [g|] eqn:Fe.
      * subst b. exists (e :: l). split; [|split].
        -- constructor; auto. rewrite I. rewrite F, Z.eqb_refl. tauto.
        -- intros x. simpl. rewrite I, F. destruct (x =? e) eqn:Ex.
           ++ apply Z.eqb_eq in Ex; subst x. split; [|auto]. intros _.
              split; [auto| congruence].
           ++ apply Z.eqb_neq in Ex. intuition congruence.
        -- simpl. lia.
      * subst b. exists l. split; [auto|split; [|lia]].
        intros x. simpl. rewrite I, F. destruct (x =? e) eqn:Ex.
        -- apply Z.eqb_eq in Ex; subst x. intuition.
        -- apply Z.eqb_neq in Ex. intuition congruence.
    + intros x. rewrite F', F.
      destruct (in_dec Z.eq_dec x es) as [i|i]; destruct (in_dec Z.eq_dec x (e :: es)) as [j|j]; auto.
      * exfalso; apply j; right; auto.
      * destruct j as [->|j]; [|contradiction]. rewrite Z.eqb_refl. auto.
      * assert (E : (x =? e) = false) by (apply Z.eqb_neq; intros ->; apply j; left; auto).
        rewrite E. auto.
Qed.

Lemma remove_bulk_ok : forall es s s' k, ok s -> remove_bulk es s = (s', k) ->
  ok s' /\
  count_is (fun e => In e es /\ zfind e (e2g s) <> None) k /\
  (forall x, zfind x (e2g s') = if in_dec Z.eq_dec x es then None else zfind x (e2g s)).
Proof.
  intros es s s' k O H. unfold remove_bulk in H.
  destruct ((num_elements s =? 0) || (Z.of_nat (length es) =? 0)) eqn:E.
  - inversion H; subst. apply orb_true_iff in E.
    assert (NN : forall x, In x es -> zfind x (e2g s') = None).
    { intros x Hx. destruct E as [E|E]; apply Z.eqb_eq in E.
      - unfold num_elements in E. destruct (e2g s'); [auto|simpl in E; lia].
      - destruct es; [contradiction|simpl in E; lia]. }
    split; auto. split.
    + exists []. split; [constructor|]. split; [|auto]. simpl. intros x. split; [tauto|].
      intros [H1 H2]. apply H2. auto.
    + intros x. destruct (in_dec Z.eq_dec x es); auto.
  - destruct (remove_all_ok _ _ _ _ _ O H) as [H1 [H2 H3]].
    rewrite Z.sub_0_r in H2. auto.
Qed.

(** ** Reverse *)
Lemma fold_put_same : forall (es : list Z) id (M : zmap Z) x, In x es ->
  zfind x (fold_left (fun acc e => zput e id acc) es M) = Some id.
Proof.
  assert (K : forall (es : list Z) id (M : zmap Z) x, zfind x M = Some id ->
    zfind x (fold_left (fun acc e => zput e id acc) es M) = Some id).
  { induction es; simpl; auto. intros. apply IHes. rewrite zfind_put.
    destruct (x =? a); auto. }
  induction es; simpl; [contradiction|]. intros id M x [->|H]; auto.
  apply K. apply zfind_put_same.
Qed.

Lemma fold_put_other : forall (es : list Z) id (M : zmap Z) x, ~ In x es ->
  zfind x (fold_left (fun acc e => zput e id acc) es M) = zfind x M.
Proof.
  induction es; simpl; auto. intros id M x H. rewrite IHes by tauto.
  apply zfind_put_other. intros ->; tauto.
Qed.

Lemma fold_put_sorted : forall (es : list Z) id (M : zmap Z), zsorted M ->
  zsorted (fold_left (fun acc e => zput e id acc) es M).
Proof. induction es; simpl; auto. intros. apply IHes, zsorted_put; auto. Qed.

Lemma reverse_loop_spec : forall rest id newg M s',
  reverse_loop rest id newg M = Some s' ->
  zsorted newg -> zsorted M ->
  (forall i j gi esi gj esj x, nth_error rest i = Some (gi, esi) -> nth_error rest j = Some (gj, esj) ->
     In x (zkeys esi) -> In x (zkeys esj) -> i = j) ->
  zsorted (g2e s') /\ zsorted (e2g s') /\
  (forall i g es, nth_error rest i = Some (g, es) -> zfind (id + Z.of_nat i) (g2e s') = Some es) /\
  (forall k, k < id \/ id + Z.of_nat (length rest) <= k -> zfind k (g2e s') = zfind k newg) /\
  (forall i g es x, nth_error rest i = Some (g, es) -> In x (zkeys es) ->
     zfind x (e2g s') = Some (id + Z.of_nat i)) /\
  (forall x, (forall i g es, nth_error rest i = Some (g, es) -> ~ In x (zkeys es)) ->
     zfind x (e2g s') = zfind x M).
Proof.
  induction rest as [|[g es] rest IH]; intros id newg M s' H SN SM D; simpl in H.
  - inversion H; subst; simpl. repeat split; auto.
    + intros [|i] ? ? C; discriminate.
    + intros [|i] ? ? ? C; discriminate.
  - destruct (id + 1 >? INT_MAX) eqn:E; [discriminate|].
    assert (D' : forall i j gi esi gj esj x, nth_error rest i = Some (gi, esi) ->
       nth_error rest j = Some (gj, esj) -> In x (zkeys esi) -> In x (zkeys esj) -> i = j).
    { intros i j gi esi gj esj x Hi Hj Ii Ij.
      assert (S i = S j) by (eapply (D (S i) (S j)); simpl; eauto). congruence. }
    destruct (IH _ _ _ _ H (zsorted_put _ _ _ SN) (fold_put_sorted _ _ _ SM) D')
      as [A1 [A2 [A3 [A4 [A5 A6]]]]].
    split; auto. split; auto. split; [|split; [|split]].
    + intros [|i] g' es' Hn; simpl in Hn.
      * inversion Hn; subst. rewrite A4 by lia. rewrite Z.add_0_r. apply zfind_put_same.
      * rewrite <- (A3 _ _ _ Hn). f_equal. lia.
    + intros k Hk. simpl length in Hk. rewrite A4 by lia. apply zfind_put_other. lia.
    + intros [|i] g' es' x Hn Ix; simpl in Hn.
      * inversion Hn; subst. rewrite A6.
        -- rewrite fold_put_same by auto. f_equal. lia.
        -- intros j gj esj Hj Ij. assert (0%nat = S j) by (eapply (D 0%nat (S j)); simpl; eauto).
           discriminate.
      * rewrite (A5 _ _ _ _ Hn Ix). f_equal. lia.
    + intros x Hx. rewrite A6.
      * apply fold_put_other. apply (Hx 0%nat g es). reflexivity.
      * intros i g' es' Hi. apply (Hx (S i) g' es'). auto.
Qed.

Lemma sorted_rev_nth : forall {A} (m : zmap A) i j gi ei gj ej, zsorted m ->
  nth_error (rev m) i = Some (gi, ei) -> nth_error (rev m) j = Some (gj, ej) ->
  (i < j)%nat -> gj < gi.
Proof.
  intros A m. induction m as [|[k v] m IH]; intros i j gi ei gj ej Hs Hi Hj L; simpl in *.
  - destruct i; discriminate.
  - unfold zsorted in Hs; simpl in Hs; inversion Hs as [|? ? Hs' Hf]; subst.
    rewrite Forall_forall in Hf.
    assert (Lj : (j < length (rev m ++ [(k, v)]))%nat) by (apply nth_error_Some; congruence).
    rewrite app_length in Lj; simpl in Lj.
    assert (Hi' : nth_error (rev m) i = Some (gi, ei)).
    { rewrite nth_error_app1 in Hi by lia. auto. }
    assert (Ki : In gi (zkeys m)).
    { apply nth_error_In in Hi'. apply in_rev in Hi'. apply in_map_iff. exists (gi, ei); auto. }
    destruct (Nat.eq_dec j (length (rev m))) as [->|Nj].
    + rewrite nth_error_app2 in Hj by lia. rewrite Nat.sub_diag in Hj. simpl in Hj.
      inversion Hj; subst. apply Hf; auto.
    + rewrite nth_error_app1 in Hj by lia. eapply IH; eauto.
Qed.

(** The key fact: the group at position [p] from the end gets id [last + p]. *)
Lemma reverse_spec : forall s s', ok s -> reverse s = Some s' ->
  ok s' /\
  (g2e s = [] /\ s' = s \/
   exists g0 es0 rest, rev (g2e s) = (g0, es0) :: rest /\
   (forall p g es, nth_error (rev (g2e s)) p = Some (g, es) ->
      zfind (g0 + Z.of_nat p) (g2e s') = Some es /\
      (forall x, In x (zkeys es) -> zfind x (e2g s') = Some (g0 + Z.of_nat p)))  /\
   (forall x, zfind x (e2g s) = None -> zfind x (e2g s') = None)).
Proof.
  intros s s' O H. unfold reverse in H.
  destruct (rev (g2e s)) as [|[g0 es0] rest] eqn:R.
  - assert (g2e s = []) by (rewrite <- (rev_involutive (g2e s)), R; auto).
    inversion H; subst. auto.
  - destruct (g0 + 1 >? INT_MAX) eqn:E; [discriminate|].
    assert (Inm : forall p g es, nth_error (rev (g2e s)) p = Some (g, es) -> zfind g (g2e s) = Some es).
    { intros p g es Hp. apply in_zfind; [apply O|]. apply in_rev. eapply nth_error_In; eauto. }
    assert (D : forall i j gi esi gj esj x, nth_error (rev (g2e s)) i = Some (gi, esi) ->
       nth_error (rev (g2e s)) j = Some (gj, esj) -> In x (zkeys esi) -> In x (zkeys esj) -> i = j).
    { intros i j gi esi gj esj x Hi Hj Ii Ij.
      assert (Fi : zfind x (e2g s) = Some gi) by (apply (ok_eq s O); eauto).
      assert (Fj : zfind x (e2g s) = Some gj) by (apply (ok_eq s O); eauto).
      assert (gi = gj) by congruence; subst.
      destruct (Nat.lt_trichotomy i j) as [L|[L|L]]; auto.
      - pose proof (sorted_rev_nth _ _ _ _ _ _ _ (ok_g s O) Hi Hj L). lia.
      - pose proof (sorted_rev_nth _ _ _ _ _ _ _ (ok_g s O) Hj Hi L). lia. }
    rewrite R in D, Inm.
    destruct (reverse_loop_spec _ _ _ _ _ H) as [A1 [A2 [A3 [A4 [A5 A6]]]]].
    { constructor; [constructor|constructor]. }
    { apply O. }
    { intros i j gi esi gj esj x Hi Hj Ii Ij.
      assert (S i = S j) by (eapply (D (S i) (S j)); simpl; eauto). congruence. }
    assert (KG : forall p g es, nth_error ((g0, es0) :: rest) p = Some (g, es) ->
        zfind (g0 + Z.of_nat p) (g2e s') = Some es).
    { intros [|p] g es Hp; simpl in Hp.
      - inversion Hp; subst. rewrite A4 by lia. simpl. rewrite Z.add_0_r, Z.eqb_refl. auto.
      - rewrite <- (A3 _ _ _ Hp). f_equal. lia. }
    assert (KE : forall p g es x, nth_error ((g0, es0) :: rest) p = Some (g, es) -> In x (zkeys es) ->
        zfind x (e2g s') = Some (g0 + Z.of_nat p)).
    { intros [|p] g es x Hp Ix; simpl in Hp.
      - inversion Hp; subst. rewrite A6.
        + rewrite Z.add_0_r. apply (ok_eq s O). exists es. split; auto.
          apply (Inm 0%nat); reflexivity.
        + intros i gi esi Hi Ii. assert (0%nat = S i) by (eapply (D 0%nat (S i)); simpl; eauto).
          discriminate.
      - rewrite (A5 _ _ _ _ Hp Ix). f_equal. lia. }
    assert (KN : forall x, zfind x (e2g s) = None -> zfind x (e2g s') = None).
    { intros x Hx. rewrite A6; auto. intros i g es Hi Ii.
      assert (zfind x (e2g s) = Some g); [|congruence].
      apply (ok_eq s O). exists es; split; auto. apply (Inm (S i)); auto. }
    assert (KF : forall k es, zfind k (g2e s') = Some es ->
       exists p g, nth_error ((g0, es0) :: rest) p = Some (g, es) /\ k = g0 + Z.of_nat p).
    { intros k es F. destruct (Z_lt_dec k (g0 + 1)) as [L|L].
      - rewrite A4 in F by lia. simpl in F. destruct (k =? g0) eqn:Ek; [|discriminate].
        apply Z.eqb_eq in Ek; subst. inversion F; subst. exists 0%nat, g0. split; auto. lia.
      - destruct (Z_lt_dec k (g0 + 1 + Z.of_nat (length rest))) as [L2|L2].
        + destruct (nth_error rest (Z.to_nat (k - g0 - 1))) as [[g es']|] eqn:Hn.
          * exists (S (Z.to_nat (k - g0 - 1))), g. pose proof (A3 _ _ _ Hn) as F2.
            replace (g0 + 1 + Z.of_nat (Z.to_nat (k - g0 - 1))) with k in F2 by lia.
            split; [|lia]. simpl. congruence.
          * apply nth_error_None in Hn. lia.
        + rewrite A4 in F by lia. simpl in F. destruct (k =? g0) eqn:Ek; [|discriminate].
          apply Z.eqb_eq in Ek. lia. }
    assert (G0 : 0 <= g0).
    { assert (F : zfind g0 (g2e s) = Some es0) by (apply (Inm 0%nat); reflexivity).
      destruct (ok_sets s O _ _ F) as [_ Hne]. destruct es0 as [|[x u] es0']; [congruence|].
      apply (ok_pos s O x). apply (ok_eq s O). eexists; split; eauto. left; auto. }
    split.
    + constructor; auto.
      * intros k es F. destruct (KF _ _ F) as [p [g [Hp _]]].
        apply (ok_sets s O g). apply (Inm p); auto.
      * intros x h F. destruct (zfind x (e2g s)) as [g|] eqn:Fx.
        -- apply (ok_eq s O) in Fx. destruct Fx as [es [Fg Ix]].
           apply zfind_in in Fg. apply in_rev in Fg. rewrite R in Fg.
           apply In_nth_error in Fg. destruct Fg as [p Hp].
           rewrite (KE _ _ _ _ Hp Ix) in F. inversion F; lia.
        -- rewrite (KN _ Fx) in F. discriminate.
      * intros x h. split.
        -- intros F. destruct (zfind x (e2g s)) as [g|] eqn:Fx.
           ++ apply (ok_eq s O) in Fx. destruct Fx as [es [Fg Ix]].
              apply zfind_in in Fg. apply in_rev in Fg. rewrite R in Fg.
              apply In_nth_error in Fg. destruct Fg as [p Hp].
              rewrite (KE _ _ _ _ Hp Ix) in F. inversion F; subst.
              exists es. split; auto. eapply KG; eauto.
           ++ rewrite (KN _ Fx) in F. discriminate.
        -- intros [es [F Ix]]. destruct (KF _ _ F) as [p [g [Hp ->]]]. eapply KE; eauto.
    + right. exists g0, es0, rest. split; auto. split; auto.
      intros p g es Hp. split; [eapply KG; eauto | intros; eapply KE; eauto].
Qed.

Lemma reverse_order : forall s s', ok s -> reverse s = Some s' ->
  ok s' /\ order_reversed (fun e => zfind e (e2g s)) (fun e => zfind e (e2g s')).
Proof.
  intros s s' O H. destruct (reverse_spec s s' O H) as [O' C]. split; auto.
  destruct C as [[C ->]|[g0 [es0 [rest [R [C1 C2]]]]]].
  - assert (N : forall x, zfind x (e2g s) = None).
    { intros x. destruct (zfind x (e2g s)) eqn:F; auto. apply (ok_eq s O) in F.
      rewrite C in F. destruct F as [? [F _]]. discriminate. }
    split; [tauto|]. intros e1 e2 g1 g2 h1 h2 F1. rewrite N in F1. discriminate.
  - assert (POS : forall x g, zfind x (e2g s) = Some g -> exists p es,
       nth_error (rev (g2e s)) p = Some (g, es) /\ In x (zkeys es) /\ zfind x (e2g s') = Some (g0 + Z.of_nat p)).
    { intros x g F. apply (ok_eq s O) in F. destruct F as [es [F Ix]].
      apply zfind_in in F. apply in_rev in F. apply In_nth_error in F. destruct F as [p Hp].
      exists p, es. destruct (C1 _ _ _ Hp) as [_ K]. auto. }
    split.
    + intros e. split; [apply C2|]. intros F. destruct (zfind e (e2g s)) as [g|] eqn:Fe; auto.
      destruct (POS _ _ Fe) as [p [es [_ [_ K]]]]. congruence.
    + intros e1 e2 g1 g2 h1 h2 F1 F2 H1 H2.
      destruct (POS _ _ F1) as [p1 [es1 [N1 [_ K1]]]].
      destruct (POS _ _ F2) as [p2 [es2 [N2 [_ K2]]]].
      assert (h1 = g0 + Z.of_nat p1) by congruence.
      assert (h2 = g0 + Z.of_nat p2) by congruence. subst.
      split; intros L.
      * eapply sorted_rev_nth; [apply O|exact N1|exact N2|lia].
      * destruct (Nat.lt_trichotomy p1 p2) as [L'|[L'|L']]; [lia| |].
        -- subst. rewrite N1 in N2. inversion N2; lia.
        -- pose proof (sorted_rev_nth _ _ _ _ _ _ _ (ok_g s O) N2 N1 L'). lia.
Qed.

(** ** Whole histories *)
Definition rep (s : og) (f : groups) : Prop := ok s /\ forall e, zfind e (e2g s) = f e.

Lemma step_refines : forall o s s' r f, rep s f -> step o s = Some (s', r) ->
  exists f', spec_step f o r f' /\ rep s' f'.
Proof.
  intros o s s' r f [O F] H. destruct o as [e g|e|es| |]; simpl in H.
  - destruct (add_element e g s) as [s1 b] eqn:E. inversion H; subst.
    destruct (add_ok _ _ _ _ _ O E) as [O1 [B G]].
    destruct (Z_lt_dec g 0).
    + exists f. assert (b = false) by (rewrite B; apply Z.leb_gt; lia). subst b.
      split; [rewrite H0; constructor; auto|]. split; auto.
      intros x. rewrite G, H0. simpl. auto.
    + exists (upd e (Some g) f). assert (b = true) by (rewrite B; apply Z.leb_le; lia).
      rewrite H0 in *. split; [constructor; lia|]. split; auto.
      intros x. rewrite G. unfold upd. simpl. destruct (x =? e); auto.
  - destruct (remove e s) as [s1 b] eqn:E. inversion H; subst.
    destruct (remove_ok _ _ _ _ O E) as [O1 [B G]]. unfold zmem in B. rewrite F in B.
    destruct (f e) as [g|] eqn:Fe.
    + subst. exists (upd e None f). split; [econstructor; eauto|]. split; auto.
      intros x. rewrite G. unfold upd. destruct (x =? e); auto.
    + subst. exists f. split; [constructor; auto|]. split; auto.
      intros x. rewrite G. destruct (x =? e) eqn:Ex; auto. apply Z.eqb_eq in Ex; subst; auto.
  - destruct (remove_bulk es s) as [s1 n] eqn:E. inversion H; subst.
    destruct (remove_bulk_ok _ _ _ _ O E) as [O1 [B G]].
    exists (fun e => zfind e (e2g s')). split.
    + constructor.
      * eapply count_is_ext; [|exact B]. intros x. simpl. rewrite F. tauto.
      * intros e. rewrite G, F. auto.
    + split; auto.
  - inversion H; subst. exists no_groups. split; [constructor|]. split; [apply ok_empty|auto].
  - destruct (reverse s) as [s1|] eqn:E; [|discriminate]. inversion H; subst.
    destruct (reverse_order _ _ O E) as [O1 [R1 R2]].
    exists (fun e => zfind e (e2g s')). split; [|split; auto].
    constructor. split.
    + intros e. rewrite <- F. auto.
    + intros e1 e2 g1 g2 h1 h2 F1 F2. rewrite <- F in F1, F2. apply R2; auto.
Qed.

Lemma run_refines : forall os s s' rs f, rep s f -> run os s = Some (s', rs) ->
  exists f', spec_run f os rs f' /\ rep s' f'.
Proof.
  induction os as [|o os IH]; intros s s' rs f R H; simpl in H.
  - inversion H; subst. exists f. split; auto. constructor; auto.
  - destruct (step o s) as [[s1 r]|] eqn:E; [|discriminate].
    destruct (run os s1) as [[s2 rs']|] eqn:E2; [|discriminate]. inversion H; subst.
    destruct (step_refines _ _ _ _ _ R E) as [f1 [S1 R1]].
    destruct (IH _ _ _ _ R1 E2) as [f2 [S2 R2]].
    exists f2. split; auto. econstructor; eauto.
Qed.

Lemma rep_empty : rep og_empty no_groups.
Proof. split; [apply ok_empty|auto]. Qed.

(** Observers *)
Lemma observers_ok : forall s f, rep s f ->
  (forall e, group_id e s = match f e with Some g => g | None => -1 end) /\
  (forall e, is_member e s = true <-> f e <> None) /\
  (forall e g, f e = Some g -> 0 <= g) /\
  (forall g, count_is (fun e => f e = Some g) (group_size g s)) /\
  count_is (fun e => f e <> None) (num_elements s) /\
  count_is (fun g => exists e, f e = Some g) (num_groups s) /\
  (match min_nonzero_group s with
   | None => forall e, f e = None
   | Some g => (exists e, f e = Some g) /\ forall e g', f e = Some g' -> g <= g'
   end).
Proof.
  intros s f [O F]. split; [|split; [|split; [|split; [|split; [|split]]]]].
  - intros e. unfold group_id. rewrite F. auto.
  - intros e. unfold is_member, zmem. rewrite F. destruct (f e); split; try discriminate; try congruence; auto.
  - intros e g H. rewrite <- F in H. eapply ok_pos; eauto.
  - intros g. unfold group_size. destruct (zfind g (g2e s)) as [es|] eqn:E.
    + exists (zkeys es). split; [|split].
      * apply zsorted_nodup. eapply ok_sets; eauto.
      * intros x. rewrite <- F. rewrite (ok_eq s O). split.
        -- intros; eauto.
        -- intros [es' [E' I]]. congruence.
      * unfold zkeys. rewrite map_length. auto.
    + exists []. split; [constructor|]. split; auto. intros x. simpl. rewrite <- F, (ok_eq s O).
      split; [tauto|]. intros [es [E' _]]. congruence.
  - exists (zkeys (e2g s)). split; [apply zsorted_nodup, O|]. split.
    + intros x. rewrite <- F. destruct (zfind x (e2g s)) eqn:E.
      * apply zfind_in_keys in E. split; auto. intros; discriminate.
      * apply zfind_none_keys in E. split; [contradiction|congruence].
    + unfold num_elements, zkeys. rewrite map_length. auto.
  - exists (zkeys (g2e s)). split; [apply zsorted_nodup, O|]. split.
    + intros g. split.
      * intros H. apply zfind_some_keys in H. destruct H as [es E].
        destruct (ok_sets s O _ _ E) as [_ N]. destruct es as [|[x u] es]; [congruence|].
        exists x. rewrite <- F. apply (ok_eq s O). eexists; split; eauto. left; auto.
      * intros [e H]. rewrite <- F in H. apply (ok_eq s O) in H. destruct H as [es [E _]].
        eapply zfind_in_keys; eauto.
    + unfold num_groups, zkeys. rewrite map_length. auto.
  - unfold min_nonzero_group. pose proof (ok_g s O) as SG. pose proof (ok_eq s O) as EQ.
    pose proof (ok_sets s O) as ST.
    destruct (g2e s) as [|[g es] m] eqn:G.
    + intros e. rewrite <- F. destruct (zfind e (e2g s)) eqn:E; auto. apply EQ in E.
      destruct E as [? [E _]]. discriminate.
    + split.
      * destruct (ST g es) as [_ N]; [simpl; rewrite Z.eqb_refl; auto|].
        destruct es as [|[x u] es]; [congruence|]. exists x. rewrite <- F. apply EQ.
        eexists; split; [simpl; rewrite Z.eqb_refl; auto|]. left; auto.
      * intros e g' H. rewrite <- F in H. apply EQ in H. destruct H as [es' [E _]].
        apply zfind_in_keys in E. simpl in E. destruct E as [->|E]; [lia|].
        unfold zsorted in SG; simpl in SG; inversion SG as [|? ? Hs Hf]; subst.
        rewrite Forall_forall in Hf. apply Hf in E. lia.
Qed.

(** When Reverse is defined. *)
Lemma reverse_loop_defined : forall rest id newg M,
  id + Z.of_nat (length rest) <= INT_MAX -> exists s', reverse_loop rest id newg M = Some s'.
Proof.
  induction rest as [|[g es] rest IH]; intros id newg M H; cbn [reverse_loop]; [eauto|].
  cbn [length] in H. destruct (id + 1 >? INT_MAX) eqn:E.
  - apply Z.gtb_lt in E. lia.
  - apply IH. lia.
Qed.

Lemma reverse_defined : forall s g, (forall e g', zfind e (e2g s) = Some g' -> g' <= g) ->
  ok s -> g + num_groups s <= INT_MAX -> exists s', reverse s = Some s'.
Proof.
  intros s g Hg O HL. unfold reverse. destruct (rev (g2e s)) as [|[g0 es0] rest] eqn:R; [eauto|].
  assert (L : length (g2e s) = S (length rest)) by (rewrite <- rev_length, R; auto).
  unfold num_groups in HL. rewrite L in HL.
  assert (I : In (g0, es0) (g2e s)) by (apply in_rev; rewrite R; left; auto).
  assert (F : zfind g0 (g2e s) = Some es0) by (apply in_zfind; auto; apply O).
  destruct (ok_sets s O _ _ F) as [_ N]. destruct es0 as [|[x u] es]; [congruence|].
  assert (g0 <= g). { apply (Hg x). apply (ok_eq s O). eexists; split; eauto. left; auto. }
  destruct (g0 + 1 >? INT_MAX) eqn:E.
  - apply Z.gtb_lt in E. lia.
  - apply reverse_loop_defined. lia.
Qed.

Lemma reverse_undefined : exists os, 
  (forall o, In o os -> exists e g, o = OAdd e g /\ 0 <= g <= INT_MAX) /\
  run (os ++ [OReverse]) og_empty = None.
Proof.
  exists [OAdd 1 INT_MAX]. split.
  - intros o [<-|[]]. exists 1, INT_MAX. unfold INT_MAX; split; auto; lia.
  - reflexivity.
Qed.

Lemma reverse_twice : forall s s1 s2, ok s -> reverse s = Some s1 -> reverse s1 = Some s2 ->
  forall e1 e2 g1 g2 h1 h2,
    zfind e1 (e2g s) = Some g1 -> zfind e2 (e2g s) = Some g2 ->
    zfind e1 (e2g s2) = Some h1 -> zfind e2 (e2g s2) = Some h2 ->
    (h1 < h2 <-> g1 < g2).
Proof.
  intros s s1 s2 O H1 H2 e1 e2 g1 g2 h1 h2 F1 F2 K1 K2.
  destruct (reverse_order _ _ O H1) as [O1 [N1 R1]].
  destruct (reverse_order _ _ O1 H2) as [O2 [N2 R2]].
  destruct (zfind e1 (e2g s1)) as [m1|] eqn:M1; [|apply N1 in M1; congruence].
  destruct (zfind e2 (e2g s1)) as [m2|] eqn:M2; [|apply N1 in M2; congruence].
  rewrite (R2 _ _ _ _ _ _ M1 M2 K1 K2). rewrite (R1 _ _ _ _ _ _ F2 F1 M2 M1). tauto.
Qed.

Lemma count_unique : forall P n m, count_is P n -> count_is P m -> n = m.
Proof.
  intros P n m [l [N [I ->]]] [l' [N' [I' ->]]]. f_equal.
  apply Permutation_length. apply NoDup_Permutation; auto.
  intros x. rewrite I, I'. tauto.
Qed.

Lemma reverse_counts : forall s s', ok s -> ok s' ->
  order_reversed (fun e => zfind e (e2g s)) (fun e => zfind e (e2g s')) ->
  num_groups s' = num_groups s /\ num_elements s' = num_elements s.
Proof.
  intros s s' O O' [N R].
  destruct (observers_ok s (fun e => zfind e (e2g s))) as [_ [_ [_ [_ [E [G _]]]]]]; [split; auto|].
  destruct (observers_ok s' (fun e => zfind e (e2g s'))) as [_ [_ [_ [_ [E' [G' _]]]]]]; [split; auto|].
  split.
  - (* groups of s and s' correspond through a representative element *)
    destruct G as [l [Nl [Il ->]]]. destruct G' as [l' [Nl' [Il' ->]]].
    assert (INJ : forall e1 e2 g1 g2 h1 h2,
       zfind e1 (e2g s) = Some g1 -> zfind e2 (e2g s) = Some g2 ->
       zfind e1 (e2g s') = Some h1 -> zfind e2 (e2g s') = Some h2 -> (g1 = g2 <-> h1 = h2)).
    { intros e1 e2 g1 g2 h1 h2 A B C D.
      pose proof (R _ _ _ _ _ _ A B C D). pose proof (R _ _ _ _ _ _ B A D C). lia. }
    assert (LE : forall (t t' : og) (k k' : list Z), NoDup k ->
      (forall x, In x k -> exists e, zfind e (e2g t) = Some x) ->
      (forall e x, zfind e (e2g t') = Some x -> In x k') ->
      (forall e, zfind e (e2g t) = None <-> zfind e (e2g t') = None) ->
      (forall e1 e2 g1 g2 h1 h2,
       zfind e1 (e2g t) = Some g1 -> zfind e2 (e2g t) = Some g2 ->
       zfind e1 (e2g t') = Some h1 -> zfind e2 (e2g t') = Some h2 -> h1 = h2 -> g1 = g2) ->
      (length k <= length k')%nat).
    { intros t t' k. induction k as [|a k IH]; intros k' NK HK HK' HN HI; simpl; [lia|].
      inversion NK; subst.
      destruct (HK a) as [e He]; [left; auto|].
      destruct (zfind e (e2g t')) as [b|] eqn:Hb; [|apply HN in Hb; congruence].
      assert (Ib : In b k') by eauto. apply in_split in Ib. destruct Ib as [k1 [k2 ->]].
      rewrite app_length. simpl. rewrite Nat.add_succ_r. apply le_n_S.
      rewrite <- app_length.
      (* restrict t' to elements not mapped to b by working with a filtered claim *)
      assert (G2 : forall kk, NoDup kk -> ~ In a kk ->
        (forall x, In x kk -> exists e, zfind e (e2g t) = Some x) ->
        exists ll, NoDup ll /\ length ll = length kk /\
          (forall y, In y ll -> y <> b /\ exists e x, In x kk /\ zfind e (e2g t) = Some x /\ zfind e (e2g t') = Some y)).
      { induction kk as [|x kk IHk]; intros NKK NA HKK.
        - exists []. split; [constructor|]. split; auto. simpl; tauto.
        - inversion NKK; subst. destruct IHk as [ll [L1 [L2 L3]]]; auto.
          { intros C; apply NA; right; auto. } { intros; apply HKK; right; auto. }
          destruct (HKK x) as [e' He']; [left; auto|].
          destruct (zfind e' (e2g t')) as [y|] eqn:Hy; [|apply HN in Hy; congruence].
          exists (y :: ll). split; [|split].
          + constructor; auto. intros C. apply L3 in C. destruct C as [_ [e2 [x2 [I2 [F2 F2']]]]].
            assert (x = x2) by (eapply (HI e' e2); eauto). subst. contradiction.
          + simpl; congruence.
          + intros z [<-|Hz].
            * split.
              -- intros ->. assert (x = a) by (eapply (HI e' e); eauto). subst. apply NA; left; auto.
              -- exists e', x. split; [left; auto|auto].
            * destruct (L3 z Hz) as [Z1 [e2 [x2 [I2 F2]]]]. split; auto.
              exists e2, x2. split; [right; auto|auto]. }
      destruct (G2 k) as [ll [L1 [L2 L3]]]; auto. { intros; apply HK; right; auto. }
      rewrite <- L2. apply NoDup_incl_length; auto.
      intros y Hy. destruct (L3 y Hy) as [Y1 [e2 [x2 [I2 [F2 F2']]]]].
      apply HK' in F2'. apply in_app_or in F2'. apply in_or_app.
      destruct F2' as [?|[?|?]]; auto. congruence. }
    f_equal. apply Nat.le_antisymm.
    + apply (LE s' s); auto.
      * intros x Hx. apply Il'. auto.
      * intros e x Hx. apply Il. eauto.
      * intros e. symmetry. apply N.
      * intros e1 e2 g1 g2 h1 h2 A B C D E1. exact (proj1 (INJ _ _ _ _ _ _ C D A B) E1).
    + apply (LE s s'); auto.
      * intros x Hx. apply Il. auto.
      * intros e x Hx. apply Il'. eauto.
      * intros e1 e2 g1 g2 h1 h2 A B C D E1. exact (proj2 (INJ _ _ _ _ _ _ A B C D) E1).
  - eapply count_unique; [exact E'|]. eapply count_is_ext; [|exact E].
    intros x. simpl. rewrite N. tauto.
Qed.

Lemma reverse_twice_ids : forall s s1 s2, ok s -> reverse s = Some s1 -> reverse s1 = Some s2 ->
  forall e1 e2, is_member e1 s = true -> is_member e2 s = true ->
  (group_id e1 s2 < group_id e2 s2 <-> group_id e1 s < group_id e2 s).
Proof.
  intros s s1 s2 O R1 R2 e1 e2 M1 M2.
  unfold is_member, zmem in M1, M2. unfold group_id.
  destruct (zfind e1 (e2g s)) as [g1|] eqn:F1; [|discriminate].
  destruct (zfind e2 (e2g s)) as [g2|] eqn:F2; [|discriminate].
  destruct (reverse_order _ _ O R1) as [O1 [N1 _]].
  destruct (reverse_order _ _ O1 R2) as [O2 [N2 _]].
  destruct (zfind e1 (e2g s2)) as [h1|] eqn:H1; [|apply N2, N1 in H1; congruence].
  destruct (zfind e2 (e2g s2)) as [h2|] eqn:H2; [|apply N2, N1 in H2; congruence].
  exact (reverse_twice s s1 s2 O R1 R2 e1 e2 g1 g2 h1 h2 F1 F2 H1 H2).
Qed.
