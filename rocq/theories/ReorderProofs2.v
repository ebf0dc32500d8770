(** ApplyOrdering. *)
Require Import ZArith List Lia Bool Sorting.Sorted Sorting.Permutation.
From Verif Require Import ZMap OrderedGroupsModel OrderedGroupsSpec OrderedGroupsProofs ReorderModel ReorderProofs.
Import ListNotations.
Open Scope nat_scope.

Section Place.
Variable e2g : zmap Z.
Definition ing (g : Z) (b : Z) : bool := match zfind b e2g with Some h => Z.eqb h g | None => false end.
Definition fg (g : Z) (l : list Z) := filter (ing g) l.

Lemma place_inv : forall gs, NoDup gs ->
  (forall b g, zfind b e2g = Some g -> In g gs) ->
  forall rest done idx junk,
  (forall g, length (fg g rest) <= length (junk g)) ->
  (forall k1 g k2, gs = k1 ++ g :: k2 ->
     zfind g idx = Some (Z.of_nat (length (flat_map (fun h => fg h done ++ junk h) k1) + length (fg g done)))) ->
  (exists junk', place_blocks rest e2g idx (flat_map (fun h => fg h done ++ junk h) gs) =
        AOk (flat_map (fun h => fg h (done ++ rest) ++ junk' h) gs) /\
        Forall (fun b => zfind b e2g <> None) rest) \/
  (exists bs, place_blocks rest e2g idx (flat_map (fun h => fg h done ++ junk h) gs) = AFail 3 bs /\
        Exists (fun b => zfind b e2g = None) rest).
Proof.
  intros gs ND HG. induction rest as [|b rest IH]; intros done idx junk HJ HI.
  - left. exists junk. simpl. rewrite app_nil_r. auto.
  - simpl place_blocks. destruct (zfind b e2g) as [g|] eqn:Eb.
    2:{ right. eexists; split; [reflexivity|]. constructor; auto. }
    pose proof (HG b g Eb) as Hg. apply in_split in Hg. destruct Hg as [k1 [k2 Egs]].
    rewrite (HI k1 g k2 Egs).
    set (p := length (flat_map (fun h => fg h done ++ junk h) k1) + length (fg g done)).
    replace (Z.of_nat p <? 0)%Z with false by (symmetry; apply Z.ltb_ge; lia).
    rewrite Nat2Z.id.
    assert (IB : forall h, ing h b = Z.eqb g h) by (intros h; unfold ing; rewrite Eb; auto).
    pose proof (HJ g) as HJg. unfold fg in HJg. simpl in HJg. rewrite IB, Z.eqb_refl in HJg. simpl in HJg.
    destruct (junk g) as [|j0 jr] eqn:EJ; [simpl in HJg; lia|].
    set (junk1 := fun h => if Z.eqb h g then jr else junk h).
    assert (SE : set_nth (flat_map (fun h => fg h done ++ junk h) gs) p b =
                 Some (flat_map (fun h => fg h (done ++ [b]) ++ junk1 h) gs)).
    { rewrite Egs. unfold p. apply (seg_update k1 k2 g (fun h => fg h done ++ junk h) (fun h => fg h (done ++ [b]) ++ junk1 h)).
      - rewrite <- Egs; auto.
      - cbv beta. rewrite EJ.
        rewrite <- (app_nil_r (_ ++ j0 :: jr)), <- app_assoc.
        replace (length (fg g done)) with (length (fg g done) + 0) by lia.
        erewrite set_nth_app; [|simpl; reflexivity]. f_equal.
        unfold fg at 2. rewrite filter_app. simpl. rewrite IB, Z.eqb_refl. unfold junk1. rewrite Z.eqb_refl.
        rewrite app_nil_r, <- app_assoc. auto.
      - intros h Hh. unfold fg. rewrite filter_app. simpl. rewrite IB.
        replace (g =? h)%Z with false by (symmetry; apply Z.eqb_neq; auto).
        rewrite app_nil_r. unfold junk1. replace (h =? g)%Z with false by (symmetry; apply Z.eqb_neq; auto). auto. }
    rewrite SE.
    destruct (IH (done ++ [b]) (zput g (Z.of_nat p + 1)%Z idx) junk1) as [[j' [E F]]|[bs [E F]]].
    + intros h. unfold junk1. destruct (h =? g)%Z eqn:E.
      * apply Z.eqb_eq in E; subst h. unfold fg. simpl in HJg. lia.
      * pose proof (HJ h) as Q. unfold fg in Q. simpl in Q. rewrite IB, Z.eqb_sym, E in Q. exact Q.
    + intros l1 h l2 El. rewrite zfind_put.
      assert (SAME : forall l, length (flat_map (fun h => fg h (done ++ [b]) ++ junk1 h) l) =
                               length (flat_map (fun h => fg h done ++ junk h) l)).
      { induction l; simpl; auto. rewrite !app_length, IHl. f_equal. unfold fg. rewrite filter_app, app_length. simpl.
        rewrite IB. unfold junk1. destruct (a =? g)%Z eqn:Ea.
        - apply Z.eqb_eq in Ea; subst. rewrite Z.eqb_refl, EJ. simpl. lia.
        - rewrite Z.eqb_sym, Ea. simpl. lia. }
      rewrite SAME. unfold fg. rewrite filter_app, app_length. simpl. rewrite IB.
      destruct (h =? g)%Z eqn:E.
      * apply Z.eqb_eq in E; subst h. rewrite Z.eqb_refl.
        assert (Q : zfind g idx = Some (Z.of_nat p)) by (apply (HI k1 g k2 Egs)).
        rewrite (HI l1 g l2 El) in Q. inversion Q as [Q']. simpl. f_equal. unfold fg in *. lia.
      * rewrite Z.eqb_sym, E, (HI l1 h l2 El). unfold fg. simpl. f_equal. lia.
    + left. exists j'. rewrite <- app_assoc in E. split; auto. constructor; auto. congruence.
    + right. exists bs. split; auto.
Qed.

Lemma split_segments : forall {A} (sz : Z -> nat) gs (l : list A), NoDup gs -> length l = list_sum (map sz gs) ->
  exists junk, l = flat_map junk gs /\ forall g, In g gs -> length (junk g) = sz g.
Proof.
  induction gs as [|g gs IH]; simpl; intros l ND L.
  - exists (fun _ => []). destruct l; [|discriminate]. split; [auto|intros ? []].
  - inversion ND; subst. destruct (IH (skipn (sz g) l)) as [j [E J]]; auto.
    { rewrite skipn_length. lia. }
    exists (fun h => if Z.eqb h g then firstn (sz g) l else j h). rewrite Z.eqb_refl. split.
    + rewrite <- (firstn_skipn (sz g) l) at 1. f_equal. rewrite E at 1. apply flat_ext.
      intros x Hx. destruct (x =? g)%Z eqn:Q; auto. apply Z.eqb_eq in Q; subst; contradiction.
    + intros h [<-|Hh]; [rewrite Z.eqb_refl, firstn_length; lia|].
      destruct (h =? g)%Z eqn:Q; auto. apply Z.eqb_eq in Q; subst; contradiction.
Qed.

Lemma groups_perm : forall gs l, NoDup gs -> (forall b, In b l -> exists g, zfind b e2g = Some g /\ In g gs) ->
  Permutation (flat_map (fun h => fg h l) gs) l.
Proof.
  intros gs. induction l as [|b l IH]; intros ND H.
  - assert (Q : forall l, flat_map (fun h => fg h []) l = []) by (induction l; simpl; auto).
    rewrite Q. auto.
  - destruct (H b) as [g [Eb Hg]]; [left; auto|]. apply in_split in Hg. destruct Hg as [k1 [k2 Egs]].
    assert (N : ~ In g (k1 ++ k2)) by (apply NoDup_remove_2; rewrite <- Egs; auto).
    assert (IB : forall h, ing h b = Z.eqb g h) by (intros h; unfold ing; rewrite Eb; auto).
    transitivity (b :: flat_map (fun h => fg h l) gs).
    2:{ constructor. apply (IH ND). intros; apply H; right; auto. }
    rewrite Egs, !flat_map_app. cbn [flat_map].
    assert (S : forall l', (forall x, In x l' -> In x (k1 ++ k2)) ->
              flat_map (fun h => fg h (b :: l)) l' = flat_map (fun h => fg h l) l').
    { intros l' Hl. apply flat_ext. intros x Hx. unfold fg. simpl. rewrite IB.
      destruct (g =? x)%Z eqn:Q; auto. apply Z.eqb_eq in Q. subst. exfalso; auto. }
    rewrite (S k1), (S k2) by (intros; apply in_or_app; auto).
    unfold fg at 2. simpl. rewrite IB, Z.eqb_refl. simpl. symmetry. apply Permutation_middle.
Qed.
End Place.

Lemma flat_nil_junk : forall {A B} (f j : A -> list B) gs,
  length (flat_map (fun g => f g ++ j g) gs) = length (flat_map f gs) ->
  flat_map (fun g => f g ++ j g) gs = flat_map f gs.
Proof.
  intros A B f j. assert (LE : forall gs, length (flat_map f gs) <= length (flat_map (fun g => f g ++ j g) gs)).
  { induction gs; simpl; auto. rewrite !app_length. lia. }
  induction gs as [|g gs IH]; simpl; auto.
  rewrite !app_length. intros H. pose proof (LE gs). 
  rewrite IH by lia. destruct (j g); [rewrite app_nil_r; auto|simpl in H; lia].
Qed.

Lemma group_starts_ok : forall (gs : zmap zset) c k1 g es k2, zsorted gs -> gs = k1 ++ (g, es) :: k2 ->
  zfind g (group_starts gs c) =
  Some (c + Z.of_nat (list_sum (map (fun p => length (snd p)) k1)))%Z.
Proof.
  induction gs as [|[h hs] gs IH]; simpl; intros c k1 g es k2 S E.
  - destruct k1; discriminate.
  - rewrite zfind_put. destruct k1 as [|[h' hs'] k1]; simpl in E.
    + inversion E; subst. rewrite Z.eqb_refl. simpl. f_equal; lia.
    + inversion E; subst. assert (g <> h').
      { apply zsorted_nodup in S. simpl in S. inversion S; subst.
        intros ->. apply H1. unfold zkeys. rewrite map_app. apply in_or_app; right; left; auto. }
      rewrite <- Z.eqb_neq in H. rewrite H. rewrite (IH _ k1 g es k2); auto.
      * simpl. f_equal. lia.
      * apply zsorted_tail in S. auto.
Qed.

Lemma place_length : forall old m idx new r, place_blocks old m idx new = AOk r -> length r = length new.
Proof.
  induction old as [|b old IH]; simpl; intros m idx new r H; [inversion H; auto|].
  destruct (zfind b m); [|discriminate].
  match type of H with context [if ?c then None else _] => destruct c; [discriminate|] end.
  destruct (set_nth _ _ _) eqn:E; [|discriminate].
  rewrite (IH _ _ _ _ H). eapply set_nth_length; eauto.
Qed.

Lemma e2g_perm_groups : forall o, ok o ->
  length (e2g o) = list_sum (map (fun p => length (snd p)) (g2e o)).
Proof.
  intros o O.
  assert (P : Permutation (zkeys (e2g o)) (flat_map (fun p => zkeys (snd p)) (g2e o))).
  { apply NoDup_Permutation.
    - apply zsorted_nodup, O.
    - pose proof (ok_g o O) as SG. apply zsorted_nodup in SG.
      assert (ST : forall g es, In (g, es) (g2e o) -> NoDup (zkeys es) /\
         forall x, In x (zkeys es) -> zfind x (e2g o) = Some g).
      { intros g es H. apply in_zfind in H; [|apply O]. split.
        - apply zsorted_nodup. eapply ok_sets; eauto.
        - intros x Hx. apply (ok_eq o O). eauto. }
      revert SG ST. induction (g2e o) as [|[g es] m IH]; simpl; intros SG ST; [constructor|].
      inversion SG; subst.
      destruct (ST g es (or_introl eq_refl)) as [N1 F1].
      assert (IHm := IH H2 (fun g' es' H => ST g' es' (or_intror H))).
      revert N1 F1. generalize (zkeys es). induction l as [|x l IHl]; simpl; intros N1 F1; auto.
      inversion N1; subst. constructor.
      + intros Hx. apply in_app_or in Hx. destruct Hx as [Hx|Hx]; [contradiction|].
        apply in_flat_map in Hx. destruct Hx as [[g' es'] [Hi Hx]].
        destruct (ST g' es' (or_intror Hi)) as [_ F']. specialize (F' x Hx). rewrite (F1 x) in F' by auto.
        inversion F'; subst. apply H1. apply in_map_iff. exists (g', es'); auto.
      + apply IHl; auto.
    - intros x. rewrite in_flat_map. split.
      + intros Hx. apply zfind_some_keys in Hx. destruct Hx as [g Hx]. apply (ok_eq o O) in Hx.
        destruct Hx as [es [E I]]. apply zfind_in in E. exists (g, es); auto.
      + intros [[g es] [Hi Hx]]. apply in_zfind in Hi; [|apply O].
        eapply zfind_in_keys. apply (ok_eq o O). eauto. }
  apply Permutation_length in P. unfold zkeys in P at 1. rewrite map_length in P. rewrite P.
  clear. induction (g2e o) as [|[g es] m IH]; simpl; auto. rewrite app_length, IH. unfold zkeys. rewrite map_length. auto.
Qed.

Lemma place_ok : forall o blocks, ok o -> NoDup blocks -> length blocks = length (e2g o) ->
  ((forall b, In b blocks -> zfind b (e2g o) <> None) /\
   place_blocks blocks (e2g o) (group_starts (g2e o) 0) blocks =
     AOk (flat_map (fun g => fg (e2g o) g blocks) (zkeys (g2e o)))) \/
  ((exists b, In b blocks /\ zfind b (e2g o) = None) /\
   exists bs, place_blocks blocks (e2g o) (group_starts (g2e o) 0) blocks = AFail 3 bs).
Proof.
  intros o blocks O ND L.
  pose proof (zsorted_nodup _ (ok_g o O)) as NG.
  set (sz := fun g => length (group_get g (g2e o))).
  assert (SZ : forall l, (forall p, In p l -> In p (g2e o)) ->
     map sz (map fst l) = map (fun p => length (snd p)) l).
  { intros l H. rewrite map_map. apply map_ext_in. intros [g es] Hp. unfold sz, group_get. simpl.
    rewrite (in_zfind g es); auto. apply O. }
  destruct (split_segments sz (zkeys (g2e o)) blocks NG) as [junk [EJ LJ]].
  { rewrite L, (e2g_perm_groups o O). unfold zkeys. rewrite SZ; auto. }
  assert (HG : forall b g, zfind b (e2g o) = Some g -> In g (zkeys (g2e o))).
  { intros b g H. apply (ok_eq o O) in H. destruct H as [es [E _]]. eapply zfind_in_keys; eauto. }
  assert (FGN : forall l h, fg (e2g o) h l = [] \/ In h (zkeys (g2e o))).
  { intros l h. destruct (in_dec Z.eq_dec h (zkeys (g2e o))) as [|N]; auto. left.
    unfold fg. induction l as [|b l IH]; simpl; auto. unfold ing at 1.
    destruct (zfind b (e2g o)) as [g|] eqn:E; auto. destruct (g =? h)%Z eqn:Q; auto.
    apply Z.eqb_eq in Q; subst. apply HG in E. contradiction. }
  destruct (place_inv (e2g o) (zkeys (g2e o)) NG HG blocks [] (group_starts (g2e o) 0) junk) as [[j' [E F]]|[bs [E F]]].
  - intros g. destruct (FGN blocks g) as [->|Hg]; [simpl; lia|]. rewrite (LJ g Hg). unfold sz, group_get.
    destruct (zfind_some_keys _ _ Hg) as [es Ees]. rewrite Ees.
    replace (length es) with (length (zkeys es)) by (unfold zkeys; apply map_length).
    apply NoDup_incl_length; [apply NoDup_filter; auto|].
    intros x Hx. apply filter_In in Hx. destruct Hx as [_ Hx]. unfold ing in Hx.
    destruct (zfind x (e2g o)) eqn:Ex; [|discriminate]. apply Z.eqb_eq in Hx; subst.
    apply (ok_eq o O) in Ex. destruct Ex as [es' [E' I]]. congruence.
  - intros k1 g k2 Ek. 
    assert (SP : exists m1 es m2, g2e o = m1 ++ (g, es) :: m2 /\ map fst m1 = k1).
    { clear - Ek. revert k1 Ek. induction (g2e o) as [|[h hs] m IH]; intros k1 Ek; [destruct k1; discriminate|].
      simpl in Ek. destruct k1 as [|x k1]; simpl in Ek; inversion Ek; subst.
      - exists [], hs, m; auto.
      - destruct (IH k1 H1) as [m1 [es [m2 [E1 E2]]]]. exists ((x, hs) :: m1), es, m2. simpl. rewrite E1, E2. auto. }
    destruct SP as [m1 [es [m2 [E1 E2]]]].
    rewrite (group_starts_ok (g2e o) 0 m1 g es m2 (ok_g o O) E1). f_equal. simpl.
    rewrite Nat.add_0_r. f_equal. rewrite <- SZ, E2.
    2:{ intros p Hp. rewrite E1. apply in_or_app; auto. }
    assert (Hk : forall x, In x k1 -> In x (zkeys (g2e o))) by (intros; rewrite Ek; apply in_or_app; auto).
    clear - Hk LJ. induction k1; simpl; auto. rewrite app_length, (LJ a), IHk1; auto; intros; apply Hk || apply LJ; simpl; auto.
  - change (flat_map (fun h => fg (e2g o) h [] ++ junk h) (zkeys (g2e o))) with (flat_map junk (zkeys (g2e o))) in E. simpl app in E. rewrite <- EJ in E. left. rewrite Forall_forall in F. split; auto.
    rewrite E. f_equal. apply flat_nil_junk.
    
    rewrite (Permutation_length (groups_perm (e2g o) (zkeys (g2e o)) blocks NG ltac:(intros b Hb; specialize (F b Hb); destruct (zfind b (e2g o)) eqn:Q; [eauto|congruence]))).
    apply (place_length _ _ _ _ _ E).
  - change (flat_map (fun h => fg (e2g o) h [] ++ junk h) (zkeys (g2e o))) with (flat_map junk (zkeys (g2e o))) in E. simpl app in E. rewrite <- EJ in E. right. split; eauto. apply Exists_exists in F. destruct F as [b F]. eauto.
Qed.
