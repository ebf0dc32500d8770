(** Reordering of residual and parameter blocks: the properties C20 and C21. *)
Require Import ZArith List Lia Bool Sorting.Sorted Sorting.Permutation.
From Verif Require Import ZMap OrderedGroupsModel OrderedGroupsSpec OrderedGroupsProofs ReorderModel ReorderProofs ReorderProofs2.
Import ListNotations.
Open Scope nat_scope.

(** ** Specification *)
(** Residual block [r] has the non-constant parameter block number [i]. *)
Definition touches (r : rblock) (i : Z) : Prop := In (false, i) (r_params r).
(** Every non-constant parameter block has been given an index. *)
Definition all_indexed (rs : list rblock) : Prop := forall r i, In r rs -> touches r i -> (0 <= i)%Z.
(** [x] occurs before [y] in [l]. *)
Definition occurs_before {A} (l : list A) (x y : A) : Prop := exists a b c, l = a ++ x :: b ++ y :: c.

Lemma sorted_before : forall {A} (R : A -> A -> Prop) l x y, StronglySorted R l -> occurs_before l x y -> R x y.
Proof.
  intros A R l x y S [a [b [c ->]]]. induction a; simpl in S; inversion S; subst; auto.
  rewrite Forall_forall in H2. apply H2, in_or_app; right; left; auto.
Qed.

(** C20.  [n] blocks are to be eliminated, no residual block touches two of
    them and each is touched by some residual block.  Then no check fires; the
    result is a permutation; and a residual block touching an eliminated block
    never comes after one touching a later eliminated block or none. *)
Theorem residual_order_correct : forall n rs,
  1 <= n -> all_indexed rs ->
  (forall r i j, In r rs -> touches r i -> touches r j -> (i < Z.of_nat n)%Z -> (j < Z.of_nat n)%Z -> i = j) ->
  (forall i, (0 <= i < Z.of_nat n)%Z -> exists r, In r rs /\ touches r i) ->
  exists out, lexicographic_order n rs = Some out /\ Permutation out rs /\
    forall r1 r2, occurs_before out r1 r2 ->
      forall j, touches r2 j -> (j < Z.of_nat n)%Z ->
        exists i, touches r1 i /\ (i <= j)%Z.
Proof.
  intros n rs Hn HI HE HU.
  assert (FI : Forall indexed rs).
  { apply Forall_forall. intros r Hr i Hi. eapply HI; eauto. }
  assert (USED : forall b, b < n -> exists r, In r rs /\ bucket n r = b).
  { intros b Hb. destruct (HU (Z.of_nat b)) as [r [Hr T]]; [lia|]. exists r. split; auto.
    destruct (bucket_ok n r) as [_ [B [M W]]]; [intros i Hi; eapply HI; eauto|].
    specialize (M _ T). destruct W as [W|W]; [lia|].
    specialize (HE r _ _ Hr W T). lia. }
  exists (flat_map (fun b => rev (inb (bucket n) b rs)) (seq 0 (n + 1))).
  set (bk := fun r => Nat.min (bucket n r) n).
  assert (INB : forall b, inb (bucket n) b rs = inb bk b rs).
  { intros b. unfold inb. apply filter_ext_in. intros r Hr. rewrite Forall_forall in FI.
    destruct (bucket_ok n r (FI r Hr)) as [_ [B _]]. unfold bk. rewrite Nat.min_l; auto. }
  assert (BL : forall r, bk r <= n) by (intros; unfold bk; lia).
  assert (EQ : flat_map (fun b => rev (inb (bucket n) b rs)) (seq 0 (n + 1)) =
               flat_map (fun b => rev (inb bk b rs)) (seq 0 (n + 1))).
  { apply flat_ext. intros; rewrite INB; auto. }
  split; [apply lexi_ok; auto|]. rewrite EQ.
  pose proof (buckets_perm n bk BL rs) as P. split; auto.
  intros r1 r2 OB j T L.
  assert (IN : In r1 rs /\ In r2 rs).
  { destruct OB as [a [b [c E]]]. split; eapply Permutation_in; try exact P; rewrite E; apply in_or_app; right; simpl; auto.
    right. apply in_or_app; right; left; auto. }
  apply (sorted_before _ _ _ _ (buckets_sorted n bk rs)) in OB.
  destruct IN as [I1 I2]. rewrite Forall_forall in FI.
  destruct (bucket_ok n r1 (FI r1 I1)) as [_ [B1 [M1 W1]]].
  destruct (bucket_ok n r2 (FI r2 I2)) as [_ [B2 [M2 W2]]].
  specialize (M2 _ T). unfold bk in OB. destruct W1 as [W1|W1]; [lia|].
  exists (Z.of_nat (bucket n r1)). split; auto. lia.
Qed.
Print Assumptions residual_order_correct.

(** Two points (0, 1), two cameras (2, 3), one constant camera: every
    hypothesis holds. *)
Definition rs0 : list rblock :=
  [mkR 0 [(false, 1%Z); (false, 2%Z)]; mkR 1 [(false, 3%Z)]; mkR 2 [(false, 0%Z); (false, 3%Z)];
   mkR 3 [(false, 1%Z); (true, (-1)%Z)]].
Example residual_order_case :
  all_indexed rs0 /\
  (forall r i j, In r rs0 -> touches r i -> touches r j -> (i < 2)%Z -> (j < 2)%Z -> i = j) /\
  (forall i, (0 <= i < 2)%Z -> exists r, In r rs0 /\ touches r i) /\
  option_map (map r_name) (lexicographic_order 2 rs0) = Some [2; 3; 0; 1].
Proof.
  split; [|split; [|split]].
  - intros r i H T. unfold touches in T. simpl in H.
    repeat (destruct H as [<-|H]; [simpl in T; repeat (destruct T as [T|T]; [inversion T; lia|]); contradiction|]). contradiction.
  - intros r i j H T1 T2 L1 L2. unfold touches in T1, T2. simpl in H.
    repeat (destruct H as [<-|H]; [simpl in T1, T2;
      repeat (destruct T1 as [T1|T1]; [inversion T1; subst; repeat (destruct T2 as [T2|T2]; [inversion T2; subst; lia|]); try contradiction|]); contradiction|]). contradiction.
  - intros i Hi. assert (i = 0%Z \/ i = 1%Z) as [->| ->] by lia.
    + exists (mkR 2 [(false, 0%Z); (false, 3%Z)]). simpl. unfold touches; simpl; auto.
    + exists (mkR 0 [(false, 1%Z); (false, 2%Z)]). simpl. unfold touches; simpl; auto.
  - reflexivity.
Qed.

(** An eliminated block no residual block touches makes the function abort. *)
Theorem residual_order_unused_block_aborts : exists rs, all_indexed rs /\ lexicographic_order 2 rs = None.
Proof.
  exists [mkR 0 [(false, 1%Z)]]. split; [|reflexivity].
  intros r i [<-|[]] [H|[]]. inversion H; lia.
Qed.
Print Assumptions residual_order_unused_block_aborts.

(** C21.  [f] is the grouping the calls on the ordering have built (the
    abstract meaning of OrderedGroups).  The call succeeds exactly when the
    ordering's elements are the program's blocks and the problem knows them. *)
Theorem apply_ordering_correct : forall os o rs parameter_map blocks,
  run os og_empty = Some (o, rs) -> NoDup blocks ->
  exists f, spec_run no_groups os rs f /\
  (forall b, group_id b o = match f b with Some g => g | None => (-1)%Z end) /\
  let r := apply_ordering parameter_map o blocks in
  r <> AUndef /\
  (((forall b, f b <> None <-> In b blocks) /\ (forall b, In b blocks -> In b parameter_map)) <->
   exists new, r = AOk new) /\
  (forall new, r = AOk new ->
     Permutation new blocks /\
     (forall b1 b2 g1 g2, occurs_before new b1 b2 -> f b1 = Some g1 -> f b2 = Some g2 -> (g1 <= g2)%Z) /\
     (forall b1 b2, occurs_before new b1 b2 -> f b1 = f b2 -> occurs_before blocks b1 b2)) /\
  (* failures *)
  (forall why bs, r = AFail why bs -> (exists b, f b <> None /\ ~ In b parameter_map) -> bs = blocks) /\
  (forall why bs, r = AFail why bs -> (forall b, In b parameter_map -> In b blocks) -> bs = blocks).
Proof.
  intros os o rs pm blocks HR ND.
  destruct (run_refines os og_empty o rs no_groups rep_empty HR) as [f [SR RP]].
  exists f. split; [exact SR|]. split; [apply (observers_ok o f RP)|]. destruct RP as [O F]. cbv zeta.
  assert (KEYS : forall b, f b <> None <-> In b (zkeys (e2g o))).
  { intros b. rewrite <- F. destruct (zfind b (e2g o)) eqn:E.
    - apply zfind_in_keys in E. split; auto. congruence.
    - apply zfind_none_keys in E. split; [congruence|contradiction]. }
  pose proof (zsorted_nodup _ (ok_e o O)) as NK.
  assert (LK : length (zkeys (e2g o)) = length (e2g o)) by (unfold zkeys; apply map_length).
  unfold apply_ordering, num_elements.
  destruct (Z.of_nat (length (e2g o)) =? Z.of_nat (length blocks))%Z eqn:EL; simpl negb; cbv iota.
  2:{ apply Z.eqb_neq in EL. split; [discriminate|]. split; [|split; [discriminate|]].
      - split; [|intros [? ?]; discriminate]. intros [H _]. exfalso. apply EL. f_equal.
        rewrite <- LK. apply Permutation_length. apply NoDup_Permutation; auto.
        intros x. rewrite <- KEYS. auto.
      - split; intros why bs E; inversion E; auto. }
  apply Z.eqb_eq in EL. apply Nat2Z.inj in EL.
  destruct (forallb _ (zkeys (e2g o))) eqn:EP; simpl negb; cbv iota.
  2:{ split; [discriminate|]. split; [|split; [discriminate|]].
      - split; [|intros [? ?]; discriminate]. intros [H1 H2]. exfalso.
        rewrite <- Bool.not_true_iff_false in EP. apply EP. apply forallb_forall. intros x Hx.
        apply existsb_exists. exists x. split; [|apply Z.eqb_refl]. apply H2, H1, KEYS; auto.
      - split; intros why bs E; inversion E; auto. }
  assert (PM : forall b, In b (zkeys (e2g o)) -> In b pm).
  { intros b Hb. rewrite forallb_forall in EP. specialize (EP b Hb). apply existsb_exists in EP.
    destruct EP as [y [Hy Ey]]. apply Z.eqb_eq in Ey. subst; auto. }
  destruct (place_ok o blocks O ND (eq_sym EL)) as [[A E]|[[b [Hb Nb]] [bs E]]]; rewrite E.
  - assert (SAME : forall b, f b <> None <-> In b blocks).
    { intros b. split; [|intros Hb; rewrite <- F; auto]. rewrite KEYS.
      apply (NoDup_length_incl ND); [rewrite LK; lia|].
      intros x Hx. apply KEYS. rewrite <- F. auto. }
    pose proof (zsorted_nodup _ (ok_g o O)) as NG.
    assert (GP : Permutation (flat_map (fun g => fg (e2g o) g blocks) (zkeys (g2e o))) blocks).
    { apply groups_perm; auto. intros b Hb. destruct (zfind b (e2g o)) as [g|] eqn:Q; [|elim (A b Hb Q)].
      exists g. split; auto. apply (ok_eq o O) in Q. destruct Q as [es [Q _]]. eapply zfind_in_keys; eauto. }
    split; [discriminate|]. split; [|split; [|split; intros; discriminate]].
    + split; eauto. intros _. split; auto. intros b Hb. apply PM, KEYS, SAME; auto.
    + intros new En. inversion En; subst new. clear En. split; auto.
      split.
      * intros b1 b2 g1 g2 OB F1 F2. rewrite <- F in F1, F2.
        pose proof (ok_g o O) as SG. unfold zsorted in SG.
        destruct OB as [a [b [c OB]]].
        assert (G : forall gs a b c, StronglySorted Z.lt gs -> flat_map (fun g => fg (e2g o) g blocks) gs = a ++ b1 :: b ++ b2 :: c -> (g1 <= g2)%Z).
        { clear - F1 F2. induction gs as [|g gs IH]; simpl; intros a b c S E; [destruct a; discriminate|].
          inversion S as [|? ? S' HF]; subst. rewrite Forall_forall in HF.
          assert (INg : forall x gx l, zfind x (e2g o) = Some gx -> In x (flat_map (fun g => fg (e2g o) g blocks) l) -> In gx l).
          { intros x gx l Fx Hx. apply in_flat_map in Hx. destruct Hx as [g' [Hg Hx]]. apply filter_In in Hx.
            destruct Hx as [_ Hx]. unfold ing in Hx. rewrite Fx in Hx. apply Z.eqb_eq in Hx. subst; auto. }
          assert (FGE : forall x gx l, zfind x (e2g o) = Some gx -> In x (fg (e2g o) g l) -> gx = g).
          { intros x gx l Fx Hx. apply filter_In in Hx. destruct Hx as [_ Hx]. unfold ing in Hx. rewrite Fx in Hx.
            apply Z.eqb_eq; auto. }
          remember (fg (e2g o) g blocks) as l eqn:El.
          assert (FL : forall x gx, zfind x (e2g o) = Some gx -> In x l -> gx = g) by (subst; intros; eapply FGE; eauto).
          clear El FGE. revert a E FL. induction l as [|y l IHl]; simpl; intros a E FL; [eapply IH; eauto|].
          destruct a as [|a0 a]; simpl in E; inversion E; subst.
          - assert (I2 : In b2 (l ++ flat_map (fun g => fg (e2g o) g blocks) gs)) by (rewrite H1; apply in_or_app; right; left; auto).
            assert (g1 = g) by (apply (FL b1); auto). subst g1.
            apply in_app_or in I2. destruct I2 as [I2|I2].
            + assert (g2 = g) by (apply (FL b2); auto). lia.
            + apply (INg b2 g2) in I2; auto. apply HF in I2. lia.
          - eapply IHl; eauto. }
        eapply G; eauto.
      * intros b1 b2 OB FE.
        assert (IN : In b1 blocks /\ In b2 blocks).
        { destruct OB as [a [b [c Q]]]. split; eapply Permutation_in; try exact GP; rewrite Q; apply in_or_app; right; simpl; auto.
          right. apply in_or_app; right; left; auto. }
        destruct IN as [I1 I2].
        destruct (f b1) as [g|] eqn:F1; [|elim (proj2 (SAME b1) I1 F1)].
        symmetry in FE.
        assert (FB : filter (ing (e2g o) g) (flat_map (fun h => fg (e2g o) h blocks) (zkeys (g2e o))) = filter (ing (e2g o) g) blocks).
        { assert (Hg : In g (zkeys (g2e o))).
          { rewrite <- F in F1. apply (ok_eq o O) in F1. destruct F1 as [es [Q _]]. eapply zfind_in_keys; eauto. }
          apply in_split in Hg. destruct Hg as [k1 [k2 Ek]]. rewrite Ek in NG |- *.
          apply NoDup_remove_2 in NG. rewrite flat_map_app, filter_app. simpl. rewrite filter_app.
          assert (Z0 : forall l, ~ In g l -> filter (ing (e2g o) g) (flat_map (fun h => fg (e2g o) h blocks) l) = []).
          { induction l as [|h l IH]; simpl; intros N; auto. rewrite filter_app, IH by tauto. rewrite app_nil_r.
            assert (g <> h) by (intros ->; apply N; auto). unfold fg.
            clear - H. induction blocks as [|x l IH]; simpl; auto. unfold ing at 2. destruct (zfind x (e2g o)) as [y|] eqn:Q; auto.
            destruct (y =? h)%Z eqn:Q1; auto. simpl. unfold ing at 1. rewrite Q. apply Z.eqb_eq in Q1; subst.
            replace (h =? g)%Z with false by (symmetry; apply Z.eqb_neq; auto). auto. }
          rewrite (Z0 k1), (Z0 k2) by (intros Q; apply NG, in_or_app; auto). simpl. rewrite app_nil_r.
          unfold fg. clear. induction blocks as [|x l IH]; simpl; auto. destruct (ing (e2g o) g x) eqn:Q; simpl; rewrite ?Q, IH; auto. }
        assert (ing1 : ing (e2g o) g b1 = true) by (unfold ing; rewrite F, F1; apply Z.eqb_refl).
        assert (ing2 : ing (e2g o) g b2 = true) by (unfold ing; rewrite F, FE; apply Z.eqb_refl).
        destruct OB as [a [b [c Q]]]. rewrite Q in FB.
        rewrite filter_app in FB. simpl in FB. rewrite ing1, filter_app in FB. simpl in FB. rewrite ing2 in FB.
        symmetry in FB.
        (* an occurrence in the filtered list comes from one in the list *)
        clear - FB. revert FB. generalize (filter (ing (e2g o) g) a). intros a'. 
        generalize (filter (ing (e2g o) g) b) (filter (ing (e2g o) g) c). intros b' c'. revert a'.
        assert (S1 : forall l, forall b' c', filter (ing (e2g o) g) l = b' ++ b2 :: c' -> exists p q, l = p ++ b2 :: q).
        { intros l p q Hl. apply in_split. assert (I : In b2 (filter (ing (e2g o) g) l)) by (rewrite Hl; apply in_or_app; right; left; auto).
          apply filter_In in I. tauto. }
        induction blocks as [|x l IH]; simpl; intros a' FB; [destruct a'; discriminate|].
        destruct (ing (e2g o) g x) eqn:X.
        -- destruct a' as [|y a']; simpl in FB; inversion FB; subst.
           ++ destruct (S1 _ _ _ H1) as [p [q ->]]. exists [], p, q. auto.
           ++ destruct (IH _ H1) as [p [q [r ->]]]. exists (y :: p), q, r. auto.
        -- destruct (IH _ FB) as [p [q [r ->]]]. exists (x :: p), q, r. auto.
  - split; [discriminate|]. split; [|split; [discriminate|split]].
    + split; [|intros [? ?]; discriminate]. intros [H _]. exfalso. apply H in Hb. rewrite <- F in Hb. auto.
    + intros why bs' _ [x [X1 X2]]. exfalso. apply X2, PM, KEYS; auto.
    + intros why bs' _ H. exfalso.
      assert (I : incl blocks (zkeys (e2g o))).
      { apply (NoDup_length_incl NK); [lia|]. intros x Hx. apply H, PM; auto. }
      specialize (I b Hb). apply zfind_none_keys in Nb. contradiction.
Qed.
Print Assumptions apply_ordering_correct.

Example apply_ordering_case :
  exists o rs, run [OAdd 10 1; OAdd 20 0; OAdd 30 1; OAdd 40 0] og_empty = Some (o, rs) /\
  apply_ordering [10; 20; 30; 40; 50]%Z o [40; 30; 20; 10]%Z = AOk [40; 20; 30; 10]%Z.
Proof. eexists. eexists. split; reflexivity. Qed.

(** A failure found late leaves the program with a block twice and another
    lost: reachable only when the problem has a block the program lacks. *)
Theorem apply_ordering_failure_changes_program_refuted :
  exists os o rs parameter_map blocks bs, run os og_empty = Some (o, rs) /\ NoDup blocks /\
    (forall b, In b blocks -> In b parameter_map) /\
    apply_ordering parameter_map o blocks = AFail 3 bs /\ ~ Permutation bs blocks.
Proof.
  exists [OAdd 10 1; OAdd 20 0]. eexists. eexists. exists [10; 20; 30]%Z, [10; 30]%Z, [10; 10]%Z.
  split; [reflexivity|]. split; [repeat constructor; simpl; lia|]. split; [simpl; intuition|].
  split; [reflexivity|]. intros P. assert (I : In 30%Z [10; 10]%Z) by (eapply Permutation_in; [symmetry; exact P|simpl; auto]).
  simpl in I. lia.
Qed.
Print Assumptions apply_ordering_failure_changes_program_refuted.
