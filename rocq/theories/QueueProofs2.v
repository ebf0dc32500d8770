(** Invariants and termination of the thread pool. *)
Require Import List Arith Bool Lia Permutation.
From Verif Require Import QueueModel QueueProofs.
Import ListNotations.

(** A task and all tasks it adds, directly or not. *)
Fixpoint flatten (t : task) : list task := match t with Task _ l => t :: flat_map flatten l end.
Lemma flatten_eq : forall t, flatten t = t :: flat_map flatten (t_subs t).
Proof. intros []; reflexivity. Qed.

(** Tasks given to AddTask from outside. *)
Definition added (acts : list pact) : list task := flat_map (fun a => match a with PAdd t _ => [t] | _ => [] end) acts.

Definition running (w : wpc) : list task := match w with WRun me _ => [me] | _ => [] end.
Definition pending (w : wpc) : list task := match w with WRun _ todo => flat_map flatten todo | _ => [] end.

Record PInv (ext : list task) (s : pool) : Prop := mkPI {
  pi_q : QInv (p_q s);
  pi_in : forall w, In w (q_asleep (p_q s) ++ q_awake (p_q s)) <-> nth_error (p_w s) w = Some WIn;
  pi_wait : q_wait (p_q s) = match p_d s with DNot => true | _ => false end;
  pi_exit : p_d s = DNot -> ~ In WExit (p_w s);
  pi_left : p_w s <> [] -> q_items (p_q s) <> [] -> exists w, In w (p_w s) /\ w <> WExit;
  pi_begun : Permutation (p_begun s) (p_ended s ++ flat_map running (p_w s));
  pi_all : Permutation (flat_map flatten ext)
     (p_begun s ++ flat_map flatten (q_items (p_q s)) ++ flat_map pending (p_w s));
  pi_done : p_d s = DDone -> forall w, In w (p_w s) -> w = WExit }.

Lemma setw_split : forall l n x, nth_error l n = Some x -> exists l1 l2, length l1 = n /\ l = l1 ++ x :: l2 /\ forall y, setw l n y = l1 ++ y :: l2.
Proof.
  induction l as [|a l IH]; intros n x H; [destruct n; discriminate|]. destruct n; simpl in H.
  - inversion H; subst. exists [], l. auto.
  - destruct (IH _ _ H) as [l1 [l2 [E1 [E2 E3]]]]. exists (a :: l1), l2. simpl. repeat split; try congruence.
Qed.

Lemma setw_nth : forall l n x y m, nth_error l n = Some x -> nth_error (setw l n y) m = if m =? n then Some y else nth_error l m.
Proof.
  induction l as [|a l IH]; intros n x y m H; [destruct n; discriminate|]. destruct n, m; simpl in *; auto. eapply IH; eauto.
Qed.

(** Replacing a worker keeps what it does not touch. *)
Lemma keep_left : forall (s : pool) w x y, nth_error (p_w s) w = Some x -> y <> WExit ->
  exists v, In v (setw (p_w s) w y) /\ v <> WExit.
Proof. intros s w x y H N. destruct (setw_split _ _ _ H) as [l1 [l2 [_ [_ E]]]]. exists y. rewrite E. split; auto. apply in_elt. Qed.

Lemma keep_exit : forall (s : pool) w x y, nth_error (p_w s) w = Some x -> y <> WExit -> ~ In WExit (p_w s) -> ~ In WExit (setw (p_w s) w y).
Proof.
  intros s w x y H N X. destruct (setw_split _ _ _ H) as [l1 [l2 [_ [E0 E]]]]. rewrite E. rewrite E0 in X.
  intros Z. apply X. apply in_app_or in Z. apply in_or_app. destruct Z as [Z|[Z|Z]]; auto; [congruence|right; right; auto].
Qed.

Ltac perm_solve := repeat rewrite ?flat_map_app, ?app_assoc; simpl.

Lemma fm_set : forall (f : wpc -> list task) l n x y, nth_error l n = Some x ->
  exists r, Permutation (flat_map f l) (f x ++ r) /\ Permutation (flat_map f (setw l n y)) (f y ++ r).
Proof.
  intros f l n x y H. destruct (setw_split _ _ _ H) as [l1 [l2 [_ [E0 E]]]]. exists (flat_map f l1 ++ flat_map f l2).
  rewrite (E y). rewrite E0 at 1. rewrite !flat_map_app. simpl. split; apply Permutation_app_swap_app.
Qed.

Lemma pinv_new : PInv [] p_new.
Proof.
  constructor; simpl; auto; try congruence.
  - apply qinv_new.
  - intros w. split; [contradiction|destruct w; discriminate].
Qed.

Lemma nth_app_out : forall l k w, nth_error (l ++ repeat WOut k) w = Some WIn <-> nth_error l w = Some WIn.
Proof.
  intros l k w. destruct (Nat.lt_ge_cases w (length l)).
  - rewrite nth_error_app1; tauto.
  - rewrite nth_error_app2; auto. split; intros X.
    + apply nth_error_In in X. apply repeat_spec in X. discriminate.
    + assert (nth_error l w = None) by (apply nth_error_None; auto). congruence.
Qed.

Lemma in_set : forall s w x y (q' : cq task), nth_error (p_w s) w = Some x ->
  (forall v, In v (q_asleep (p_q s) ++ q_awake (p_q s)) <-> nth_error (p_w s) v = Some WIn) ->
  (forall v, In v (q_asleep q' ++ q_awake q') <-> (v <> w /\ In v (q_asleep (p_q s) ++ q_awake (p_q s))) \/ (v = w /\ y = WIn)) ->
  forall v, In v (q_asleep q' ++ q_awake q') <-> nth_error (setw (p_w s) w y) v = Some WIn.
Proof.
  intros s w x y q' H I J v. rewrite J, (setw_nth _ _ _ _ _ H). destruct (Nat.eqb_spec v w).
  - subst. split; [intros [[]|[]]; congruence|]. intros E. inversion E; subst. auto.
  - rewrite I. split; [intros [[]|[]]; congruence|auto].
Qed.

Lemma NoDup_notin_remove : forall w l r, NoDup (l ++ r) -> In w r -> forall v, In v (l ++ remove1 w r) <-> v <> w /\ In v (l ++ r).
Proof.
  intros w l r N H v. rewrite !in_app_iff, remove1_in. pose proof (NoDup_mid _ _ _ N H). split.
  - intros [X|[X Y]]; auto. split; auto. congruence.
  - intros [X [Y|Y]]; auto.
Qed.

Lemma pinv_step : forall ext a s s', p_step a s = Some s' -> PInv ext s -> PInv (ext ++ added [a]) s'.
Proof.
  intros ext a s s' H I. destruct I as [Q IN WT EX LF BG AL DN]. destruct a as [t k|n mx|w k|k| |].
  - simpl in H. destruct (p_d s) eqn:D; inversion H; subst. destruct (push_spec task t k (p_q s)) as [E1 [E2 [E3 _]]].
    constructor; cbn [p_q p_w p_d p_begun p_ended]; auto.
    + apply qinv_push; auto.
    + intros w. rewrite <- IN. split; apply Permutation_in; auto. symmetry; auto.
    + congruence.
    + intros X _. destruct (p_w s) as [|x l] eqn:PW; [congruence|]. exists x. split; [left; auto|].
      intros Z; subst. apply EX; auto. left; auto.
    + rewrite E1, !flat_map_app. simpl. rewrite !app_nil_r. rewrite AL. rewrite <- !app_assoc.
      apply Permutation_app_head. apply Permutation_app_head. apply Permutation_app_comm.
  - simpl in H. destruct (p_d s) eqn:D; inversion H; subst. simpl. rewrite app_nil_r. destruct (n <=? length (p_w s)).
    { constructor; auto; rewrite ?D; auto. }
    constructor; cbn [p_q p_w p_d p_begun p_ended]; auto.
    + intros w. rewrite IN. symmetry. apply nth_app_out.
    + intros _ X. apply in_app_or in X. destruct X as [X|X]; [apply EX; auto|]. apply repeat_spec in X. discriminate.
    + intros X Y. destruct (p_w s) as [|x l] eqn:PW.
      * simpl in *. destruct (Nat.min n mx - 0); simpl in *; [congruence|]. exists WOut. split; [auto|discriminate].
      * destruct LF as [v [V1 V2]]; [discriminate|auto|]. exists v. split; auto. apply in_or_app; auto.
    + rewrite flat_map_app. replace (flat_map running (repeat _ _)) with (@nil task); [rewrite app_nil_r; auto|].
      clear. induction (_ - _)%nat; simpl; auto.
    + rewrite flat_map_app. replace (flat_map pending (repeat _ _)) with (@nil task); [rewrite app_nil_r; auto|].
      clear. induction (_ - _)%nat; simpl; auto.
    + intros; congruence.
  - cbn [p_step] in H. replace (ext ++ added [PWork w k]) with ext by (symmetry; apply app_nil_r).
    destruct (nth_error (p_w s) w) as [x|] eqn:NW; [|discriminate].
    assert (NE : x <> WExit -> p_d s <> DDone) by (intros X Z; apply X; apply (DN Z x); eapply nth_error_In; eauto).
    destruct x as [| |me [|c todo]|].
    + (* calls Wait *) inversion H; subst. specialize (NE ltac:(discriminate)).
      assert (NI : ~ In w (q_asleep (p_q s) ++ q_awake (p_q s))) by (rewrite IN; congruence).
      destruct (fm_set running _ _ _ WIn NW) as [r1 [A1 A2]]. destruct (fm_set pending _ _ _ WIn NW) as [r2 [B1 B2]]. simpl in *.
      constructor; cbn [p_q p_w p_d p_begun p_ended]; auto.
      * apply qinv_enter; auto. apply in_wait_out; auto.
      * eapply in_set; eauto. intros v. unfold q_enter. simpl. rewrite !in_app_iff. simpl. 
        split.
        { intros [X|[X|X]]; auto; left; split; auto; intro; subst; apply NI; apply in_or_app; auto. }
        { intros [[_ [X|X]]|[X _]]; auto. }
      * intros D. eapply keep_exit; eauto. discriminate.
      * intros _ _. eapply keep_left; eauto. discriminate.
      * rewrite A2, <- A1. auto.
      * unfold q_enter. simpl. rewrite B2, <- B1. auto.
      * intros; congruence.
    + (* tests *) destruct (is_awake w (p_q s)) eqn:AW; [|discriminate]. apply is_awake_in in AW. specialize (NE ltac:(discriminate)).
      pose proof (qinv_test task w _ AW Q) as QT.
      destruct (test_cases task w (p_q s)) as [[x [r [E1 E2]]]|[[E1 [E2 E3]]|[E1 [E2 E3]]]].
      * rewrite E2 in H, QT. inversion H; subst. cbn [snd] in QT.
        destruct (fm_set running _ _ _ (WRun x (t_subs x)) NW) as [r1 [A1 A2]]. destruct (fm_set pending _ _ _ (WRun x (t_subs x)) NW) as [r2 [B1 B2]].
        cbn [running pending app] in *.
        constructor; cbn [p_q p_w p_d p_begun p_ended q_items q_wait]; auto.
        { eapply in_set; eauto. intros v. cbn [q_asleep q_awake]. rewrite (NoDup_notin_remove w _ _ (i_nodup _ Q) AW).
          split; [auto|]. intros [X|[_ X]]; [auto|discriminate]. }
        { intros D. eapply keep_exit; eauto. discriminate. }
        { intros _ _. eapply keep_left; eauto. discriminate. }
        { rewrite A2. rewrite BG, A1, <- app_assoc. apply Permutation_app_head. apply Permutation_app_comm. }
        { rewrite B2, AL, E1. cbn [flat_map]. rewrite flatten_eq, B1. rewrite <- !app_assoc. apply Permutation_app_head. simpl. constructor.
          rewrite !app_assoc. apply Permutation_app_tail. apply Permutation_app_comm. }
        { intros; congruence. }
      * rewrite E3 in H, QT. inversion H; subst. cbn [snd] in QT.
        destruct (fm_set running _ _ _ WExit NW) as [r1 [A1 A2]]. destruct (fm_set pending _ _ _ WExit NW) as [r2 [B1 B2]].
        cbn [running pending app] in *.
        constructor; cbn [p_q p_w p_d p_begun p_ended q_items q_wait]; auto.
        { eapply in_set; eauto. intros v. cbn [q_asleep q_awake]. rewrite (NoDup_notin_remove w _ _ (i_nodup _ Q) AW).
          split; [auto|]. intros [X|[_ X]]; [auto|discriminate]. }
        { rewrite <- WT. auto. }
        { intros D. rewrite D in WT. congruence. }
        { intros; congruence. }
        { rewrite A2, <- A1. auto. }
        { rewrite B2, <- B1. rewrite E1 in AL. auto. }
        { intros; congruence. }
      * rewrite E3 in H, QT. inversion H; subst. cbn [snd] in QT.
        constructor; cbn [p_q p_w p_d p_begun p_ended q_items q_wait]; auto.
        { intros v. rewrite <- IN. cbn [q_asleep q_awake]. cbn [app In]. rewrite (NoDup_notin_remove w _ _ (i_nodup _ Q) AW).
          split; [|destruct (Nat.eq_dec w v); auto].
          intros [X|[_ X]]; [subst; apply in_or_app; auto|auto]. }
        { rewrite <- WT. auto. }
        { intros; congruence. }
    + (* task returns *) inversion H; subst. specialize (NE ltac:(discriminate)).
      destruct (fm_set running _ _ _ WOut NW) as [r1 [A1 A2]]. destruct (fm_set pending _ _ _ WOut NW) as [r2 [B1 B2]]. simpl in *.
      constructor; cbn [p_q p_w p_d p_begun p_ended]; auto.
      * eapply in_set; eauto. intros v. split.
        { intros X. left. split; auto. intro; subst. apply IN in X. congruence. }
        { intros [[_ X]|[_ X]]; [auto|discriminate]. }
      * intros D. eapply keep_exit; eauto. discriminate.
      * intros _ _. eapply keep_left; eauto. discriminate.
      * rewrite A2, BG, A1. rewrite <- app_assoc. auto.
      * rewrite B2, <- B1. auto.
      * intros; congruence.
    + (* task adds a task *) inversion H; subst. specialize (NE ltac:(discriminate)). destruct (push_spec task c k (p_q s)) as [E1 [E2 [E3 _]]].
      destruct (fm_set running _ _ _ (WRun me todo) NW) as [r1 [A1 A2]]. destruct (fm_set pending _ _ _ (WRun me todo) NW) as [r2 [B1 B2]]. cbn [running pending app flat_map] in *.
      constructor; cbn [p_q p_w p_d p_begun p_ended]; auto.
      * apply qinv_push; auto.
      * eapply in_set; eauto. intros v. split.
        { intros X. apply (Permutation_in v E3) in X. left. split; auto. intro; subst. apply IN in X. congruence. }
        { intros [[_ X]|[_ X]]; [|discriminate]. eapply Permutation_in; [symmetry; exact E3|auto]. }
      * congruence.
      * intros D. eapply keep_exit; eauto. discriminate.
      * intros _ _. eapply keep_left; eauto. discriminate.
      * rewrite A2, <- A1. auto.
      * rewrite B2, AL, B1, E1. rewrite flat_map_app. cbn [flat_map]. rewrite app_nil_r, <- !app_assoc. auto.
      * intros; congruence.
    + discriminate.
  - simpl in H. destruct (q_spurious k (p_q s)) as [q'|] eqn:E; inversion H; subst. pose proof (qinv_spurious _ _ _ _ E Q) as QS.
    unfold q_spurious in E. destruct (pick _ _) as [[t r]|] eqn:PK; inversion E; subst. apply pick_perm in PK.
    simpl. rewrite app_nil_r. constructor; cbn [p_q p_w p_d p_begun p_ended q_items q_wait q_asleep q_awake]; auto.
    intros v. rewrite <- IN. rewrite !in_app_iff. cbn [In]. split.
    + intros [X|[X|X]]; auto; left; eapply Permutation_in; try (symmetry; exact PK); simpl; auto.
    + intros [X|X]; auto. apply (Permutation_in v PK) in X. simpl in X. tauto.
  - simpl in H. destruct (p_d s) eqn:D; inversion H; subst. simpl. rewrite app_nil_r.
    constructor; cbn [p_q p_w p_d p_begun p_ended q_stop q_items q_wait q_asleep q_awake]; auto; try congruence. apply qinv_stop; auto.
  - simpl in H. destruct (p_d s) eqn:D; try discriminate. destruct (forallb _ _) eqn:FB; inversion H; subst. simpl. rewrite app_nil_r.
    constructor; cbn [p_q p_w p_d p_begun p_ended]; auto; try congruence.
    intros _ w Hw. rewrite forallb_forall in FB. specialize (FB w Hw). destruct w; congruence.
Qed.

Lemma pinv_exec : forall acts ext s s', p_exec acts s = Some s' -> PInv ext s -> PInv (ext ++ added acts) s'.
Proof.
  induction acts as [|a acts IH]; intros ext s s' H I; simpl in H; [inversion H; subst; simpl; rewrite app_nil_r; auto|].
  destruct (p_step a s) eqn:E; [|discriminate]. pose proof (IH _ _ _ H (pinv_step _ _ _ _ E I)) as R.
  rewrite <- app_assoc in R. unfold added in *. simpl in *. rewrite app_nil_r in R. exact R.
Qed.

(** ** Termination. *)
Fixpoint weight (t : task) : nat := match t with Task _ l => 3 + list_sum (map (fun c => S (weight c)) l) end.
Definition weights (l : list task) : nat := list_sum (map (fun c => S (weight c)) l).
Lemma weight_eq : forall t, weight t = 3 + weights (t_subs t).
Proof. intros []; reflexivity. Qed.
Definition wweight (w : wpc) : nat := match w with WOut => 2 | WIn => 1 | WRun _ todo => 3 + weights todo | WExit => 0 end.
Definition pmeasure (s : pool) : nat :=
  list_sum (map weight (q_items (p_q s))) + list_sum (map wweight (p_w s)) + match p_d s with DDone => 0 | _ => 1 end.

Lemma sum_set : forall l n x y, nth_error l n = Some x ->
  list_sum (map wweight l) + wweight y = list_sum (map wweight (setw l n y)) + wweight x.
Proof.
  intros l n x y H. destruct (setw_split _ _ _ H) as [l1 [l2 [_ [E0 E]]]]. rewrite (E y). rewrite E0 at 1.
  rewrite !map_app, !list_sum_app. simpl. lia.
Qed.

(** After Stop, every step decreases the measure. *)
Lemma pmeasure_step : forall ext a s s', PInv ext s -> p_d s <> DNot -> p_step a s = Some s' -> p_d s' <> DNot /\ pmeasure s' < pmeasure s.
Proof.
  intros ext a s s' I D H. destruct I as [Q IN WT EX LF BG AL DN].
  assert (WF : q_wait (p_q s) = false) by (destruct (p_d s); congruence).
  assert (AS : q_asleep (p_q s) = []) by (destruct (q_asleep (p_q s)) eqn:E; auto; destruct (i_sleep _ Q); congruence).
  destruct a as [t k|n mx|w k|k| |]; simpl in H.
  - destruct (p_d s); congruence.
  - destruct (p_d s); congruence.
  - destruct (nth_error (p_w s) w) as [x|] eqn:NW; [|discriminate]. destruct x as [| |me [|c todo]|].
    + inversion H; subst. unfold pmeasure. simpl. split; auto. pose proof (sum_set _ _ _ WIn NW) as K. simpl in K. lia.
    + destruct (is_awake w (p_q s)); [|discriminate].
      destruct (test_cases task w (p_q s)) as [[x [r [E1 E2]]]|[[E1 [E2 E3]]|[E1 [E2 E3]]]].
      * rewrite E2 in H. inversion H; subst. unfold pmeasure. cbn [p_q p_w p_d q_items]. split; auto. rewrite E1.
        pose proof (sum_set _ _ _ (WRun x (t_subs x)) NW) as K. cbn [wweight map list_sum fold_right] in *. simpl. rewrite weight_eq.
        change (fold_right Init.Nat.add 0 (map weight r)) with (list_sum (map weight r)). lia.
      * rewrite E3 in H. inversion H; subst. unfold pmeasure. cbn [p_q p_w p_d q_items]. split; auto. rewrite E1.
        pose proof (sum_set _ _ _ WExit NW) as K. simpl in *. lia.
      * congruence.
    + inversion H; subst. unfold pmeasure. simpl. split; auto. pose proof (sum_set _ _ _ WOut NW) as K. simpl in K. lia.
    + inversion H; subst. unfold pmeasure. cbn [p_q p_w p_d]. split; auto. destruct (push_spec task c k (p_q s)) as [E1 _]. rewrite E1.
      pose proof (sum_set _ _ _ (WRun me todo) NW) as K. rewrite map_app, list_sum_app. unfold weights in *. simpl in *.
      assert (weights (c :: todo) = S (weight c) + weights todo) by reflexivity. lia.
    + discriminate.
  - unfold q_spurious in H. rewrite AS in H. destruct k; discriminate.
  - destruct (p_d s); congruence.
  - destruct (p_d s) eqn:PD; try congruence. destruct (forallb _ _); inversion H; subst. unfold pmeasure. simpl. rewrite PD. split; [discriminate|]. lia.
Qed.

(** After Stop, some step is possible until the destructor has returned. *)
Lemma pool_progress : forall ext s, PInv ext s -> p_d s = DJoin -> exists a s', p_step a s = Some s'.
Proof.
  intros ext s I D. destruct I as [Q IN WT EX LF BG AL DN].
  destruct (forallb (fun w => match w with WExit => true | _ => false end) (p_w s)) eqn:FB.
  - exists PJoined. simpl. rewrite D, FB. eauto.
  - assert (X : exists w x, nth_error (p_w s) w = Some x /\ x <> WExit).
    { clear - FB. induction (p_w s) as [|x l IH]; simpl in FB; [discriminate|]. destruct x; simpl in FB.
      - exists 0, WOut; split; [reflexivity|discriminate].
      - exists 0, WIn; split; [reflexivity|discriminate].
      - exists 0, (WRun me todo); split; [reflexivity|discriminate].
      - destruct (IH FB) as [w [x [A B]]]. exists (S w), x. auto. }
    destruct X as [w [x [NW NX]]]. exists (PWork w 0). simpl. rewrite NW. destruct x as [| |me [|c todo]|]; eauto; [|congruence].
    rewrite D in WT. assert (AS : q_asleep (p_q s) = []) by (destruct (q_asleep (p_q s)) eqn:E; auto; destruct (i_sleep _ Q); congruence).
    apply IN in NW. rewrite AS in NW. simpl in NW. apply is_awake_in in NW. rewrite NW. destruct (q_test w (p_q s)) as [[[r|]|] q']; eauto.
Qed.

Lemma p_exec_bound : forall acts ext s s', PInv ext s -> p_d s <> DNot -> p_exec acts s = Some s' -> length acts + pmeasure s' <= pmeasure s.
Proof.
  induction acts as [|a acts IH]; intros ext s s' I D H; simpl in H; [inversion H; subst; simpl; lia|].
  destruct (p_step a s) as [s1|] eqn:E; [|discriminate]. destruct (pmeasure_step _ _ _ _ I D E) as [D1 M].
  specialize (IH _ _ _ (pinv_step _ _ _ _ E I) D1 H). simpl. lia.
Qed.
