(** C11 (tokens), C13, C14: theorems about ConcurrentQueue,
    ThreadTokenProvider and ThreadPool. *)
Require Import List Arith Bool Lia Permutation.
From Verif Require Import QueueModel QueueProofs QueueProofs2.
Import ListNotations.

(** ** Specification of the queue: a sequential FIFO.
    [legal q w h q' w']: history [h] is explained by a FIFO with content [q]
    and waiting enabled [w] ending with content [q'] and flag [w']. *)
Inductive legal {A} : list A -> bool -> list (qevent A) -> list A -> bool -> Prop :=
  | l_nil : forall q w, legal q w [] q w
  | l_push : forall q w x h q' w', legal (q ++ [x]) w h q' w' -> legal q w (EPush x :: h) q' w'
  | l_pop : forall q w t x h q' w', legal q w h q' w' -> legal (x :: q) w (EPop t (Some x) :: h) q' w'
  | l_pop0 : forall w t h q' w', legal [] w h q' w' -> legal [] w (EPop t None :: h) q' w'
  | l_wait : forall q w t x h q' w', legal q w h q' w' -> legal (x :: q) w (EWait t (Some x) :: h) q' w'
  | l_wait0 : forall t h q' w', legal [] false h q' w' -> legal [] false (EWait t None :: h) q' w'
  | l_stop : forall q w h q' w', legal q false h q' w' -> legal q w (EStop :: h) q' w'
  | l_enable : forall q w h q' w', legal q true h q' w' -> legal q w (EEnable :: h) q' w'.

Definition pushed {A} (h : list (qevent A)) : list A := flat_map (fun e => match e with EPush x => [x] | _ => [] end) h.
Definition delivered {A} (h : list (qevent A)) : list A :=
  flat_map (fun e => match e with EPop _ (Some x) => [x] | EWait _ (Some x) => [x] | _ => [] end) h.

(** C13. Every interleaving of the critical sections looks like a sequential
    FIFO; in particular Wait returns without an item only when the queue is
    empty and waiting is disabled. *)
Theorem queue_is_fifo : forall A (acts : list (qact A)) q q' h, q_exec acts q = Some (q', h) ->
  legal (q_items q) (q_wait q) h (q_items q') (q_wait q').
Proof.
  induction acts as [|a acts IH]; intros q q' h H; simpl in H; [inversion H; subst; constructor|].
  destruct (q_step a q) as [[q1 e1]|] eqn:E; [|discriminate]. destruct (q_exec acts q1) as [[q2 e2]|] eqn:E2; [|discriminate].
  inversion H; subst. specialize (IH _ _ _ E2). destruct a as [x k|t|t|t| | |k]; simpl in E.
  - inversion E; subst. destruct (push_spec A x k q) as [P1 [P2 _]]. rewrite P1, P2 in IH. constructor; auto.
  - destruct (in_wait t q); [discriminate|]. unfold pop_unlocked in E. destruct (q_items q) eqn:Q; inversion E; subst; simpl.
    + rewrite Q in IH. constructor; auto.
    + simpl in IH. constructor; auto.
  - destruct (in_wait t q); inversion E; subst. exact IH.
  - destruct (is_awake t q); [|discriminate].
    destruct (test_cases A t q) as [[x [r [E1 E3]]]|[[E1 [E4 E3]]|[E1 [E4 E3]]]]; rewrite E3 in E; inversion E; subst; simpl in *; rewrite E1, ?E4; try constructor; auto.
  - inversion E; subst. simpl. constructor. exact IH.
  - inversion E; subst. simpl. constructor. exact IH.
  - unfold q_spurious in E. destruct (pick _ _) as [[t r]|]; inversion E; subst. exact IH.
Qed.

(** C13. Items come out in the order they went in, each at most once, and
    what is not delivered is still queued. *)
Theorem queue_delivers_once_in_order : forall A (acts : list (qact A)) q' h, q_exec acts q_new = Some (q', h) ->
  pushed h = delivered h ++ q_items q'.
Proof.
  intros A acts q' h H. apply queue_is_fifo in H. simpl in H.
  enough (G : forall q w h q' w', @legal A q w h q' w' -> q ++ pushed h = delivered h ++ q') by (apply G in H; exact H).
  clear. induction 1; simpl in *; rewrite ?app_nil_r; auto; try congruence.
  rewrite <- IHlegal, <- app_assoc. auto.
Qed.

(** C13. No missed wake-up: a thread blocked in Wait while nobody is about to
    take the lock means the queue is empty and waiting is enabled; as long as
    there are more items than threads about to test, nobody sleeps. *)
Theorem no_missed_wakeup : forall A (acts : list (qact A)) q h, q_exec acts q_new = Some (q, h) ->
  q_asleep q <> [] -> q_wait q = true /\ length (q_items q) <= length (q_awake q) /\
  (q_awake q = [] -> q_items q = []).
Proof.
  intros A acts q h H S. destruct (i_sleep _ (qinv_exec _ _ _ _ _ H (qinv_new A)) S) as [W L]. repeat split; auto.
  intros E. rewrite E in L. destruct (q_items q); auto. simpl in L. lia.
Qed.

(** C13. If an item is queued and some thread is in Wait, then some thread in
    Wait can run and returns an item; once waiting is disabled every thread
    in Wait can run and returns. *)
Theorem waiter_is_served : forall A (acts : list (qact A)) q h, q_exec acts q_new = Some (q, h) ->
  (q_items q <> [] -> q_asleep q ++ q_awake q <> [] ->
     exists t x q', q_step (QTest t) q = Some (q', [EWait t (Some x)])) /\
  (q_wait q = false -> forall t, In t (q_asleep q ++ q_awake q) ->
     exists r q', q_step (QTest t) q = Some (q', [EWait t r])).
Proof.
  intros A acts q h H. pose proof (qinv_exec _ _ _ _ _ H (qinv_new A)) as [N S]. split.
  - intros I W. destruct (q_awake q) as [|t l] eqn:AW.
    + destruct (q_asleep q) as [|t l] eqn:AS; [simpl in W; congruence|]. destruct S as [_ S]; [discriminate|]. simpl in S. destruct (q_items q); [congruence|simpl in S; lia].
    + destruct (test_cases A t q) as [[x [r [E1 E3]]]|[[E1 [E4 E3]]|[E1 [E4 E3]]]]; try congruence.
      exists t, x. unfold q_step. rewrite E3. assert (X : is_awake t q = true) by (apply is_awake_in; rewrite AW; left; auto). rewrite X. eauto.
  - intros W t I. assert (AS : q_asleep q = []) by (destruct (q_asleep q); auto; destruct S; congruence). rewrite AS in I. simpl in I.
    apply is_awake_in in I. unfold q_step. rewrite I.
    destruct (test_cases A t q) as [[x [r [E1 E3]]]|[[E1 [E4 E3]]|[E1 [E4 E3]]]]; try congruence; rewrite E3; eauto.
Qed.

(** ** C11: ThreadTokenProvider.  In every history of Acquire and Release the
    held tokens are in range and pairwise different, and Acquire never fails. *)
Theorem tokens_exclusive : forall n acts s, t_exec acts (t_new n) = Some s ->
  t_failed s = false /\
  (forall t x, In (t, x) (t_held s) -> x < n) /\
  (forall i j t x t' x', nth_error (t_held s) i = Some (t, x) -> nth_error (t_held s) j = Some (t', x') -> i <> j -> x <> x').
Proof.
  intros n acts s H. destruct (tinv_exec n acts _ _ H (tinv_new n)) as [Q W F P]. split; auto.
  assert (N : NoDup (map snd (t_held s))) by (eapply NoDup_right; eapply Permutation_NoDup; [symmetry; exact P|apply seq_NoDup]).
  split.
  - intros t x I. assert (X : In x (seq 0 n)) by (eapply Permutation_in; [exact P|]; apply in_or_app; right; apply (in_map snd) in I; auto).
    apply in_seq in X. lia.
  - intros i j t x t' x' E1 E2 NE X. subst. apply NE. eapply NoDup_nth_error; eauto.
    + rewrite map_length. apply nth_error_Some. congruence.
    + rewrite !nth_error_map, E1, E2. auto.
Qed.

(** Acquire blocks only while all tokens are held. *)
Theorem acquire_blocks_only_if_exhausted : forall n acts s, t_exec acts (t_new n) = Some s ->
  (exists t, In t (q_asleep (t_q s))) -> q_awake (t_q s) = [] -> length (t_held s) = n.
Proof.
  intros n acts s H [t I] A. destruct (tinv_exec n acts _ _ H (tinv_new n)) as [Q W F P].
  destruct (i_sleep _ Q) as [_ L]; [intros Z; rewrite Z in I; auto|]. rewrite A in L. destruct (q_items (t_q s)); simpl in L; [|lia].
  apply Permutation_length in P. simpl in P. rewrite map_length, seq_length in P. auto.
Qed.

(** ** C14: ThreadPool.  [all_tasks acts]: every task given to AddTask, from
    outside or by a task, as often as it was given. *)
Definition all_tasks (acts : list pact) : list task := flat_map flatten (added acts).

(** No task is begun more often than it was given; when the destructor has
    returned (and the pool had a thread) every task has been executed exactly
    as often as it was given and every worker has terminated. *)
Theorem pool_executes_each_task_once : forall acts s, p_exec acts p_new = Some s ->
  (exists rest, Permutation (all_tasks acts) (p_begun s ++ rest)) /\
  (p_d s = DDone -> (forall w, In w (p_w s) -> w = WExit) /\
                    (p_w s <> [] -> Permutation (all_tasks acts) (p_ended s))).
Proof.
  intros acts s H. pose proof (pinv_exec _ _ _ _ H pinv_new) as [Q IN WT EX LF BG AL DN]. simpl in AL. split.
  - eexists. exact AL.
  - intros D. pose proof (DN D) as DD. split; [auto|]. intros NE.
    assert (I0 : q_items (p_q s) = []).
    { destruct (q_items (p_q s)) eqn:E; auto. destruct LF as [w [W1 W2]]; [auto|discriminate|]. exfalso. apply W2. auto. }
    assert (FM : forall f : wpc -> list task, f WExit = [] -> flat_map f (p_w s) = []).
    { intros f F. clear - DD F. induction (p_w s) as [|w l IH]; auto. simpl. rewrite (DD w); [|left; auto]. rewrite F. apply IH. intros; apply DD; right; auto. }
    rewrite I0, (FM pending) in AL by auto. rewrite (FM running) in BG by auto. simpl in AL. rewrite !app_nil_r in *.
    unfold all_tasks. rewrite AL. exact BG.
Qed.

(** While the pool is alive no task is forgotten: if a task is queued and the
    pool has a thread, some worker can run. *)
Theorem pool_never_idle_with_work : forall acts s, p_exec acts p_new = Some s -> p_d s = DNot ->
  p_w s <> [] -> q_items (p_q s) <> [] -> exists w s', p_step (PWork w 0) s = Some s'.
Proof.
  intros acts s H D NE IT. pose proof (pinv_exec _ _ _ _ H pinv_new) as [Q IN WT EX LF BG AL DN].
  destruct (q_awake (p_q s)) as [|t l] eqn:AW.
  - assert (AS : q_asleep (p_q s) = []).
    { destruct (q_asleep (p_q s)) eqn:E; auto. destruct (i_sleep _ Q) as [_ L]; [congruence|]. rewrite AW in L. destruct (q_items (p_q s)); [congruence|simpl in L; lia]. }
    destruct (p_w s) as [|x ws] eqn:PW; [congruence|]. exists 0. simpl. rewrite PW. simpl.
    destruct x as [| |me [|c todo]|]; eauto.
    + exfalso. specialize (IN 0). rewrite AS in IN. simpl in IN. apply IN; auto.
    + exfalso. apply EX; [auto|left; auto].
  - exists t. assert (X : In t (q_awake (p_q s))) by (rewrite AW; left; auto). assert (Y : nth_error (p_w s) t = Some WIn) by (apply IN; apply in_or_app; rewrite ?AW; right; left; auto).
    simpl. rewrite Y. apply is_awake_in in X. rewrite X. destruct (q_test t (p_q s)) as [[[r|]|] q']; eauto.
Qed.

(** The destructor returns: after Stop something can always run until it has
    returned, and there are only finitely many steps. *)
Theorem pool_destructor_returns : forall acts s, p_exec acts p_new = Some s -> p_d s = DJoin ->
  (exists a s', p_step a s = Some s') /\
  exists B, forall acts' s', p_exec acts' s = Some s' ->
    length acts' <= B /\ (p_d s' <> DDone -> exists a s'', p_step a s' = Some s'').
Proof.
  intros acts s H D. pose proof (pinv_exec _ _ _ _ H pinv_new) as I. split; [eapply pool_progress; eauto|].
  exists (pmeasure s). intros acts' s' H'. assert (DN : p_d s <> DNot) by congruence. split.
  - pose proof (p_exec_bound _ _ _ _ I DN H'). lia.
  - intros ND. pose proof (pinv_exec _ _ _ _ H' I) as I'. apply (pool_progress _ _ I').
    assert (p_d s' <> DNot).
    { clear H ND D I'. revert H' I DN. generalize (@nil task ++ added acts). revert s. induction acts' as [|a l IH]; intros s e H' I DN; simpl in H'.
      - inversion H'; subst. auto.
      - destruct (p_step a s) as [s1|] eqn:E; [|discriminate]. destruct (pmeasure_step _ _ _ _ I DN E) as [D1 _].
        eapply IH; eauto. eapply pinv_step; eauto. }
    destruct (p_d s'); congruence.
Qed.

Print Assumptions queue_is_fifo.
Print Assumptions queue_delivers_once_in_order.
Print Assumptions no_missed_wakeup.
Print Assumptions waiter_is_served.
Print Assumptions tokens_exclusive.
Print Assumptions acquire_blocks_only_if_exhausted.
Print Assumptions pool_executes_each_task_once.
Print Assumptions pool_never_idle_with_work.
Print Assumptions pool_destructor_returns.

(** Two threads sleep, one push wakes the second one, a third thread steals
    the item with Pop, the woken thread sleeps again; Stop wakes both. *)
Example queue_case : exists q,
  q_exec [QEnter 1; QTest 1; QEnter 2; QTest 2; QPush 7 0; QPop 3; QTest 2; QPush 8 1; QStop; QTest 2; QTest 1] q_new
  = Some (q, [EPush 7; EPop 3 (Some 7); EPush 8; EStop; EWait 2 (Some 8); EWait 1 None]) /\ q_items q = [].
Proof. eexists. vm_compute. split; reflexivity. Qed.
Example tokens_case : exists s, t_exec [TAcquire 5; TWake 5; TAcquire 6; TWake 6; TAcquire 7; TWake 7] (t_new 2) = Some s /\
  t_held s = [(6, 1); (5, 0)] /\ q_asleep (t_q s) = [7] /\ q_awake (t_q s) = [].
Proof. eexists. vm_compute. auto. Qed.
(** A task adding two tasks, run by two workers during shutdown. *)
Definition ex_task := Task 1 [Task 2 []; Task 3 []].
Notation ex_pool := (p_exec [PResize 2 8; PWork 0 0; PWork 0 0; PAdd ex_task 0; PWork 0 0; PStop; PWork 1 0; PWork 1 0;
   PWork 0 0; PWork 0 0; PWork 0 0; PWork 0 0; PWork 0 0; PWork 0 0; PWork 0 0; PWork 0 0; PWork 0 0; PWork 0 0; PWork 0 0; PJoined] p_new).
Example pool_case : exists s, ex_pool = Some s /\ p_d s = DDone /\ map t_name (p_ended s) = [1; 2; 3].
Proof. eexists. vm_compute. auto. Qed.
(** Without threads the destructor returns at once and the task is dropped:
    the hypothesis [p_w s <> []] is needed. *)
Example pool_no_threads : exists s, p_exec [PAdd ex_task 0; PStop; PJoined] p_new = Some s /\ p_d s = DDone /\ p_ended s = [].
Proof. eexists. vm_compute. auto. Qed.
