(** C10-C12: theorems about ParallelFor. *)
Require Import ZArith List Lia Bool Permutation.
From Verif Require Import ParallelModel ParallelProofs ParallelProofs2.
Import ListNotations.
Open Scope Z_scope.

(** [calls]: indices with which the user function has been called, in some
    order.  [all_indices start end_ calls]: every index of [start, end_) once,
    nothing else. *)
Definition all_indices (start end_ : Z) (calls : list Z) : Prop :=
  NoDup calls /\ forall i, In i calls <-> start <= i < end_.
Definition some_indices (start end_ : Z) (calls : list Z) : Prop :=
  NoDup calls /\ forall i, In i calls -> start <= i < end_.

Lemma NoDup_app_remove_r : forall (A : Type) (l l' : list A), NoDup (l ++ l') -> NoDup l.
Proof.
  induction l as [|a l IH]; intros l' H; [constructor|]. simpl in H. apply NoDup_cons_iff in H. destruct H as [N H].
  constructor; [intro X; apply N; apply in_or_app; auto|eapply IH; exact H].
Qed.
Lemma NoDup_app_remove_l : forall (A : Type) (l l' : list A), NoDup (l ++ l') -> NoDup l'.
Proof.
  induction l as [|a l IH]; intros l' H; [exact H|]. simpl in H. apply NoDup_cons_iff in H. destruct H as [_ H].
  eapply IH; exact H.
Qed.

Lemma perm_range : forall a b l, Permutation l (zrange a b) -> all_indices a b l.
Proof.
  intros a b l P. split.
  - eapply Permutation_NoDup; [apply Permutation_sym; exact P|apply zrange_nodup].
  - intros i. rewrite <- zrange_in. split; apply Permutation_in; auto. apply Permutation_sym; auto.
Qed.

Lemma plan_wf : forall start end_ threads mb c, 1 <= mb -> parallel_for start end_ threads mb = Parallel c ->
  c = mkCfg start end_ threads mb segment /\ wf c.
Proof.
  intros start end_ threads mb c Hm E. unfold parallel_for in E.
  destruct (Z.ltb_spec 0 threads); simpl in E; [|discriminate]. destruct (Z.geb_spec start end_); [discriminate|].
  destruct (threads =? 1); simpl in E; [discriminate|]. destruct (Z.ltb_spec (end_ - start) (mb * 2)); [discriminate|].
  inversion E; subst. split; auto. apply wf_plain; lia.
Qed.

Lemma partial_trace : forall c s, wf c -> PInv c s -> NoDup (c_seg c (c_start c) (c_end c)) ->
  NoDup (map snd (trace s)) /\ incl (map snd (trace s)) (c_seg c (c_start c) (c_end c)).
Proof.
  intros c s W I ND. pose proof (v_tr c s I) as P. pose proof (blocks_pos c W) as B. pose proof (v_blk c s I) as NB.
  assert (E : c_seg c (c_start c) (curr_start c (out c s)) ++ c_seg c (curr_start c (out c s)) (c_end c) = c_seg c (c_start c) (c_end c)).
  { assert (c_start c <= curr_start c (out c s) <= c_end c) by (apply curr_start_le; unfold out; auto; lia). apply (w_seg c W); lia. }
  assert (NI : NoDup (map snd (trace s) ++ flat_map todo_of (thr s))).
  { eapply Permutation_NoDup; [apply Permutation_sym; exact P|]. rewrite <- E in ND. eapply NoDup_app_remove_r; exact ND. }
  split; [eapply NoDup_app_remove_r; exact NI|]. intros i Hi. rewrite <- E. apply in_or_app. left.
  eapply Permutation_in; [exact P|]. apply in_or_app. auto.
Qed.

(** C10, C12. For every range, thread count, block size >= 1 and every
    schedule [acts] of the calling thread and the workers: at any time no
    index has been called twice or outside the range; when the call has
    returned every index has been called exactly once. *)
Theorem parallel_for_each_once : forall start end_ threads mb, 1 <= mb ->
  match parallel_for start end_ threads mb with
  | Fatal => threads <= 0
  | Nothing => end_ <= start
  | Serial calls => all_indices start end_ calls
  | Parallel c => forall acts s, exec c acts init = Some s ->
      some_indices start end_ (map snd (trace s)) /\
      check_failed s = false /\
      (cal s = CReturned -> all_indices start end_ (map snd (trace s)))
  end.
Proof.
  intros start end_ threads mb Hm. destruct (parallel_for start end_ threads mb) as [| |calls|c] eqn:E.
  - unfold parallel_for in E. destruct (Z.ltb_spec 0 threads); [|lia]. simpl in E. destruct (start >=? end_); [discriminate|].
    destruct ((threads =? 1) || (end_ - start <? mb * 2)); discriminate.
  - unfold parallel_for in E. destruct (0 <? threads); simpl in E; [|discriminate]. destruct (Z.geb_spec start end_); [lia|].
    destruct ((threads =? 1) || (end_ - start <? mb * 2)); discriminate.
  - unfold parallel_for in E. destruct (0 <? threads); simpl in E; [|discriminate]. destruct (Z.geb_spec start end_); [discriminate|].
    destruct ((threads =? 1) || (end_ - start <? mb * 2)); [|discriminate]. inversion E; subst. apply perm_range. apply Permutation_refl.
  - destruct (plan_wf _ _ _ _ _ Hm E) as [C W]. intros acts s X. pose proof (inv_exec c W acts init s (inv_init c W) X) as I.
    split; [|split; [exact (v_chk c s I)|]].
    + destruct (partial_trace c s W I) as [P1 P2]; [rewrite C; apply zrange_nodup|]. split; auto.
      intros i Hi. apply P2 in Hi. rewrite C in Hi. simpl in Hi. apply zrange_in in Hi. auto.
    + intros R. pose proof (v_cal c s I) as V. rewrite R in V. destruct (complete c W s I V) as [P _].
      apply perm_range. rewrite C in P. exact P.
Qed.

(** C10 for the variant with user supplied partition boundaries
    (non-decreasing, from start to end). *)
Theorem parallel_for_partitioned_each_once : forall start end_ threads ps,
  (forall i j, (i <= j < length ps)%nat -> nth i ps 0 <= nth j ps 0) -> hd 0 ps = start -> last ps 0 = end_ ->
  match parallel_for_partitioned start end_ threads ps with
  | Fatal => threads <= 0
  | Nothing => end_ <= start
  | Serial calls => all_indices start end_ calls
  | Parallel c => forall acts s, exec c acts init = Some s ->
      some_indices start end_ (map snd (trace s)) /\
      check_failed s = false /\
      (cal s = CReturned -> all_indices start end_ (map snd (trace s)))
  end.
Proof.
  intros start end_ threads ps Hm Hh Hl. unfold parallel_for_partitioned.
  destruct (Z.ltb_spec 0 threads); simpl negb; cbv iota; [|lia].
  destruct (Z.geb_spec start end_); [lia|]. rewrite Hh, Hl, !Z.eqb_refl. simpl negb; cbv iota.
  destruct ((threads =? 1) || (end_ - start <=? threads)) eqn:T.
  { exact (parallel_for_each_once start end_ threads 1 ltac:(lia)). }
  assert (L : (1 < length ps)%nat).
  { destruct ps as [|x [|y ps]]; simpl in *; lia. }
  destruct (Z.ltb_spec 1 (Z.of_nat (length ps))); simpl negb; cbv iota; [|lia].
  assert (HZ : nth 0 ps 0 = start) by (rewrite <- Hh; destruct ps; auto).
  assert (HN : nth (Z.to_nat (Z.of_nat (length ps) - 1)) ps 0 = end_).
  { rewrite <- Hl. replace (Z.to_nat (Z.of_nat (length ps) - 1)) with (length ps - 1)%nat by lia. clear. induction ps as [|x [|y ps] IH]; auto. 
    change (last (x :: y :: ps) 0) with (last (y :: ps) 0). rewrite <- IH. simpl. rewrite Nat.sub_0_r. auto. }
  assert (WS : part_segment ps 0 (Z.of_nat (length ps) - 1) = zrange start end_) by (unfold part_segment; simpl Z.to_nat at 1; rewrite HZ, HN; auto).
  destruct ((threads =? 1) || (Z.of_nat (length ps) - 1 - 0 <? 1 * 2)) eqn:T2.
  { rewrite WS. apply perm_range. apply Permutation_refl. }
  set (c := mkCfg 0 (Z.of_nat (length ps) - 1) threads 1 (part_segment ps)).
  assert (W : wf c) by (apply wf_part; auto; lia).
  intros acts s X. pose proof (inv_exec c W acts init s (inv_init c W) X) as I.
  split; [|split; [exact (v_chk c s I)|]].
  - destruct (partial_trace c s W I) as [P1 P2]; [simpl; rewrite WS; apply zrange_nodup|]. split; auto.
    intros i Hi. apply P2 in Hi. simpl in Hi. rewrite WS in Hi. apply zrange_in in Hi. auto.
  - intros R. pose proof (v_cal c s I) as V. rewrite R in V. destruct (complete c W s I V) as [P _].
    apply perm_range. simpl in P. rewrite WS in P. exact P.
Qed.

(** C11. Every finished call had a thread id in range; two calls in progress
    at the same time in different threads have different thread ids in range. *)
Definition in_call (s : st) (t : nat) (tid i : Z) : Prop :=
  exists jobs todo, nth_error (thr s) t = Some (PRun tid jobs (i :: todo)).

Theorem thread_ids_exclusive : forall start end_ threads mb c acts s, 1 <= mb ->
  parallel_for start end_ threads mb = Parallel c -> exec c acts init = Some s ->
  (forall e, In e (trace s) -> 0 <= fst e < threads) /\
  (forall t tid i, in_call s t tid i -> 0 <= tid < threads) /\
  (forall t t' tid i i', in_call s t tid i -> in_call s t' tid i' -> t = t').
Proof.
  intros start end_ threads mb c acts s Hm E X. destruct (plan_wf _ _ _ _ _ Hm E) as [C W].
  pose proof (inv_exec c W acts init s (inv_init c W) X) as I.
  assert (CT : c_threads c = threads) by (rewrite C; auto).
  split; [rewrite <- CT; exact (v_trt c s I)|]. split.
  - intros t tid i [jobs [todo H]]. pose proof (v_pc c s I) as P. rewrite Forall_forall in P. apply nth_error_In in H. apply P in H. simpl in H. lia.
  - intros t t' tid i i' [jobs [todo H]] [jobs' [todo' H']]. pose proof (v_tid c s I) as ND. clear - H H' ND.
    revert t t' H H' ND. induction (thr s) as [|p l IH]; intros [|t] [|t'] H H' ND; simpl in H, H'; try discriminate; auto.
    + inversion H; subst p. exfalso. rewrite tids_cons in ND. simpl in ND. inversion ND as [|? ? N1 N2]; subst. apply N1.
      apply nth_error_In in H'. unfold tids. apply in_flat_map. exists (PRun tid jobs' (i' :: todo')). simpl. auto.
    + inversion H'; subst p. exfalso. rewrite tids_cons in ND. simpl in ND. inversion ND as [|? ? N1 N2]; subst. apply N1.
      apply nth_error_In in H. unfold tids. apply in_flat_map. exists (PRun tid jobs (i :: todo)). simpl. auto.
    + f_equal. apply (IH t t'); auto. rewrite tids_cons in ND. eapply NoDup_app_remove_l; exact ND.
Qed.

(** C12. Once ParallelFor has returned, no thread is inside the user function
    and none ever will be again (the function may be destroyed). *)
Theorem quiet_after_return : forall start end_ threads mb c acts s, 1 <= mb ->
  parallel_for start end_ threads mb = Parallel c -> exec c acts init = Some s -> cal s = CReturned ->
  (forall t tid i, ~ in_call s t tid i) /\
  forall acts' s', exec c acts' s = Some s' -> trace s' = trace s /\ forall t tid i, ~ in_call s' t tid i.
Proof.
  intros start end_ threads mb c acts s Hm E X R. destruct (plan_wf _ _ _ _ _ Hm E) as [C W].
  pose proof (inv_exec c W acts init s (inv_init c W) X) as I.
  assert (Q : forall s, PInv c s -> cal s = CReturned -> forall t tid i, ~ in_call s t tid i).
  { intros s0 I0 R0 t tid i [jobs [todo H]]. pose proof (v_cal c s0 I0) as V. rewrite R0 in V. destruct (complete c W s0 I0 V) as [_ [_ N]].
    eapply N; eauto. }
  split; [apply Q; auto|]. intros acts' s' X'. destruct (no_more_calls c W acts' s s' I R X') as [T R']. split; auto.
  apply Q; auto. eapply inv_exec; eauto.
Qed.

(** C12. No hang: in every reachable state in which the call has not returned,
    a thread already running can take a step (no help from the pool needed),
    and a finite sequence of such steps leads to return. *)
Theorem never_stuck : forall start end_ threads mb c acts s, 1 <= mb ->
  parallel_for start end_ threads mb = Parallel c -> exec c acts init = Some s -> cal s <> CReturned ->
  (exists a s', (match a with AThread _ | ACaller => True | _ => False end) /\ step c a s = Some s') /\
  exists acts' s', exec c acts' s = Some s' /\ cal s' = CReturned /\
     Forall (fun a => match a with AThread _ | ACaller => True | _ => False end) acts'.
Proof.
  intros start end_ threads mb c acts s Hm E X R. destruct (plan_wf _ _ _ _ _ Hm E) as [C W].
  pose proof (inv_exec c W acts init s (inv_init c W) X) as I. split.
  - destruct (progress c W s I R) as [a [s' [P1 P2]]]. eauto.
  - apply (can_return c W s I).
Qed.

(** C12. Every schedule is finite: with [k] spurious wake-ups at most
    [B + 2 k] steps, where [B] depends on the call only. *)
Theorem schedules_bounded : forall start end_ threads mb c, 1 <= mb -> parallel_for start end_ threads mb = Parallel c ->
  exists B, forall acts s, exec c acts init = Some s -> Z.of_nat (length acts) <= B + 2 * count_spurious acts.
Proof.
  intros start end_ threads mb c Hm E. destruct (plan_wf _ _ _ _ _ Hm E) as [C W].
  exists (measure c init). intros acts s X. pose proof (exec_bound c W acts init s (inv_init c W) X) as K.
  pose proof (measure_nonneg c W s (inv_exec c W acts init s (inv_init c W) X)). lia.
Qed.

Print Assumptions parallel_for_each_once.
Print Assumptions parallel_for_partitioned_each_once.
Print Assumptions thread_ids_exclusive.
Print Assumptions quiet_after_return.
Print Assumptions never_stuck.
Print Assumptions schedules_bounded.

(** A real interleaving: 3 indices per block, two threads alternate, one index
    each in progress; then the run completes after sleeping. *)
Definition ex_cfg : cfg := mkCfg 10 17 2 3 segment.
Example parallel_plan_case : parallel_for 10 17 2 3 = Parallel ex_cfg /\ num_blocks ex_cfg = 2.
Proof. vm_compute. auto. Qed.
Definition ex_sched : list act :=
  [AThread 0; AThread 0; AThread 0; AStart; AThread 1; AThread 1; AThread 1; AThread 0; AThread 0; AThread 1].
Example parallel_mid_case : exists s, exec ex_cfg ex_sched init = Some s /\
  in_call s 0 0 15 /\ in_call s 1 1 11 /\ trace s = [(0, 14); (1, 10)].
Proof. eexists. split; [vm_compute; reflexivity|]. split; [eexists; eexists; reflexivity|]. split; [eexists; eexists; reflexivity|reflexivity]. Qed.
Example parallel_end_case :
  match exec ex_cfg (ex_sched ++ [AThread 0; AThread 0; AThread 0; AThread 0; AThread 0; ACaller; ACaller; ASpurious; ACaller; AThread 1; AThread 1; AThread 1; AThread 1; AThread 1; AThread 1; ACaller]) init with
  | Some s => cal s = CReturned /\ map snd (trace s) = [14; 10; 15; 16; 11; 12; 13] | None => False end.
Proof. vm_compute. auto. Qed.
Example partitioned_case : parallel_for_partitioned 0 9 2 [0; 4; 4; 6; 9] = Parallel (mkCfg 0 4 2 1 (part_segment [0; 4; 4; 6; 9])).
Proof. vm_compute. reflexivity. Qed.
