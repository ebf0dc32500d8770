(* Theorems for C88: parallel vector operations. *)
From Coq Require Import ZArith List Bool Lia.
From Verif Require Import ParallelModel ParallelProps PvoModel PvoSpec.
Import ListNotations.
Open Scope Z_scope.

Lemma writes_once {E} (rhs : (Z -> E) -> Z -> E) : elementwise rhs -> forall calls v i, NoDup calls ->
  (In i calls -> writes rhs calls v i = rhs v i) /\ (~ In i calls -> writes rhs calls v i = v i).
Proof.
  intros L calls. induction calls as [|k calls IH]; intros v i N; [split; [intros []|reflexivity]|].
  inversion N as [|? ? Nk N']. subst. change (writes rhs (k :: calls) v) with (writes rhs calls (write rhs v k)). destruct (IH (write rhs v k) i N') as [H1 H2]. unfold write in *. split.
  - intros [->|H]; [rewrite (H2 Nk), Z.eqb_refl; reflexivity|]. rewrite (H1 H). apply L. destruct (Z.eqb_spec i k) as [->|]; [contradiction|reflexivity].
  - intro H. rewrite H2 by (intro K; apply H; right; exact K). destruct (Z.eqb_spec i k) as [->|]; [destruct H; left; reflexivity|reflexivity].
Qed.
Lemma progress_calls n threads acts calls ret : 0 < threads -> progress (parallel_for 0 n threads kMinBlockSizeParallelVectorOps) acts = Some (calls, ret) ->
  some_indices 0 n calls /\ (ret = true -> all_indices 0 n calls).
Proof.
  intros Ht H. pose proof (parallel_for_each_once 0 n threads kMinBlockSizeParallelVectorOps ltac:(unfold kMinBlockSizeParallelVectorOps; lia)) as P.
  destruct (parallel_for 0 n threads kMinBlockSizeParallelVectorOps) as [| |l|c]; cbn [progress] in H; [discriminate| | |].
  - injection H as <- <-. assert (all_indices 0 n []) as A by (split; [constructor|intro i; split; [intros []|lia]]). split; [|intros _; exact A]. split; [constructor|intros i []].
  - injection H as <- <-. split; [|intros _; exact P]. destruct P as [P1 P2]. split; [exact P1|]. intros i Hi. apply P2, Hi.
  - destruct (exec c acts init) as [s|] eqn:Ex; [|discriminate]. injection H as <- <-. destruct (P acts s Ex) as [P1 [_ P2]]. split; [exact P1|]. intro R. apply P2. destruct (cal s); congruence || discriminate.
Qed.

(* the result when the call has returned; before that every element is old or new *)
Theorem pvo_assign {E} (rhs : (Z -> E) -> Z -> E) threads n acts v v' ret : elementwise rhs -> 0 < threads -> ParallelAssign threads n n rhs acts v = Some (v', ret) ->
  (forall i, ~ inside n i -> v' i = v i) /\ (forall i, v' i = v i \/ v' i = rhs v i) /\
  (ret = true -> forall i, inside n i -> v' i = rhs v i).
Proof.
  intros L Ht H. unfold ParallelAssign in H. rewrite Z.eqb_refl in H. cbn [negb] in H. destruct (progress _ acts) as [[calls r]|] eqn:P; [|discriminate]. injection H as <- <-.
  destruct (progress_calls n threads acts calls r Ht P) as [[N S] A]. split; [|split].
  - intros i Hi. apply (writes_once rhs L calls v i N). intro K. apply Hi. exact (S i K).
  - intro i. destruct (in_dec Z.eq_dec i calls) as [K|K]; [right|left]; apply (writes_once rhs L calls v i N); exact K.
  - intros R i Hi. apply (writes_once rhs L calls v i N). apply (proj2 (A R)). exact Hi.
Qed.
Print Assumptions pvo_assign.
Theorem pvo_set_zero {E} (zero : E) threads n acts v v' ret : 0 < threads -> ParallelSetZero zero threads n acts v = Some (v', ret) ->
  (forall i, ~ inside n i -> v' i = v i) /\ (forall i, v' i = v i \/ v' i = zero) /\ (ret = true -> forall i, inside n i -> v' i = zero).
Proof.
  intros Ht H. apply (pvo_assign (fun _ _ => zero) threads n acts v v' ret); [intros a b i _; reflexivity|exact Ht|]. unfold ParallelAssign. rewrite Z.eqb_refl. exact H.
Qed.
Print Assumptions pvo_set_zero.
(* all schedules that return give the same vector *)
Theorem pvo_schedule_free {E} (rhs : (Z -> E) -> Z -> E) t t' n acts acts' v w w' : elementwise rhs -> 0 < t -> 0 < t' ->
  ParallelAssign t n n rhs acts v = Some (w, true) -> ParallelAssign t' n n rhs acts' v = Some (w', true) -> forall i, w i = w' i.
Proof.
  intros L Ht Ht' H H' i. destruct (pvo_assign rhs t n acts v w true L Ht H) as [O [_ I]]. destruct (pvo_assign rhs t' n acts' v w' true L Ht' H') as [O' [_ I']].
  destruct (Z_le_gt_dec 0 i) as [L0|L0]; [destruct (Z_lt_ge_dec i n) as [L1|L1]|].
  - rewrite (I eq_refl i ltac:(split; assumption)), (I' eq_refl i ltac:(split; assumption)). reflexivity.
  - rewrite O, O' by (intros [? ?]; lia). reflexivity.
  - rewrite O, O' by (intros [? ?]; lia). reflexivity.
Qed.
Print Assumptions pvo_schedule_free.
(* sizes that differ are a failed CHECK *)
Theorem pvo_sizes {E} (rhs : (Z -> E) -> Z -> E) threads n m acts v : n <> m -> ParallelAssign threads n m rhs acts v = None.
Proof. intro H. unfold ParallelAssign. destruct (Z.eqb_spec n m); [contradiction|reflexivity]. Qed.
Print Assumptions pvo_sizes.
(* an expression that uses the element before: already the serial loop does not give the expression at
   the old vector *)
Theorem pvo_shift_refuted : exists (rhs : (Z -> Z) -> Z -> Z) v w, ParallelAssign 1 2 2 rhs [] v = Some (w, true) /\ inside 2 1 /\ w 1 <> rhs v 1.
Proof. exists (fun u i => u (i - 1)), (fun i => i). eexists. split; [vm_compute; reflexivity|]. split; [unfold inside; lia|]. vm_compute. discriminate. Qed.
Print Assumptions pvo_shift_refuted.

Example negate_elementwise : elementwise (fun (v : Z -> Z) i => - v i).
Proof. intros v v' i H. rewrite H. reflexivity. Qed.
Example negate_serial : exists w, ParallelAssign 3 5 5 (fun v i => - v i) [] (fun i => i + 1) = Some (w, true) /\ w 4 = -5 /\ w 5 = 6.
Proof. eexists. split; [vm_compute; reflexivity|]. split; vm_compute; reflexivity. Qed.
(* from 131072 elements on the parallel loop is used *)
Example long_parallel : parallel_for 0 131072 4 kMinBlockSizeParallelVectorOps = Parallel (mkCfg 0 131072 4 65536 segment) /\ num_blocks (mkCfg 0 131072 4 65536 segment) = 2.
Proof. split; vm_compute; reflexivity. Qed.
Example axpy_parallel acts w : ParallelAssign 4 131072 131072 (fun v i => v i + 3 * i) acts (fun i => i) = Some (w, true) -> w 100000 = 400000 /\ w 131072 = 131072.
Proof.
  intro H. destruct (pvo_assign (fun v i => v i + 3 * i) 4 131072 acts (fun i => i) w true) as [O [_ I]]; [intros v v' i E; rewrite E; reflexivity|lia|exact H|].
  split; [rewrite I; [reflexivity|reflexivity|unfold inside; lia]|rewrite O; [reflexivity|unfold inside; lia]].
Qed.
