(* C42: program evaluation does not depend on the thread schedule. *)

From Coq Require Import List Arith Bool Reals Permutation Lia Lra.
From Verif Require Import EvaluatorModel EvaluatorSpec EvaluatorProofs.
Import ListNotations.
Local Open Scope R_scope.

(* true is returned exactly if every residual block can be evaluated, whatever
   the schedule; on failure cost and gradient are not touched *)
Theorem evaluate_succeeds_iff rq bs np threads thread sched old :
  valid_schedule (length bs) sched ->
  (forall i, (i < length bs)%nat -> (thread i < threads)%nat) ->
  (fst (evaluate rq bs np threads thread sched old) = true <-> all_succeed bs).
Proof. apply evaluate_status. Qed.
Print Assumptions evaluate_succeeds_iff.

Theorem evaluate_failure_frame rq bs np threads thread sched old :
  fst (evaluate rq bs np threads thread sched old) = false ->
  o_cost (snd (evaluate rq bs np threads thread sched old)) = o_cost old /\
  o_gradient (snd (evaluate rq bs np threads thread sched old)) = o_gradient old.
Proof.
  unfold evaluate. destruct (sh_abort _); cbn; [auto|discriminate].
Qed.
Print Assumptions evaluate_failure_frame.

Lemma unfold_success rq bs np threads thread sched old :
  all_succeed bs -> valid_schedule (length bs) sched ->
  (forall i, (i < length bs)%nat -> (thread i < threads)%nat) ->
  exists s, done rq bs old threads (runs sched) s /\
    evaluate rq bs np threads thread sched old =
      (true, mkout (sumn threads (sh_cost s)) (sh_residuals s)
        (if rq_gradient rq
         then fun c => if (c <? np)%nat then sum_threads threads (fun t => sh_gradient s t c)
                       else o_gradient old c
         else o_gradient old) (sh_jacobian s)).
Proof.
  intros AS VS HT. destruct (valid_done rq bs old threads thread sched AS VS HT) as [D _].
  exists (run_all rq bs thread sched (start rq bs old)). split; [exact D|].
  unfold evaluate. fold (start rq bs old). fold (run_all rq bs thread sched (start rq bs old)).
  rewrite (d_abort _ _ _ _ _ _ D). rewrite sum_threads_eq. reflexivity.
Qed.

(* the cost, residuals, jacobian and gradient *)
Theorem evaluate_values rq bs np threads thread sched old out :
  all_succeed bs -> valid_schedule (length bs) sched ->
  (forall i, (i < length bs)%nat -> (thread i < threads)%nat) ->
  Forall (fun b => columns_apart (bl_params b)) bs ->
  evaluate rq bs np threads thread sched old = (true, out) ->
  o_cost out = fold_right Rplus 0 (map cost_of bs) /\
  (rq_residuals rq = true -> forall i b k, nth_error bs i = Some b -> (k < bl_num b)%nat ->
     o_residuals out (rows_before bs i + k)%nat = residual_of b k) /\
  (rq_jacobian rq = true -> forall i b k c, nth_error bs i = Some b -> (k < bl_num b)%nat ->
     full_jacobian b k c (o_jacobian out (rows_before bs i + k)%nat c)) /\
  (rq_residuals rq = false -> o_residuals out = o_residuals old) /\
  (rq_residuals rq = true -> forall k, (num_residuals bs <= k)%nat ->
     o_residuals out k = o_residuals old k) /\
  (rq_gradient rq = false -> o_gradient out = o_gradient old).
Proof.
  intros AS VS HT CA E.
  destruct (unfold_success rq bs np threads thread sched old AS VS HT) as (s & D & E').
  rewrite E' in E. injection E as <-.
  cbn [o_cost o_residuals o_gradient o_jacobian].
  assert (PR : Permutation (runs sched) (seq 0 (length bs))) by apply VS.
  assert (ALL : forall i b, nth_error bs i = Some b -> In i (runs sched)).
  { intros i b Hb. apply (Permutation_in _ (Permutation_sym PR)). apply in_seq.
    assert (i < length bs)%nat by (apply nth_error_Some; congruence). lia. }
  assert (RG : forall i b k, (k < bl_num b)%nat ->
     in_range (rows_before bs i) (bl_num b) (rows_before bs i + k) = true).
  { intros. apply in_range_iff. lia. }
  assert (SUB : forall i k, (rows_before bs i + k - rows_before bs i)%nat = k) by (intros; lia).
  split; [|split; [|split; [|split; [|split]]]].
  - rewrite (d_cost _ _ _ _ _ _ D), (suml_perm _ _ _ PR).
    clear. induction bs as [|b bs IH] using rev_ind; [reflexivity|].
    rewrite app_length, Nat.add_1_r, seq_S, suml_app. cbn [suml Nat.add].
    rewrite map_app, fold_right_app. cbn [map fold_right].
    assert (G : forall l x, fold_right Rplus x l = fold_right Rplus 0 l + x).
    { induction l as [|y l IHl]; intros x; cbn; [lra|]. rewrite IHl. lra. }
    rewrite G, <- IH. f_equal.
    + apply suml_ext. intros i I. apply in_seq in I. unfold blk.
      now rewrite app_nth1 by lia.
    + unfold blk. rewrite app_nth2, Nat.sub_diag by lia. cbn. lra.
  - intros RQ i b k Hb Hk.
    rewrite (d_res_in _ _ _ _ _ _ D RQ i b _ (ALL i b Hb) Hb (RG i b k Hk)).
    now rewrite SUB.
  - intros RQ i b k c Hb Hk.
    rewrite (d_jac_in _ _ _ _ _ _ D RQ i b _ c (ALL i b Hb) Hb (RG i b k Hk)).
    rewrite SUB.
    assert (CB : columns_apart (bl_params b)).
    { rewrite Forall_forall in CA. apply CA. eapply nth_error_In; eauto. }
    unfold full_jacobian.
    destruct (col_cases (bl_params b) (jacobian_of b) k c 0 CB)
      as [(j & p & N & C & I & _ & F)|(N & _ & F)]; rewrite F; [left|right; auto].
    exists j, p. auto.
  - intros RQ. pose proof (fun k => d_res_out _ _ _ _ _ _ D k) as H.
    assert (EXT : sh_residuals s = o_residuals old).
    { clear - D RQ E' H AS VS HT.
      (* the array is not written: same function, step by step *)
      destruct (valid_done rq bs old threads thread sched AS VS HT) as [D2 _].
      pose proof E' as E2. unfold evaluate in E2.
      fold (start rq bs old) in E2. fold (run_all rq bs thread sched (start rq bs old)) in E2.
      rewrite (d_abort _ _ _ _ _ _ D2) in E2. injection E2 as _ E3 _ _.
      rewrite <- E3. clear - RQ. unfold run_all.
      assert (G : forall sched s, sh_residuals (fold_left
          (fun s e => do_step rq bs (residual_layout 0 bs) thread e s) sched s) = sh_residuals s).
      { induction sched0 as [|e sc IH]; intros s; cbn [fold_left]; [auto|].
        rewrite IH. destruct e as [i|i]; cbn; [auto|]. destruct (sh_skip s i); [auto|].
        destruct (nth_error bs i) as [b|]; [|auto]. destruct (nth_error _ i); [|auto].
        destruct (bl_eval b) as [[[? ?] ?]|]; cbn; [now rewrite RQ|auto]. }
      rewrite G. unfold start. cbn. now rewrite RQ. }
    exact EXT.
  - intros RQ k Hk. rewrite (d_res_out _ _ _ _ _ _ D).
    + unfold start. cbn [sh_residuals]. rewrite RQ.
      destruct (Nat.ltb_spec k (num_residuals bs)); [lia|reflexivity].
    + intros _ i b _ Hb. apply not_true_is_false. intros R. apply in_range_iff in R.
      pose proof (rows_total bs i b Hb). lia.
  - intros RQ. now rewrite RQ.
Qed.
Print Assumptions evaluate_values.

(* the gradient is J^T r *)
Theorem evaluate_gradient bs np threads thread sched old out c :
  all_succeed bs -> valid_schedule (length bs) sched ->
  (forall i, (i < length bs)%nat -> (thread i < threads)%nat) ->
  Forall (fun b => columns_apart (bl_params b)) bs ->
  evaluate everything bs np threads thread sched old = (true, out) -> (c < np)%nat ->
  o_gradient out c =
    sumn (num_residuals bs) (fun row => o_jacobian out row c * o_residuals out row).
Proof.
  intros AS VS HT CA E Hc.
  destruct (unfold_success everything bs np threads thread sched old AS VS HT) as (s & D & E').
  rewrite E' in E. injection E as <-.
  cbn [o_residuals o_gradient o_jacobian rq_gradient everything].
  assert (PR : Permutation (runs sched) (seq 0 (length bs))) by apply VS.
  replace (c <? np)%nat with true by (symmetry; apply Nat.ltb_lt; lia).
  rewrite sum_threads_eq, (d_grad _ _ _ _ _ _ D eq_refl c), (suml_perm _ _ _ PR), suml_seq.
  rewrite sum_rows. apply sumn_ext. intros i Hi. unfold grad_of. apply sumn_ext. intros k Hk.
  destruct (nth_error bs i) as [b|] eqn:Hb; [|apply nth_error_None in Hb; lia].
  assert (BK : blk bs i = b) by (unfold blk; erewrite nth_error_nth; eauto).
  rewrite BK in *.
  assert (II : In i (runs sched)).
  { apply (Permutation_in _ (Permutation_sym PR)). apply in_seq. lia. }
  assert (RG : in_range (rows_before bs i) (bl_num b) (rows_before bs i + k) = true)
    by (apply in_range_iff; lia).
  rewrite (d_res_in _ _ _ _ _ _ D eq_refl i b _ II Hb RG).
  rewrite (d_jac_in _ _ _ _ _ _ D eq_refl i b _ c II Hb RG).
  replace (rows_before bs i + k - rows_before bs i)%nat with k by lia.
  f_equal.
  assert (CB : columns_apart (bl_params b)).
  { rewrite Forall_forall in CA. apply CA. eapply nth_error_In; eauto. }
  destruct (col_cases (bl_params b) (jacobian_of b) k c 0 CB)
    as [(j & p & _ & _ & _ & F1 & F2)|(_ & F1 & F2)]; now rewrite F1, F2.
Qed.
Print Assumptions evaluate_gradient.

(* two executions, with any numbers of threads and any interleavings, agree *)
Theorem evaluate_schedule_independent rq bs np old
    threads1 thread1 sched1 threads2 thread2 sched2 :
  valid_schedule (length bs) sched1 -> valid_schedule (length bs) sched2 ->
  (forall i, (i < length bs)%nat -> (thread1 i < threads1)%nat) ->
  (forall i, (i < length bs)%nat -> (thread2 i < threads2)%nat) ->
  fst (evaluate rq bs np threads1 thread1 sched1 old) =
  fst (evaluate rq bs np threads2 thread2 sched2 old) /\
  (fst (evaluate rq bs np threads1 thread1 sched1 old) = true ->
   let o1 := snd (evaluate rq bs np threads1 thread1 sched1 old) in
   let o2 := snd (evaluate rq bs np threads2 thread2 sched2 old) in
   o_cost o1 = o_cost o2 /\
   (forall k, o_residuals o1 k = o_residuals o2 k) /\
   (forall c, o_gradient o1 c = o_gradient o2 c) /\
   (forall k c, o_jacobian o1 k c = o_jacobian o2 k c)).
Proof.
  intros V1 V2 T1 T2.
  pose proof (evaluate_status rq bs np threads1 thread1 sched1 old V1 T1) as S1.
  pose proof (evaluate_status rq bs np threads2 thread2 sched2 old V2 T2) as S2.
  split.
  { destruct (fst (evaluate rq bs np threads1 thread1 sched1 old)),
      (fst (evaluate rq bs np threads2 thread2 sched2 old)); try reflexivity.
    - symmetry. apply S2, S1. reflexivity.
    - apply S1, S2. reflexivity. }
  intros OK. apply S1 in OK.
  destruct (unfold_success rq bs np threads1 thread1 sched1 old OK V1 T1) as (s1 & D1 & E1).
  destruct (unfold_success rq bs np threads2 thread2 sched2 old OK V2 T2) as (s2 & D2 & E2).
  rewrite E1, E2. cbn [snd o_cost o_residuals o_gradient o_jacobian].
  assert (P1 : Permutation (runs sched1) (seq 0 (length bs))) by apply V1.
  assert (P2 : Permutation (runs sched2) (seq 0 (length bs))) by apply V2.
  assert (P12 : Permutation (runs sched1) (runs sched2))
    by (eapply Permutation_trans; [exact P1|symmetry; exact P2]).
  assert (OWN : forall k, (exists i b, nth_error bs i = Some b /\
             in_range (rows_before bs i) (bl_num b) k = true) \/
          (forall i b, nth_error bs i = Some b ->
             in_range (rows_before bs i) (bl_num b) k = false)).
  { intros k.
    destruct (existsb (fun i => in_range (rows_before bs i) (bl_num (blk bs i)) k)
                (seq 0 (length bs))) eqn:X.
    - left. apply existsb_exists in X as (i & I & R). apply in_seq in I.
      destruct (nth_error bs i) as [b|] eqn:Hb; [|apply nth_error_None in Hb; lia].
      exists i, b. split; [auto|]. unfold blk in R. erewrite nth_error_nth in R; eauto.
    - right. intros i b Hb. apply not_true_is_false. intros R.
      assert (Y : existsb (fun i => in_range (rows_before bs i) (bl_num (blk bs i)) k)
                (seq 0 (length bs)) = true); [|congruence].
      apply existsb_exists. exists i. split.
      + apply in_seq. assert (i < length bs)%nat by (apply nth_error_Some; congruence). lia.
      + unfold blk. erewrite nth_error_nth; eauto. }
  assert (IN : forall i b, nth_error bs i = Some b -> In i (runs sched1) /\ In i (runs sched2)).
  { intros i b Hb. assert (I : In i (seq 0 (length bs))).
    { apply in_seq. assert (i < length bs)%nat by (apply nth_error_Some; congruence). lia. }
    split; [apply (Permutation_in _ (Permutation_sym P1))
           |apply (Permutation_in _ (Permutation_sym P2))]; exact I. }
  split; [|split; [|split]].
  - rewrite (d_cost _ _ _ _ _ _ D1), (d_cost _ _ _ _ _ _ D2). now apply suml_perm.
  - intros k. destruct (rq_residuals rq) eqn:RQ.
    + destruct (OWN k) as [(i & b & Hb & R)|N].
      * destruct (IN i b Hb) as [I1 I2].
        rewrite (d_res_in _ _ _ _ _ _ D1 RQ i b k I1 Hb R).
        now rewrite (d_res_in _ _ _ _ _ _ D2 RQ i b k I2 Hb R).
      * rewrite (d_res_out _ _ _ _ _ _ D1), (d_res_out _ _ _ _ _ _ D2); eauto.
    + rewrite (d_res_out _ _ _ _ _ _ D1), (d_res_out _ _ _ _ _ _ D2); congruence.
  - intros c. destruct (rq_gradient rq) eqn:RQ; [|reflexivity].
    destruct (c <? np)%nat; [|reflexivity]. rewrite !sum_threads_eq.
    rewrite (d_grad _ _ _ _ _ _ D1 RQ), (d_grad _ _ _ _ _ _ D2 RQ). now apply suml_perm.
  - intros k c. destruct (rq_jacobian rq) eqn:RQ.
    + destruct (OWN k) as [(i & b & Hb & R)|N].
      * destruct (IN i b Hb) as [I1 I2].
        rewrite (d_jac_in _ _ _ _ _ _ D1 RQ i b k c I1 Hb R).
        now rewrite (d_jac_in _ _ _ _ _ _ D2 RQ i b k c I2 Hb R).
      * rewrite (d_jac_out _ _ _ _ _ _ D1), (d_jac_out _ _ _ _ _ _ D2); eauto.
    + rewrite (d_jac_out _ _ _ _ _ _ D1), (d_jac_out _ _ _ _ _ _ D2); congruence.
Qed.
Print Assumptions evaluate_schedule_independent.

(* ------------------------------------------------------------------ *)
(* two residual blocks sharing a parameter block, two threads              *)

Definition ex_p0 := mkpref false 1 0.
Definition ex_p1 := mkpref false 2 1.
Definition ex_pc := mkpref true 1 0.
Definition ex_b0 := mkblock 2 [ex_p0; ex_pc]
  (Some (5, fun k => INR k + 1, fun j r c => INR (10 * j + r) + 1)).
Definition ex_b1 := mkblock 1 [ex_p1; ex_p0] (Some (7, fun _ => 3, fun j r c => INR (j + c) + 1)).
Definition ex_blocks := [ex_b0; ex_b1].
Definition ex_sched := [Check 1; Check 0; Run 1; Run 0].
Definition ex_old := mkout 0 (fun _ => 99) (fun _ => 99) (fun _ _ => 99).

Example ex_valid : all_succeed ex_blocks /\ valid_schedule 2 ex_sched /\
  Forall (fun b => columns_apart (bl_params b)) ex_blocks.
Proof.
  split; [repeat constructor; discriminate|]. split.
  - split; [apply perm_swap|]. split; [apply perm_swap|].
    intros l1 i l2 E. unfold ex_sched in E.
    repeat (destruct l1 as [|? l1]; cbn [app] in E; try discriminate E;
            injection E; intros; subst; cbn; auto).
    all: try (destruct l1; discriminate).
  - repeat constructor.
    + intros [|[|[|?]]] [|[|[|?]]] p q c A B C D E F; cbn in *; try discriminate; auto;
        injection A as <-; injection B as <-; cbn in *; congruence.
    + intros [|[|[|?]]] [|[|[|?]]] p q c A B C D E F; cbn in *; try discriminate; auto;
        injection A as <-; injection B as <-; apply in_range_iff in E, F; cbn in *; lia.
Qed.

Example ex_run :
  let out := snd (evaluate everything ex_blocks 3 2 (fun i => i) ex_sched ex_old) in
  fst (evaluate everything ex_blocks 3 2 (fun i => i) ex_sched ex_old) = true /\
  o_cost out = 12 /\ o_residuals out 1%nat = 2 /\ o_residuals out 2%nat = 3 /\
  o_gradient out 0%nat = 11 /\ o_jacobian out 2%nat 2%nat = 2.
Proof. cbn. repeat split; lra. Qed.

(* a block that cannot be evaluated: false under both orders of its two steps
   and those of the other block, cost left alone *)
Definition ex_bad := [ex_b0; mkblock 1 [ex_p1] None].

Example ex_fail :
  Forall (fun sched => fst (evaluate everything ex_bad 3 2 (fun i => i) sched ex_old) = false /\
            o_cost (snd (evaluate everything ex_bad 3 2 (fun i => i) sched ex_old)) = 0)
    [[Check 0; Run 0; Check 1; Run 1]; [Check 1; Run 1; Check 0; Run 0]; ex_sched].
Proof. repeat constructor. Qed.
