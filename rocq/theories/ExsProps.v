(* Theorems for C87: execution statistics. *)
From Coq Require Import List Arith ZArith Bool Lia.
From Verif Require Import ExsModel ExsSpec ExsProofs.
Import ListNotations.
Open Scope Z_scope.

(* when all threads are done, whatever the schedule: number of scopes and sum of durations per name, and
   no entry for other names *)
Theorem exs_statistics work schedule n : finished (run schedule (start work)) ->
  statistics (run schedule (start work)) n = if all_count n work =? 0 then None else Some (all_duration n work, all_count n work).
Proof. intro F. exact (inv_end _ _ _ n (run_inv _ _ schedule _ (inv_start work)) F). Qed.
Print Assumptions exs_statistics.

(* two schedules end with the same statistics *)
Theorem exs_schedule_free work l l' n : finished (run l (start work)) -> finished (run l' (start work)) ->
  statistics (run l (start work)) n = statistics (run l' (start work)) n.
Proof. intros H H'. rewrite !exs_statistics by assumption. reflexivity. Qed.
Print Assumptions exs_schedule_free.

Lemma run_app l l' s : run (l ++ l') s = run l' (run l s).
Proof. revert s. induction l as [|i l IH]; intro s; [reflexivity|]. cbn [app run]. apply IH. Qed.
(* no schedule gets stuck: from wherever it led, all threads can finish, and while they have not some
   thread can move *)
Theorem exs_progress work schedule : ~ finished (run schedule (start work)) -> exists i s', step i (run schedule (start work)) = Some s'.
Proof. apply (progress _ _ _ (run_inv _ _ schedule _ (inv_start work))). Qed.
Theorem exs_finishes work schedule : exists more, finished (run (schedule ++ more) (start work)).
Proof.
  assert (forall k s, (steps_left s <= k)%nat -> inv (fun n => all_duration n work) (fun n => all_count n work) s -> exists more, finished (run more s)) as K.
  { induction k as [|k IH]; intros s L Iv;
      (assert ({finished s} + {~ finished s}) as [Fi|Fi] by (apply Forall_dec; intro t; destruct (ops t); [|right; intros [? _]; discriminate]; destruct (pc t); try (right; intros [_ ?]; discriminate); left; split; reflexivity));
      try (exists []; exact Fi); destruct (progress _ _ s Iv Fi) as [i [s' E]]; pose proof (step_less i s s' E) as Ls; [lia|].
    destruct (IH s' ltac:(lia) (step_inv _ _ i s s' Iv E)) as [more Hm]. exists (i :: more). cbn [run]. rewrite E. exact Hm. }
  destruct (K _ (run schedule (start work)) (le_n _) (run_inv _ _ schedule _ (inv_start work))) as [more Hm]. exists more. rewrite run_app. exact Hm.
Qed.
Print Assumptions exs_progress.
Print Assumptions exs_finishes.
(* and no schedule moves for ever: at most eight steps per constructor or destructor *)
Fixpoint moves (schedule : list nat) (s : State) : nat :=
  match schedule with [] => 0 | i :: r => match step i s with Some s' => S (moves r s') | None => moves r s end end.
Theorem exs_bounded work schedule : (moves schedule (start work) <= 8 * list_sum (map (fun l => length (flat_map code l)) work))%nat.
Proof.
  assert (forall l s, (moves l s <= steps_left s)%nat) as K.
  { induction l as [|i l IH]; intro s; [cbn; lia|]. cbn [moves]. destruct (step i s) as [s'|] eqn:E; [pose proof (step_less i s s' E); pose proof (IH s'); lia|apply IH]. }
  etransitivity; [apply K|]. unfold steps_left, start. cbn [threads]. rewrite map_map. cbn [pc ops left_pc]. clear K. induction work as [|l w IH]; [cbn; lia|]. unfold list_sum in *. cbn [map fold_right]. lia.
Qed.
Print Assumptions exs_bounded.

(* two threads: "Evaluator::Total" (0) with "Evaluator::Residual" (1) inside, and twice "Residual"; they
   take turns step by step *)
Definition sample_work : list (list Scope) := [[scope 0 10 30 [scope 1 12 17 []]]; [scope 1 11 13 []; scope 1 20 21 []]].
Fixpoint turns (k : nat) : list nat := match k with O => [] | S j => 0%nat :: 1%nat :: turns j end.
Example sample_finished : finished (run (turns 32) (start sample_work)).
Proof.
  assert (map (fun t => (ops t, pc t)) (threads (run (turns 32) (start sample_work))) = [([], Outside); ([], Outside)]) as E by (vm_compute; reflexivity).
  unfold finished. destruct (threads _) as [|t [|u [|? ?]]]; try discriminate E. injection E as E1 E2 E3 E4. repeat constructor; assumption.
Qed.
Example sample_statistics : statistics (run (turns 32) (start sample_work)) 1%nat = Some (8, 3) /\ statistics (run (turns 32) (start sample_work)) 0%nat = Some (20, 1) /\ statistics (run (turns 32) (start sample_work)) 2%nat = None.
Proof. split; [|split]; rewrite (exs_statistics _ _ _ sample_finished); reflexivity. Qed.
Example sample_waits : step 0 (run [0; 0; 0; 1; 1; 1; 0]%nat (start sample_work)) = None /\ ~ finished (run [0; 0; 0; 1; 1; 1; 0]%nat (start sample_work)).
Proof. split; [vm_compute; reflexivity|]. intro H. apply Forall_inv in H. destruct H as [_ H]. vm_compute in H. discriminate H. Qed.
