(* C83: theorems. *)
From Coq Require Import List Arith Bool Lia Permutation.
From Verif Require Import GpuModel StbModel StbSpec StbProofs StbProofs2 StbProofs3.
Import ListNotations.
Open Scope nat_scope.

(* the buffer must have room for two values *)
Theorem stb_accepted pinned max_buffer_size n : CopyToGpu pinned max_buffer_size n = None <-> max_buffer_size < 2.
Proof. unfold CopyToGpu, kNumBatches. destruct (Nat.leb_spec 2 max_buffer_size); split; intros; try discriminate; try lia; reflexivity. Qed.
Print Assumptions stb_accepted.

(* In every execution, at every moment: the kernels saw only values of the array, each under its own
   index and none twice; if a kernel saw anything, the work that was in the default stream before is
   finished; if the call has returned, everything is finished and every value was seen exactly once;
   if it has not, something can happen. *)
Theorem stb_stream {A} (from : nat -> A) pinned max_buffer_size n prog s0 k s :
  CopyToGpu pinned max_buffer_size n = Some prog -> host s0 = prog -> ready s0 -> steps from k s0 s ->
  (forall p v, In (p, v) (seen (log s)) -> p < n /\ v = from p) /\
  NoDup (map fst (seen (log s))) /\
  (seen (log s) <> [] -> waiting s = []) /\
  (host s = [] -> idle s /\ Permutation (seen (log s)) (map (fun p => (p, from p)) (seq 0 n))) /\
  (host s <> [] -> exists s', step from s s').
Proof.
  intros CP H R ST. pose proof (inv_start from pinned max_buffer_size n prog s0 CP H R) as I0. destruct (inv_steps _ _ _ _ _ I0 _ _ ST) as [I _].
  assert (PM : exists r, Permutation (map fst (seen (log s)) ++ r) (seq 0 n)) by (destruct I as [[_ [_ [_ [_ [C5 _]]]]] _]; eexists; exact C5). destruct PM as [r PM].
  assert (VL : forall p v, In (p, v) (seen (log s)) -> v = from p) by (destruct I as [[_ [_ [_ [C4 _]]]] _]; exact C4).
  split; [|split; [|split; [|split]]].
  - intros p v X. split; [|auto]. assert (Y : In p (seq 0 n)) by (apply (Permutation_in p PM); apply in_app_iff; left; apply in_map_iff; exists (p, v); auto). apply in_seq in Y. lia.
  - assert (Y : NoDup (map fst (seen (log s)) ++ r)) by (apply (Permutation_NoDup (Permutation_sym PM)); apply seq_NoDup). clear PM. induction r as [|a r IH]; [now rewrite app_nil_r in Y|]. apply NoDup_remove_1 in Y. auto.
  - intros X. pose proof (not_early _ _ _ _ s I X) as E. unfold waiting. induction (queue s 0) as [|op q IH]; [reflexivity|]. cbn in E. apply orb_false_iff in E. destruct E as [E1 E2]. destruct op; try discriminate; apply (IH E2).
  - intros X. destruct (done _ _ _ _ s I X) as [D1 D2]. split; [auto|]. rewrite <- D2. rewrite map_map. replace (map (fun x => (fst x, from (fst x))) (seen (log s))) with (seen (log s)); [reflexivity|]. clear - VL. induction (seen (log s)) as [|[p v] l IH]; [reflexivity|]. cbn [map fst]. rewrite <- (VL p v (or_introl eq_refl)). f_equal. apply IH. intros p' v' I. apply VL. now right.
  - intros X. exact (stuck _ _ _ _ s I X).
Qed.
Print Assumptions stb_stream.

(* every execution ends, after a number of steps fixed by the state before the call *)
Theorem stb_ends {A} (from : nat -> A) pinned max_buffer_size n prog s0 :
  CopyToGpu pinned max_buffer_size n = Some prog -> host s0 = prog -> ready s0 -> exists bound, forall k s, steps from k s0 s -> k <= bound.
Proof. intros CP H R. exists (measure s0). intros k s ST. destruct (inv_steps _ _ _ _ _ (inv_start from pinned max_buffer_size n prog s0 CP H R) _ _ ST) as [_ M]. lia. Qed.
Print Assumptions stb_ends.

(* when a value is written to the staging memory, no transfer still has to read that place *)
Theorem stb_staging {A} (from : nat -> A) pinned max_buffer_size n prog s0 k s a p h :
  CopyToGpu pinned max_buffer_size n = Some prog -> host s0 = prog -> ready s0 -> steps from k s0 s ->
  host s = Put a p :: h -> forall b dst x l i, In (Copy dst (Pinned x) l) (queue s b) -> In i l -> x + i <> a.
Proof. intros CP H R ST. destruct (inv_steps _ _ _ _ _ (inv_start from pinned max_buffer_size n prog s0 CP H R) _ _ ST) as [I _]. apply (staging_free _ _ _ _ _ _ _ _ I). Qed.
Print Assumptions stb_staging.

(* only max_buffer_size values of each buffer are written, and nothing depends on what follows the n
   values of the array: the execution is also one for any other array with the same n values *)
Theorem stb_inside {A} (from from' : nat -> A) pinned max_buffer_size n prog s0 k s :
  CopyToGpu pinned max_buffer_size n = Some prog -> host s0 = prog -> ready s0 -> steps from k s0 s -> (forall p, p < n -> from p = from' p) ->
  (forall i, max_buffer_size <= i -> gpu s i = gpu s0 i /\ staging s i = staging s0 i) /\ steps from' k s0 s.
Proof.
  intros CP H R ST AG. assert (I0 : Inside max_buffer_size n s0) by (split; [rewrite H; exact (inside_prog pinned max_buffer_size n prog CP)|]; intros b op I; destruct R as [R1 [R2 _]]; destruct b as [|b]; [destruct (R1 op I) as [j ->]; exact Logic.I|rewrite (R2 (S b)) in I by lia; destruct I]).
  clear H R. enough (X : Inside max_buffer_size n s /\ (forall i, max_buffer_size <= i -> gpu s i = gpu s0 i /\ staging s i = staging s0 i) /\ steps from' k s0 s) by tauto.
  induction ST as [s|k s s' s'' ST IH H]; [split; [auto|]; split; [auto|constructor]|]. destruct (IH I0) as [J1 [J2 J3]]. destruct (inside_step from' max_buffer_size n from s' s'' J1 H AG) as [L1 [L2 L3]]. split; [auto|]. split; [|econstructor; eauto].
  intros i B. destruct (J2 i B), (L2 i B). split; congruence.
Qed.
Print Assumptions stb_inside.

(* a batch has at most half as many values as the buffer *)
Theorem stb_batch pinned max_buffer_size n prog b a o l : CopyToGpu pinned max_buffer_size n = Some prog -> In (Enqueue b (Kernel a o l)) prog -> 2 * length l <= max_buffer_size.
Proof.
  unfold CopyToGpu. destruct (Nat.leb_spec kNumBatches max_buffer_size) as [M|M]; [|discriminate]. cbv zeta. intros E I. apply some_eq in E. subst prog. destruct I as [I|I]; [discriminate|]. apply in_app_iff in I. destruct I as [I|I]; [|apply in_map_iff in I; destruct I as [j [X _]]; discriminate].
  apply in_loop in I; [|unfold kNumBatches; lia]. destruct I as [c [x [m [_ [C2 C3]]]]]. pose proof (batches_sizes _ _ _ _ _ _ C2) as S1. destruct (half max_buffer_size M) as [_ KM]. apply in_batch in C3. destruct C3 as [C3|[[i [_ C3]]|[C3|[C3|C3]]]]; try discriminate. assert (E : l = seq 0 m) by congruence. rewrite E, seq_length. unfold kNumBatches in *. lia.
Qed.
Print Assumptions stb_batch.

(* after the call the buffer is ready for the next one, also if more work is put into the default
   stream before it *)
Theorem stb_again {A} (from : nat -> A) pinned max_buffer_size n prog s0 k s earlier prog' :
  CopyToGpu pinned max_buffer_size n = Some prog -> host s0 = prog -> ready s0 -> steps from k s0 s -> host s = [] ->
  ready (mkState prog' (set (queue s) 0 (map Earlier earlier)) (gpu s) (staging s) (recorded s) (finished s) []).
Proof.
  intros CP H R ST HS. destruct (stb_stream from pinned max_buffer_size n prog s0 k s CP H R ST) as [_ [_ [_ [X _]]]]. destruct (X HS) as [[I1 I2] _]. split; [|split; [|split; [exact I2|reflexivity]]]; cbn [queue].
  - intros op I. rewrite set_same in I. apply in_map_iff in I. destruct I as [j [<- _]]. eauto.
  - intros i B. rewrite set_other by lia. apply I1.
Qed.
Print Assumptions stb_again.

(* three values in pageable memory, a buffer for two; the default stream still has work 7 *)
Definition ex_from (p : nat) : nat := 10 + p.
Definition ex_start (prog : list Instr) : State nat := mkState prog (set (fun _ => []) 0 [Earlier 7]) (fun _ => 0) (fun _ => 0) (fun _ => 0) (fun _ => 0) [].
Example ex_prog : CopyToGpu true 2 3 = Some
  [Sync 0;
   Wait 0; Put 0 0; Enqueue 0 (Copy 0 (Pinned 0) [0]); Enqueue 0 (Record 0); Enqueue 0 (Kernel 0 0 [0]);
   Wait 1; Put 1 1; Enqueue 1 (Copy 1 (Pinned 1) [0]); Enqueue 1 (Record 1); Enqueue 1 (Kernel 1 1 [0]);
   Wait 0; Put 0 2; Enqueue 0 (Copy 0 (Pinned 0) [0]); Enqueue 0 (Record 0); Enqueue 0 (Kernel 0 2 [0]);
   Sync 0; Sync 1].
Proof. reflexivity. Qed.
Example ex_ready prog : ready (ex_start prog).
Proof.
  split; [|split; [|split; reflexivity]]; cbn [queue ex_start]; unfold set.
  - intros op [<-|[]]. eauto.
  - intros i B. destruct (Nat.eqb_spec i 0); [lia|reflexivity].
Qed.
(* the first steps: the earlier work runs, the host waits for it, stages a value and enqueues its
   transfer *)
Example ex_run prog h : prog = Sync 0 :: Wait 0 :: Put 0 0 :: Enqueue 0 (Copy 0 (Pinned 0) [0]) :: h -> exists s, steps ex_from 5 (ex_start prog) s /\ host s = h /\ log s = [Ran 7] /\ queue s 0 = [Copy 0 (Pinned 0) [0]] /\ staging s 0 = 10.
Proof.
  intros ->. eexists. split; [|split; [|split; [|split]]].
  - eapply steps_S; [eapply steps_S; [eapply steps_S; [eapply steps_S; [eapply steps_S; [apply steps_0|]|]|]|]|].
    + apply (dev_earlier _ 0 7 []). reflexivity.
    + apply host_sync. reflexivity.
    + apply host_wait. reflexivity.
    + apply host_put.
    + apply host_enqueue.
  - reflexivity.
  - reflexivity.
  - reflexivity.
  - reflexivity.
Qed.
(* page-locked host memory: no staging *)
Example ex_user : CopyToGpu false 5 3 = Some
  [Sync 0;
   Enqueue 0 (Copy 0 (User 0) [0; 1]); Enqueue 0 (Kernel 0 0 [0; 1]);
   Enqueue 1 (Copy 2 (User 2) [0]); Enqueue 1 (Kernel 2 2 [0]);
   Sync 0; Sync 1].
Proof. reflexivity. Qed.
