(* C83: the initial state, the staging memory, addresses. *)
From Coq Require Import List Arith Bool Lia Permutation.
From Verif Require Import GpuModel GpuProofs4 StbModel StbSpec StbProofs StbProofs2.
Import ListNotations.
Open Scope nat_scope.

Lemma batches_sizes K n : forall fuel o, sizes K (batches fuel K o n).
Proof. unfold sizes. induction fuel as [|fuel IH]; intros o a k; cbn [batches]; [intros []|]. destruct (o <? n); [|intros []]. intros [E|E]; [injection E as _ <-; lia|eauto]. Qed.
Lemma batches_range K n : forall fuel o a k, In (a, k) (batches fuel K o n) -> a + k <= n.
Proof. induction fuel as [|fuel IH]; intros o a k; cbn [batches]; [intros []|]. destruct (Nat.ltb_spec o n) as [L|L]; [|intros []]. intros [E|E]; [injection E as <- <-; lia|eauto]. Qed.
Lemma seq_shift_map o : forall k i, map (fun j => o + j) (seq i k) = seq (o + i) k.
Proof. induction k as [|k IH]; intros i; cbn; [reflexivity|]. now rewrite IH, Nat.add_succ_r. Qed.
Lemma host_pend_app a b : host_pend (a ++ b) = host_pend a ++ host_pend b.
Proof. apply flat_map_app. Qed.
Lemma host_pend_none l : (forall i, In i l -> match i with Enqueue _ _ => False | _ => True end) -> host_pend l = [].
Proof. intros H. induction l as [|i l IH]; [reflexivity|]. cbn. pose proof (H i (or_introl eq_refl)) as X. destruct i; try (destruct X); apply IH; intros j J; apply H; now right. Qed.
Lemma host_pend_loop pinned K : forall L b, host_pend (Loop pinned K b L) = flat_map (fun x => seq (fst x) (snd x)) L.
Proof.
  induction L as [|[o k] L IH]; intros b; [reflexivity|]. cbn [Loop flat_map fst snd]. rewrite host_pend_app, IH. f_equal. unfold Batch. rewrite host_pend_app. rewrite host_pend_none.
  - destruct pinned; cbn [app host_pend flat_map pend_op]; rewrite app_nil_r, seq_shift_map, Nat.add_0_r; reflexivity.
  - intros i. destruct pinned; [|intros []]. intros [<-|I]; [exact Logic.I|]. apply in_map_iff in I. destruct I as [j [<- _]]. exact Logic.I.
Qed.
(* what the loop issues *)
Lemma in_loop pinned K x : forall L b, b < kNumBatches -> In x (Loop pinned K b L) -> exists c o k, c < kNumBatches /\ In (o, k) L /\ In x (Batch pinned K c (o, k)).
Proof.
  induction L as [|[o k] L IH]; intros b B I; [destruct I|]. cbn [Loop] in I. apply in_app_iff in I. destruct I as [I|I].
  - exists b, o, k. split; [auto|]. split; [now left|auto].
  - destruct (IH ((b + 1) mod kNumBatches) (Nat.mod_upper_bound (b + 1) kNumBatches (Nat.neq_succ_0 1)) I) as [c [o' [k' [H1 [H2 H3]]]]]. exists c, o', k'. split; [auto|]. split; [now right|auto].
Qed.
Lemma in_batch pinned K c o k x : In x (Batch pinned K c (o, k)) -> x = Wait c \/ (exists i, i < k /\ x = Put (K * c + i) (o + i)) \/ x = Enqueue c (Copy (K * c) (if pinned then Pinned (K * c) else User o) (seq 0 k)) \/ x = Enqueue c (Record c) \/ x = Enqueue c (Kernel (K * c) o (seq 0 k)).
Proof.
  unfold Batch. intros I. apply in_app_iff in I. destruct I as [I|[I|I]]; [|auto|].
  - destruct pinned; [|destruct I]. destruct I as [I|I]; [auto|]. apply in_map_iff in I. destruct I as [i [<- J]]. apply in_seq in J. right. left. exists i. split; [lia|reflexivity].
  - apply in_app_iff in I. destruct I as [I|[I|[]]]; [|auto 6]. destruct pinned; [|destruct I]. destruct I as [I|[]]. auto 6.
Qed.

Lemma apart K c b i j : c <> b -> i < K -> j < K -> K * c + i <> K * b + j. Proof. nia. Qed.
Lemma within K c i mb : c < kNumBatches -> i < K -> K * kNumBatches <= mb -> K * c + i < mb. Proof. unfold kNumBatches. nia. Qed.
Lemma some_eq {T} (x y : T) : Some x = Some y -> x = y. Proof. congruence. Qed.

Section Start.
Context {A : Type}.
Variables (from : nat -> A) (pinned : bool) (mb n : nat).
Notation K := (mb / kNumBatches).
Notation inv := (Inv from K n pinned).
Lemma half : kNumBatches <= mb -> 0 < K /\ K * kNumBatches <= mb.
Proof. intros H. split; [apply Nat.div_str_pos; unfold kNumBatches in *; lia|]. rewrite Nat.mul_comm. apply Nat.mul_div_le. discriminate. Qed.
Lemma inv_start prog s : CopyToGpu pinned mb n = Some prog -> host s = prog -> ready s -> inv s.
Proof.
  intros CP H [R1 [R2 [R3 R4]]]. unfold CopyToGpu in CP. destruct (Nat.leb_spec kNumBatches mb) as [M|M]; [|discriminate]. cbv zeta in CP. apply some_eq in CP. subst prog. destruct (half M) as [KP _]. destruct s as [h q g m r f l]. cbn [host queue recorded finished log] in *. subst h l.
  assert (E : forall b op, In op (q b) -> exists k, op = Earlier k) by (intros [|b] op I; [auto|rewrite (R2 (S b) ltac:(lia)) in I; destruct I]).
  assert (EQ : forall b, forallb is_earlier (q b) = true) by (intros b; apply forallb_forall; intros op I; destruct (E b op I) as [k ->]; reflexivity).
  split; cbn [host queue gpu staging recorded finished log].
  - split; [|split; [|split; [|split; [|split]]]].
    + intros b B. split; [apply Forall_forall; intros op I; destruct (E b op I) as [k ->]; exact Logic.I|]. specialize (EQ b). generalize (slot K g b) as x. generalize dependent (q b). induction l as [|op l IH]; intros X x; [exact Logic.I|]. cbn in X. destruct op; try discriminate. apply (IH X).
    + intros b B. apply R2. unfold kNumBatches in B. lia.
    + intros b. rewrite R3. specialize (EQ b). replace (records (q b)) with 0; [lia|]. induction (q b) as [|op l IH]; [reflexivity|]. cbn in EQ. destruct op; try discriminate. apply (IH EQ).
    + intros p v [].
    + cbn [seen map app]. replace (pends q) with (@nil nat).
      * rewrite app_nil_l. change (host_pend (Sync 0 :: ?x)) with (host_pend x). rewrite host_pend_app, host_pend_loop, host_pend_none, app_nil_r; [|intros i [<-|[<-|[]]]; exact Logic.I].
        rewrite (batches_seq _ n KP n 0) by lia. now rewrite Nat.sub_0_r.
      * unfold pends. rewrite (flat_map_ext _ (fun _ => [])); [reflexivity|]. intros b. specialize (EQ b). induction (q b) as [|op l IH]; [reflexivity|]. cbn in EQ. destruct op; try discriminate. apply (IH EQ).
    + intros s op [X|I]; [discriminate|]. apply in_app_iff in I. destruct I as [I|I].
      * apply in_loop in I; [|unfold kNumBatches; lia]. destruct I as [c [o [k [C1 [_ C3]]]]]. apply in_batch in C3. destruct C3 as [C3|[[i [_ C3]]|[C3|[C3|C3]]]]; try discriminate; injection C3 as -> _; auto.
      * apply in_map_iff in I. destruct I as [j [X _]]. discriminate.
  - left. exists (batches n K 0 n). split; [reflexivity|]. split; [apply batches_sizes|]. split; [auto|]. split; [auto|reflexivity].
Qed.
Lemma inv_steps s0 : inv s0 -> forall k s, steps from k s0 s -> inv s /\ measure s + k <= measure s0.
Proof.
  intros I0 k s ST. induction ST as [s|k s s' s'' ST IH H]; [split; [auto|lia]|]. destruct (IH I0) as [I1 M1]. destruct (step_ok _ _ _ _ _ _ I1 H) as [I2 M2]. split; [auto|lia].
Qed.
(* the staging memory is not written where a transfer still reads *)
Lemma staging_free s a p h : inv s -> host s = Put a p :: h -> forall c dst x l i, In (Copy dst (Pinned x) l) (queue s c) -> In i l -> x + i <> a.
Proof.
  intros [[C1 [C2 _]] PH] H c dst x l i I J. destruct s as [hh q g m r f lg]. cbn [host queue gpu staging recorded finished log] in *. subst hh.
  assert (Cc : c < kNumBatches) by (destruct (lt_dec c kNumBatches); [auto|rewrite (C2 c ltac:(lia)) in I; destruct I]).
  destruct (C1 c Cc) as [B _]. unfold bounded in B. rewrite Forall_forall in B. specialize (B _ I). cbn in B. destruct B as [B1 [B2 B3]]. specialize (B3 i J). destruct B2 as [-> _].
  destruct PH as [[L [P1 _]]|[NE PH]]; [discriminate|]. destruct PH as [PH|[PH|[PH|[PH|PH]]]].
  - destruct PH as [b [o [k [L [P1 [P2 _]]]]]]. rewrite loop_cons in P2. unfold tl_copy in P2. destruct pinned; discriminate.
  - destruct PH as [b [o [k [j [L [P0 [P1 [P2 [P3 [P4 [P5 [P6 _]]]]]]]]]]]]. unfold puts in P4. destruct (lt_dec j k) as [Q|Q]; [|replace (k - j) with 0 in P4 by lia; discriminate]. replace (k - j) with (S (k - S j)) in P4 by lia. cbn [seq map app] in P4. injection P4 as -> -> _.
    destruct (Nat.eq_dec c b) as [->|N]; [|exact (apart K c b i j N B3 (Nat.lt_le_trans _ _ _ Q P3))]. exfalso. unfold no_copy in P6. assert (X : existsb is_copy (q b) = true) by (apply existsb_exists; eexists; split; [exact I|reflexivity]). congruence.
  - destruct PH as [b [o [k [L [P0 [P1 [P2 [P3 _]]]]]]]]. discriminate.
  - destruct PH as [b [o [k [L [P1 [P2 [P3 _]]]]]]]. discriminate.
  - destruct PH as [j [P1 [P2 P3]]]. unfold fin in P2. destruct (kNumBatches - j); discriminate.
Qed.

(* addresses *)
Definition src_in (src : Source) (i : nat) : Prop := match src with User o => o + i < n | Pinned a => a + i < mb end.
Definition op_in (op : Op) : Prop := match op with Copy dst src l => forall i, In i l -> dst + i < mb /\ src_in src i | Kernel a o l => forall i, In i l -> a + i < mb /\ o + i < n | _ => True end.
Definition instr_in (x : Instr) : Prop := match x with Put a p => a < mb /\ p < n | Enqueue _ op => op_in op | _ => True end.
Definition Inside (s : State A) : Prop := (forall x, In x (host s) -> instr_in x) /\ forall b op, In op (queue s b) -> op_in op.
Lemma inside_prog prog : CopyToGpu pinned mb n = Some prog -> forall x, In x prog -> instr_in x.
Proof.
  unfold CopyToGpu. destruct (Nat.leb_spec kNumBatches mb) as [M|M]; [|discriminate]. cbv zeta. intros E x I. apply some_eq in E. subst prog. destruct (half M) as [KP KM]. destruct I as [<-|I]; [exact Logic.I|]. apply in_app_iff in I. destruct I as [I|I]; [|apply in_map_iff in I; destruct I as [j [<- _]]; exact Logic.I].
  apply in_loop in I; [|unfold kNumBatches; lia]. destruct I as [c [o [k [C1 [C2 C3]]]]]. pose proof (batches_sizes _ _ _ _ _ _ C2) as S1. pose proof (batches_range _ _ _ _ _ _ C2) as S2. assert (AD : forall i, i < k -> K * c + i < mb) by (intros i J; apply (within K c i mb); auto; lia).
  apply in_batch in C3. destruct C3 as [->|[[i [J ->]]|[->|[-> | -> ]]]]; try exact Logic.I; cbn.
  - split; [auto|lia].
  - intros i J. apply in_seq in J. split; [apply AD; lia|]. destruct pinned; cbn; [apply AD; lia|lia].
  - intros i J. apply in_seq in J. split; [apply AD; lia|lia].
Qed.
Lemma inside_step from1 s s' : Inside s -> step from1 s s' -> (forall p, p < n -> from1 p = from p) ->
  Inside s' /\ (forall i, mb <= i -> gpu s' i = gpu s i /\ staging s' i = staging s i) /\ step from s s'.
Proof.
  intros [I1 I2] ST AG.
  assert (QS : forall (q : nat -> list Op) b y, (forall c op, In op (q c) -> op_in op) -> (forall op, In op y -> op_in op) -> forall c op, In op (set q b y c) -> op_in op) by (intros q b y X Y c op Z; unfold set in Z; destruct (c =? b); eauto).
  assert (TL : forall (q : nat -> list Op) b x ops, q b = x :: ops -> (forall c op, In op (q c) -> op_in op) -> op_in x /\ forall op, In op ops -> op_in op) by (intros q b x ops E X; split; [apply (X b); rewrite E; now left|intros op Z; apply (X b); rewrite E; now right]).
  inversion ST; subst; cbn [host queue gpu staging recorded finished log] in *.
  - split; [split; cbn; [intros x X; apply I1; now right|auto]|]. split; [auto|]. now apply host_sync.
  - split; [split; cbn; [intros x X; apply I1; now right|auto]|]. split; [auto|]. now apply host_wait.
  - destruct (I1 (Put a p) (or_introl eq_refl)) as [Q1 Q2]. split; [split; cbn; [intros x X; apply I1; now right|auto]|]. split; [intros i J; split; [reflexivity|]; rewrite set_other; [reflexivity|lia]|]. rewrite (AG p Q2). apply host_put.
  - split; [split; cbn; [intros x X; apply I1; now right|]|]. { apply QS; [auto|]. intros o X. apply in_app_iff in X. destruct X as [X|[<-|[]]]; [eauto|]. exact (I1 (Enqueue s0 op) (or_introl eq_refl)). } split; [auto|]. apply host_enqueue.
  - destruct (TL _ _ _ _ H I2) as [T1 T2]. split; [split; cbn; [auto|apply QS; auto]|]. split; [auto|]. now apply dev_earlier.
  - destruct (TL _ _ _ _ H I2) as [T1 T2]. cbn in T1. assert (T3 := T1 i (in_elt _ _ _)). destruct T3 as [T3 T4]. split; [split; cbn; [auto|apply QS; [auto|]]|].
    + intros o [<-|X]; [|auto]. cbn. intros j J. apply T1. apply in_app_iff in J. apply in_app_iff. cbn. tauto.
    + split; [intros j J; split; [|reflexivity]; rewrite set_other; [reflexivity|lia]|]. replace (value from1 m src i) with (value from m src i); [now apply dev_copy|]. destruct src; cbn in *; [symmetry; auto|reflexivity].
  - destruct (TL _ _ _ _ H I2) as [T1 T2]. split; [split; cbn; [auto|apply QS; auto]|]. split; [auto|]. eapply dev_copied; eauto.
  - destruct (TL _ _ _ _ H I2) as [T1 T2]. split; [split; cbn; [auto|apply QS; auto]|]. split; [auto|]. eapply dev_record; eauto.
  - destruct (TL _ _ _ _ H I2) as [T1 T2]. cbn in T1. split; [split; cbn; [auto|apply QS; [auto|]]|].
    + intros op [<-|X]; [|auto]. cbn. intros j J. apply T1. apply in_app_iff in J. apply in_app_iff. cbn. tauto.
    + split; [auto|]. now apply dev_kernel.
  - destruct (TL _ _ _ _ H I2) as [T1 T2]. split; [split; cbn; [auto|apply QS; auto]|]. split; [auto|]. eapply dev_done; eauto.
Qed.
End Start.
