Require Import ZArith List Lia Bool Permutation.
From Verif Require Import ParallelModel ParallelProofs.
Import ListNotations.
Open Scope Z_scope.

Section Call.
Variable c : cfg.
Hypothesis W : wf c.
Notation nb := (num_blocks c).
Notation PInv := (PInv c).

Lemma jobs_nonneg : forall s l, Forall (pc_ok c s) l -> 0 <= sumz jobs_of l.
Proof. intros s; induction l as [|x l IH]; intros F; simpl; [lia|]. inversion F; subst. specialize (IH H2). destruct x; simpl in *; lia. Qed.

(** Nothing left to run once all jobs are accounted for. *)
Lemma complete : forall s, PInv s -> fin s = nb ->
  Permutation (map snd (trace s)) (c_seg c (c_start c) (c_end c)) /\ nb <= nblk s /\
  forall t tid jobs todo, nth_error (thr s) t <> Some (PRun tid jobs todo).
Proof.
  intros s I F. pose proof (blocks_pos c W) as B. pose proof (v_fin c s I) as V. pose proof (jobs_nonneg s _ (v_pc c s I)) as J.
  assert (O : nb <= nblk s). { unfold out in V. lia. }
  assert (J0 : sumz jobs_of (thr s) = 0). { unfold out in V. lia. }
  assert (NR : forall p, In p (thr s) -> forall tid jobs todo, p <> PRun tid jobs todo).
  { pose proof (v_pc c s I) as P. clear - P J0. revert J0. induction (thr s) as [|x l IH]; intros J0 p Hp; [contradiction|].
    inversion P; subst. simpl in J0. pose proof (jobs_nonneg s l H2) as JL.
    assert (0 <= jobs_of x) by (destruct x; simpl in *; lia).
    destruct Hp as [->|Hp]; [|apply IH; auto; lia]. intros tid jobs todo E. subst p. simpl in *. lia. }
  split; [|split; auto].
  - pose proof (v_tr c s I) as P. unfold out in P. rewrite Z.min_r in P by lia. rewrite (curr_start_last c W) in P.
    assert (E : flat_map todo_of (thr s) = []).
    { clear - NR. induction (thr s) as [|x l IH]; simpl; auto. rewrite IH by (intros; apply NR; right; auto).
      rewrite app_nil_r. destruct x; simpl; auto. exfalso. eapply NR; [left; reflexivity|reflexivity]. }
    rewrite E, app_nil_r in P. exact P.
  - intros t tid jobs todo E. apply nth_error_In in E. eapply NR; eauto.
Qed.

(** After return nothing is ever called again. *)
Lemma no_more_calls : forall acts s s', PInv s -> cal s = CReturned -> exec c acts s = Some s' ->
  trace s' = trace s /\ cal s' = CReturned.
Proof.
  induction acts as [|a acts IH]; intros s s' I C E; simpl in E; [inversion E; subst; auto|].
  destruct (step c a s) as [s1|] eqn:H; [|discriminate].
  pose proof (inv_step c W a s s1 I H) as I1.
  assert (K : trace s1 = trace s /\ cal s1 = CReturned).
  { pose proof (v_cal c s I) as V. rewrite C in V. destruct (complete s I V) as [_ [_ NR]].
    destruct a as [t| | |]; simpl in H.
    - unfold thread_step in H. destruct (nth_error (thr s) t) as [[| | | |tid jobs [|i todo]|tid jobs|]|] eqn:T; try discriminate;
        try (exfalso; eapply NR; eauto; fail); inversion H; subst; rewrite set_thr_eq; simpl; auto.
      unfold finished. destruct (jobs =? 0); simpl; auto. rewrite C. destruct (fin s + jobs =? nb); auto.
    - unfold start_step in H. destruct (qd s); inversion H; subst; auto.
    - unfold caller_step in H. rewrite C in H. discriminate.
    - unfold spurious_step in H. rewrite C in H. discriminate. }
  destruct K as [K1 K2]. destruct (IH s1 s' I1 K2 E) as [L1 L2]. split; congruence.
Qed.

(** Progress without the pool: some step other than starting a queued task or
    a spurious wake-up is possible. *)
Lemma progress : forall s, PInv s -> cal s <> CReturned ->
  exists a s', step c a s = Some s' /\ match a with AThread _ | ACaller => True | _ => False end.
Proof.
  intros s I C. pose proof (blocks_pos c W) as B. destruct (thr s) as [|p0 l] eqn:T; [destruct (v_first c s I); congruence|].
  assert (TS : forall t p, nth_error (thr s) t = Some p -> (forall x, p <> PDone x) -> exists s', step c (AThread t) s = Some s').
  { intros t p Hp ND. simpl. unfold thread_step. rewrite Hp. destruct p as [| | | |tid jobs [|i todo]|tid jobs|tid]; eauto. exfalso; eapply ND; eauto. }
  assert (DD : (exists x, p0 = PDone x) \/ (forall x, p0 <> PDone x)) by (destruct p0; eauto; right; intros; discriminate).
  destruct DD as [[x ->]|ND].
  - destruct (cal s) eqn:CS.
    + exists ACaller. simpl. unfold caller_step. rewrite CS, T. simpl. eauto.
    + exists ACaller. simpl. unfold caller_step. rewrite CS. eauto.
    + pose proof (v_cal c s I) as V. rewrite CS in V. destruct V as [_ V].
      assert (X : x = 0). { eapply (v_ztid c s I x (PDone x)); [rewrite T|]; auto. }
      pose proof (v_pc c s I) as P. rewrite T in P. inversion P as [|? ? P1 P2]; subst. simpl in P1. destruct W as [W1 _ _ _]. specialize (P1 ltac:(lia)).
      pose proof (v_fin c s I) as F. unfold out in F. rewrite Z.min_r in F by lia.
      assert (J : sumz jobs_of (thr s) <> 0) by lia.
      assert (EX : forall l, sumz jobs_of l <> 0 -> exists t p, nth_error l t = Some p /\ jobs_of p <> 0).
      { clear. induction l as [|x l IH]; simpl; intros J; [congruence|]. destruct (Z.eq_dec (jobs_of x) 0) as [E|E].
        - destruct IH as [t [p [H1 H2]]]; [lia|]. exists (S t), p. auto.
        - exists 0%nat, x. auto. }
      destruct (EX _ J) as [t [p [H1 H2]]]. destruct (TS t p H1) as [s' Hs']; [intros y ->; simpl in H2; congruence|].
      exists (AThread t), s'. auto.
    + congruence.
  - destruct (TS 0%nat p0) as [s' Hs']; auto; [rewrite T; auto|]. exists (AThread 0), s'. auto.
Qed.

(** ** Termination measure *)
Definition wpc (p : pc) : Z :=
  match p with
  | PFetchId => 8
  | PTest t => 7 + (if t + 1 <? c_threads c then 10 else 0)
  | PAdd t => 6 + 10
  | PFetchBlock _ _ => 5
  | PRun _ _ l => 6 + Z.of_nat (length l)
  | PFinish _ _ => 4
  | PDone _ => 0
  end.
Definition wcal (x : caller) : Z := match x with CTask => 2 | CTest => 1 | _ => 0 end.
Definition left (s : st) : Z := Z.of_nat (length (c_seg c (curr_start c (out c s)) (c_end c))) + 2 * (nb - out c s).
Definition measure (s : st) : Z :=
  sumz wpc (thr s) + 9 * Z.of_nat (qd s) + 10 * Z.max 0 (c_threads c - 1 - nid s) + left s + wcal (cal s).

Lemma wpc_nonneg : forall l, 0 <= sumz wpc l.
Proof. induction l as [|x l IH]; simpl; [lia|]. assert (0 <= wpc x) by (unfold wpc; destruct x; try destruct (_ <? _); lia). lia. Qed.
Lemma measure_nonneg : forall s, PInv s -> 0 <= measure s.
Proof.
  intros s I. unfold measure, left. pose proof (wpc_nonneg (thr s)). pose proof (blocks_pos c W). unfold out.
  assert (0 <= wcal (cal s)) by (destruct (cal s); simpl; lia). lia.
Qed.

Lemma sum_upd : forall f l t q p, nth_error l t = Some q -> sumz f (upd l t p) = sumz f l - f q + f p.
Proof.
  intros f l t q p H. destruct (upd_split _ _ _ p H) as [l1 [l2 [E1 [E2 _]]]]. rewrite E2, E1, !sumz_app, !sumz_cons. lia.
Qed.

Lemma measure_step : forall a s s', PInv s -> step c a s = Some s' ->
  match a with ASpurious => measure s' <= measure s + 1 | _ => measure s' < measure s end.
Proof.
  intros a s s' I E. pose proof (blocks_pos c W) as B. destruct a as [t| | |]; simpl in E.
  - unfold thread_step in E. destruct (nth_error (thr s) t) as [q|] eqn:H; [|discriminate].
    assert (OKq : pc_ok c s q) by (eapply Forall_forall; [exact (v_pc c s I)|eapply nth_error_In; eauto]).
    destruct q as [|tid|tid|tid jobs|tid jobs [|i todo]|tid jobs|tid]; inversion E; subst s'; clear E; rewrite ?set_thr_eq; unfold measure, left, out; cbn [thr nid nblk fin trace check_failed cal qd set_nid set_qd set_nblk add_trace].
    + rewrite (sum_upd _ _ _ _ _ H). pose proof (v_nid c s I). destruct (Z.geb_spec (nid s) (c_threads c)); unfold wpc; [lia|].
      destruct (Z.ltb_spec (nid s + 1) (c_threads c)); lia.
    + rewrite (sum_upd _ _ _ _ _ H). unfold wpc. destruct (Z.ltb_spec (tid + 1) (c_threads c)); cbn [andb]; [|lia].
      destruct (nblk s <? nb); lia.
    + rewrite (sum_upd _ _ _ _ _ H). unfold wpc. lia.
    + rewrite (sum_upd _ _ _ _ _ H). pose proof (v_blk c s I). destruct (Z.geb_spec (nblk s) nb); unfold wpc.
      * rewrite !Z.min_r by lia. lia.
      * rewrite !Z.min_l by lia. rewrite curr_end_next.
        rewrite <- (w_seg c W (curr_start c (nblk s)) (curr_start c (nblk s + 1)) (c_end c)).
        2:{ destruct (curr_start_le c W (nblk s)); lia. } 2:{ pose proof (curr_start_mono c W (nblk s)); lia. } 2:{ destruct (curr_start_le c W (nblk s + 1)); lia. } 2:lia.
        rewrite app_length. lia.
    + rewrite (sum_upd _ _ _ _ _ H). unfold wpc. simpl length. lia.
    + rewrite (sum_upd _ _ _ _ _ H). change (wpc (PRun tid jobs (i :: todo))) with (6 + Z.of_nat (S (length todo))). unfold wpc. lia.
    + unfold finished. destruct (jobs =? 0); cbn [thr nid nblk fin cal qd]; rewrite (sum_upd _ _ _ _ _ H); unfold wpc; [lia|].
      destruct (fin s + jobs =? nb); destruct (cal s); unfold wcal; lia.
  - unfold start_step in E. destruct (qd s) as [|n] eqn:Q; [discriminate|]. inversion E; subst s'; clear E.
    unfold measure, left, out; cbn [thr nid nblk fin cal qd]. rewrite Q, sumz_app, sumz_cons. change (sumz wpc []) with 0. change (wpc PFetchId) with 8. lia.
  - unfold caller_step in E. unfold measure, left, out. destruct (cal s) eqn:C; try discriminate.
    + destruct (nth_error (thr s) 0) as [[| | | | | |x]|]; try discriminate. inversion E; subst s'; cbn [thr nid nblk fin cal qd set_cal]; unfold wcal. lia.
    + inversion E; subst s'; cbn [thr nid nblk fin cal qd set_cal]. destruct (fin s =? nb); unfold wcal; lia.
  - unfold spurious_step in E. destruct (cal s) eqn:C; try discriminate. inversion E; subst s'. unfold measure, left, out; cbn [thr nid nblk fin cal qd set_cal]. rewrite C. unfold wcal. lia.
Qed.

Definition spurious (a : act) : bool := match a with ASpurious => true | _ => false end.
Definition count_spurious (acts : list act) : Z := Z.of_nat (length (filter spurious acts)).

Lemma exec_bound : forall acts s s', PInv s -> exec c acts s = Some s' ->
  measure s' + Z.of_nat (length acts) <= measure s + 2 * count_spurious acts.
Proof.
  induction acts as [|a acts IH]; intros s s' I E; simpl in E.
  - inversion E; subst. unfold count_spurious. simpl. lia.
  - destruct (step c a s) as [s1|] eqn:H; [|discriminate]. pose proof (inv_step c W a s s1 I H) as I1.
    pose proof (IH s1 s' I1 E) as K. pose proof (measure_step a s s1 I H) as M. unfold count_spurious in *.
    destruct a; cbn [filter spurious length]; lia.
Qed.

(** Any state can be driven to return by the threads already running. *)
Lemma can_return : forall s, PInv s -> exists acts s', exec c acts s = Some s' /\ cal s' = CReturned /\
  Forall (fun a => match a with AThread _ | ACaller => True | _ => False end) acts.
Proof.
  intros s. assert (G : forall n s, measure s < Z.of_nat n -> PInv s -> exists acts s', exec c acts s = Some s' /\ cal s' = CReturned /\
     Forall (fun a => match a with AThread _ | ACaller => True | _ => False end) acts).
  { clear s. induction n as [|n IH]; intros s M I; [pose proof (measure_nonneg s I); lia|].
    assert (D : cal s = CReturned \/ cal s <> CReturned) by (destruct (cal s); auto; right; discriminate).
    destruct D as [D|D]; [exists [], s; simpl; auto|].
    destruct (progress s I D) as [a [s1 [E A]]]. pose proof (measure_step a s s1 I E) as MS.
    destruct (IH s1) as [acts [s' [X1 [X2 X3]]]].
    - destruct a; try contradiction; lia.
    - eapply inv_step; eauto.
    - exists (a :: acts), s'. simpl. rewrite E. auto. }
  intros I. apply (G (S (Z.to_nat (measure s))) s); auto. pose proof (measure_nonneg s I). lia.
Qed.
End Call.

Lemma wf_plain : forall s e t m, 1 <= t -> 1 <= m -> m <= e - s -> wf (mkCfg s e t m segment).
Proof. intros. constructor; simpl; auto. intros. apply zrange_app. lia. Qed.

(** Partition boundaries. *)
Lemma nth_mono : forall ps, (forall i j, (i <= j < length ps)%nat -> nth i ps 0 <= nth j ps 0) ->
  forall a b, 0 <= a <= b -> b <= Z.of_nat (length ps) - 1 -> nth (Z.to_nat a) ps 0 <= nth (Z.to_nat b) ps 0.
Proof. intros ps H a b Hab Hb. apply H. lia. Qed.

Lemma wf_part : forall ps t, 1 <= t -> (1 < length ps)%nat -> (forall i j, (i <= j < length ps)%nat -> nth i ps 0 <= nth j ps 0) ->
  wf (mkCfg 0 (Z.of_nat (length ps) - 1) t 1 (part_segment ps)).
Proof.
  intros ps t Ht Hl Hm. constructor; simpl; try lia. intros a b d H1 H2 H3 H4. unfold part_segment. apply zrange_app.
  split; apply nth_mono; auto; lia.
Qed.
