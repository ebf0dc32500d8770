(** Invariants of the queue, the token provider and the pool. *)
Require Import List Arith Bool Lia Permutation.
From Verif Require Import QueueModel.
Import ListNotations.

Lemma pick_perm : forall l k x r, pick k l = Some (x, r) -> Permutation l (x :: r).
Proof.
  induction l as [|a l IH]; intros k x r H; [destruct k; discriminate|].
  destruct k; simpl in H; [inversion H; subst; auto|].
  destruct (pick k l) as [[y r']|] eqn:E; inversion H; subst. rewrite (IH _ _ _ E). apply perm_swap.
Qed.
Lemma pick_some : forall l k, k < length l -> exists x r, pick k l = Some (x, r).
Proof.
  induction l as [|a l IH]; intros k H; simpl in H; [lia|]. destruct k; simpl; [eauto|].
  destruct (IH k) as [x [r E]]; [lia|]. rewrite E. eauto.
Qed.

Lemma remove1_in : forall t x l, In x (remove1 t l) <-> In x l /\ x <> t.
Proof. intros. unfold remove1. split; [apply in_remove|intros [A B]; apply in_in_remove; auto]. Qed.
Lemma remove1_notin : forall t l, ~ In t l -> remove1 t l = l.
Proof. intros. apply notin_remove; auto. Qed.
Lemma remove1_perm : forall t l, NoDup l -> In t l -> Permutation l (t :: remove1 t l).
Proof.
  induction l as [|a l IH]; intros N H; [contradiction|]. inversion N; subst. unfold remove1. simpl.
  destruct (Nat.eq_dec t a).
  - subst. rewrite notin_remove; auto.
  - destruct H; [congruence|]. fold (remove1 t l). rewrite (IH H3 H) at 1. apply perm_swap.
Qed.
Lemma is_awake_in : forall A t (q : cq A), is_awake t q = true <-> In t (q_awake q).
Proof. intros. unfold is_awake. rewrite existsb_exists. split; [intros [x [H E]]; apply Nat.eqb_eq in E; subst; auto|intros H; exists t; split; auto; apply Nat.eqb_refl]. Qed.
Lemma in_wait_in : forall A t (q : cq A), in_wait t q = true <-> In t (q_asleep q ++ q_awake q).
Proof. intros. unfold in_wait. rewrite existsb_exists. split; [intros [x [H E]]; apply Nat.eqb_eq in E; subst; auto|intros H; exists t; split; auto; apply Nat.eqb_refl]. Qed.
Lemma in_wait_out : forall A t (q : cq A), in_wait t q = false <-> ~ In t (q_asleep q ++ q_awake q).
Proof. intros. rewrite <- in_wait_in. destruct (in_wait t q); split; congruence. Qed.

(** No missed wake-up. *)
Record QInv {A} (q : cq A) : Prop := mkQI {
  i_nodup : NoDup (q_asleep q ++ q_awake q);
  i_sleep : q_asleep q <> [] -> q_wait q = true /\ length (q_items q) <= length (q_awake q) }.

Lemma qinv_new : forall A, QInv (@q_new A).
Proof. intros; constructor; simpl; [constructor|congruence]. Qed.

Lemma notify_cases : forall A k (q : cq A),
  (q_asleep q = [] /\ notify_one k q = q) \/
  (exists t r, Permutation (q_asleep q) (t :: r) /\ notify_one k q = mkQ (q_items q) (q_wait q) r (t :: q_awake q)).
Proof.
  intros A k q. unfold notify_one. destruct (q_asleep q) as [|a l] eqn:E.
  - left. split; auto. destruct (k mod length (@nil nat)); auto.
  - right. assert (L : k mod length (a :: l) < length (a :: l)) by (apply Nat.mod_upper_bound; simpl; lia).
    destruct (pick_some _ _ L) as [t [r P]]. exists t, r. split; [eapply pick_perm; eauto|]. rewrite P. auto.
Qed.

Lemma push_spec : forall A x k (q : cq A),
  q_items (q_push x k q) = q_items q ++ [x] /\ q_wait (q_push x k q) = q_wait q /\
  Permutation (q_asleep (q_push x k q) ++ q_awake (q_push x k q)) (q_asleep q ++ q_awake q) /\
  incl (q_awake q) (q_awake (q_push x k q)).
Proof.
  intros A x k q. unfold q_push. set (q1 := mkQ (q_items q ++ [x]) (q_wait q) (q_asleep q) (q_awake q)).
  destruct (notify_cases A k q1) as [[E N]|[t [r [P N]]]]; rewrite N; simpl; repeat split; auto.
  - apply incl_refl.
  - simpl in P. rewrite P. simpl. symmetry. apply Permutation_middle.
  - apply incl_tl. apply incl_refl.
Qed.

Lemma qinv_push : forall A x k (q : cq A), QInv q -> QInv (q_push x k q).
Proof.
  intros A x k q [N S]. destruct (push_spec A x k q) as [E1 [E2 [E3 _]]]. constructor.
  - eapply Permutation_NoDup; [symmetry; exact E3|auto].
  - unfold q_push in *. set (q1 := mkQ (q_items q ++ [x]) (q_wait q) (q_asleep q) (q_awake q)) in *.
    destruct (notify_cases A k q1) as [[E NN]|[t [r [P NN]]]]; rewrite NN; simpl; intros H.
    + simpl in E. congruence.
    + assert (q_asleep q <> []) by (intros Z; simpl in P; rewrite Z in P; apply Permutation_nil in P; discriminate).
      destruct (S H0). split; auto. rewrite app_length. simpl. lia.
Qed.

Lemma qinv_pop : forall A (q : cq A), QInv q -> QInv (snd (pop_unlocked q)).
Proof.
  intros A q [N S]. unfold pop_unlocked. destruct (q_items q) eqn:E; simpl; constructor; simpl; auto.
  - intros H. destruct (S H). rewrite E. auto.
  - intros H. destruct (S H) as [W L]. simpl in L. split; auto. lia.
Qed.

Lemma qinv_enter : forall A t (q : cq A), in_wait t q = false -> QInv q -> QInv (q_enter t q).
Proof.
  intros A t q H [N S]. apply in_wait_out in H. constructor; simpl.
  - eapply Permutation_NoDup; [apply Permutation_middle|constructor; auto].
  - intros X. destruct (S X). split; auto.
Qed.

Lemma NoDup_mid : forall (a : nat) l r, NoDup (l ++ r) -> In a r -> ~ In a l.
Proof.
  induction l as [|x l IH]; intros r N H; simpl; auto. simpl in N. inversion N; subst. intros [X|X].
  - subst. apply H2. apply in_or_app; auto.
  - eapply IH; eauto.
Qed.
Lemma NoDup_right : forall (l r : list nat), NoDup (l ++ r) -> NoDup r.
Proof. induction l; simpl; intros; auto. inversion H; auto. Qed.

(** The three outcomes of a test. *)
Lemma test_cases : forall A t (q : cq A),
  (exists x r, q_items q = x :: r /\ q_test t q = (Some (Some x), mkQ r (q_wait q) (q_asleep q) (remove1 t (q_awake q)))) \/
  (q_items q = [] /\ q_wait q = false /\ q_test t q = (Some None, mkQ [] false (q_asleep q) (remove1 t (q_awake q)))) \/
  (q_items q = [] /\ q_wait q = true /\ q_test t q = (None, mkQ [] true (t :: q_asleep q) (remove1 t (q_awake q)))).
Proof.
  intros A t q. unfold q_test, pop_unlocked. destruct q as [it w sl aw]; simpl. destruct it as [|x r]; simpl.
  - destruct w; simpl; auto.
  - left. exists x, r. rewrite andb_false_r. simpl. auto.
Qed.

Lemma qinv_test : forall A t (q : cq A), In t (q_awake q) -> QInv q -> QInv (snd (q_test t q)).
Proof.
  intros A t q H [N S]. assert (ND := NoDup_right _ _ N). assert (P := remove1_perm t _ ND H).
  assert (NP : NoDup (t :: q_asleep q ++ remove1 t (q_awake q))).
  { eapply Permutation_NoDup; [|exact N]. rewrite P at 1. symmetry. apply Permutation_middle. }
  inversion NP; subst.
  destruct (test_cases A t q) as [[x [r [E1 E2]]]|[[E1 [E2 E3]]|[E1 [E2 E3]]]].
  - rewrite E2. constructor; simpl; auto. intros X. destruct (S X) as [W L]. split; auto.
    rewrite E1 in L. simpl in L. apply Permutation_length in P. simpl in P. lia.
  - rewrite E3. constructor; simpl; auto. intros X. destruct (S X). congruence.
  - rewrite E3. constructor; simpl; auto. intros X. split; auto. lia.
Qed.

Lemma qinv_stop : forall A (q : cq A), QInv q -> QInv (q_stop q).
Proof. intros A q [N S]. constructor; simpl; auto. congruence. Qed.
Lemma qinv_enable : forall A (q : cq A), QInv q -> QInv (q_enable q).
Proof. intros A q [N S]. constructor; simpl; auto. intros X. destruct (S X). auto. Qed.
Lemma qinv_spurious : forall A k (q q' : cq A), q_spurious k q = Some q' -> QInv q -> QInv q'.
Proof.
  intros A k q q' H [N S]. unfold q_spurious in H. destruct (pick k (q_asleep q)) as [[t r]|] eqn:E; inversion H; subst.
  apply pick_perm in E. constructor; simpl.
  - eapply Permutation_NoDup; [|exact N]. rewrite E. simpl. apply Permutation_middle.
  - intros X. destruct S as [W L]; [intros Z; rewrite Z in E; apply Permutation_nil in E; discriminate|]. split; auto. 
Qed.

Lemma qinv_step : forall A a (q q' : cq A) e, q_step a q = Some (q', e) -> QInv q -> QInv q'.
Proof.
  intros A a q q' e H I. destruct a as [x k|t|t|t| | |k]; simpl in H.
  - inversion H; subst. apply qinv_push; auto.
  - destruct (in_wait t q); [discriminate|]. pose proof (qinv_pop A q I) as P. destruct (pop_unlocked q). inversion H; subst. auto.
  - destruct (in_wait t q) eqn:E; [discriminate|]. inversion H; subst. apply qinv_enter; auto.
  - destruct (is_awake t q) eqn:E; [|discriminate]. apply is_awake_in in E. pose proof (qinv_test A t q E I) as P.
    destruct (q_test t q) as [[r|] q1]; inversion H; subst; auto.
  - inversion H; subst. apply qinv_stop; auto.
  - inversion H; subst. apply qinv_enable; auto.
  - destruct (q_spurious k q) eqn:E; inversion H; subst. eapply qinv_spurious; eauto.
Qed.
Lemma qinv_exec : forall A acts (q q' : cq A) e, q_exec acts q = Some (q', e) -> QInv q -> QInv q'.
Proof.
  induction acts as [|a acts IH]; intros q q' e H I; simpl in H; [inversion H; subst; auto|].
  destruct (q_step a q) as [[q1 e1]|] eqn:E; [|discriminate]. destruct (q_exec acts q1) as [[q2 e2]|] eqn:E2; [|discriminate].
  inversion H; subst. eapply IH; eauto. eapply qinv_step; eauto.
Qed.

(** ** Token provider. *)
Record TInv (n : nat) (s : tok) : Prop := mkTI {
  ti_q : QInv (t_q s); ti_wait : q_wait (t_q s) = true; ti_ok : t_failed s = false;
  ti_perm : Permutation (q_items (t_q s) ++ map snd (t_held s)) (seq 0 n) }.

Lemma tinv_new : forall n, TInv n (t_new n).
Proof.
  intros n. unfold t_new.
  assert (G : forall (l : list nat) (q : cq nat), QInv q -> QInv (fold_left (fun q i => q_push i 0 q) l q) /\
      q_wait (fold_left (fun q i => q_push i 0 q) l q) = q_wait q /\ q_items (fold_left (fun q i => q_push i 0 q) l q) = q_items q ++ l).
  { induction l as [|x l IH]; intros q I; simpl; [rewrite app_nil_r; auto|].
    destruct (push_spec nat x 0 q) as [E1 [E2 _]]. destruct (IH _ (qinv_push nat x 0 q I)) as [P1 [P2 P3]].
    split; auto. split; [congruence|]. rewrite P3, E1, <- app_assoc. auto. }
  destruct (G (seq 0 n) q_new (qinv_new nat)) as [P1 [P2 P3]]. constructor; cbn [t_q t_held t_failed map]; auto.
  rewrite P3, app_nil_r. simpl. auto.
Qed.

Lemma held_split : forall t x l, NoDup (map snd l) -> existsb (fun p : nat * nat => (fst p =? t) && (snd p =? x)) l = true ->
  Permutation (map snd l) (x :: map snd (filter (fun p => negb ((fst p =? t) && (snd p =? x))) l)).
Proof.
  induction l as [|[a b] l IH]; intros N H; simpl in *; [discriminate|]. inversion N; subst.
  destruct ((a =? t) && (b =? x)) eqn:E; simpl in *.
  - apply andb_true_iff in E. destruct E as [E1 E2]. apply Nat.eqb_eq in E1, E2. subst. constructor.
    replace (filter _ l) with l; auto. symmetry. clear - H2. induction l as [|[a b] l IH]; simpl; auto.
    destruct (Nat.eqb_spec b x); [subst; exfalso; apply H2; simpl; auto|]. rewrite andb_false_r. simpl. rewrite IH; auto. intros Z; apply H2; simpl; auto.
  - rewrite (IH H3 H). apply perm_swap.
Qed.

Lemma tinv_step : forall n a s s', t_step a s = Some s' -> TInv n s -> TInv n s'.
Proof.
  intros n a s s' H [Q W F P]. destruct a as [t|t|t x k|k]; simpl in H.
  - destruct (in_wait t (t_q s)) eqn:E; [discriminate|]. inversion H; subst. constructor; simpl; auto. apply qinv_enter; auto.
  - destruct (is_awake t (t_q s)) eqn:E; [|discriminate]. apply is_awake_in in E. pose proof (qinv_test nat t _ E Q) as QT.
    destruct (test_cases nat t (t_q s)) as [[x [r [E1 E2]]]|[[E1 [E2 E3]]|[E1 [E2 E3]]]].
    + rewrite E2 in H, QT. inversion H; subst. constructor; simpl; auto. rewrite E1 in P. simpl in P. rewrite <- P. symmetry. apply Permutation_middle.
    + congruence.
    + rewrite E3 in H, QT. inversion H; subst. constructor; simpl; auto. rewrite E1 in P. auto.
  - destruct (in_wait t (t_q s)) eqn:E; [discriminate|]. destruct (existsb _ _) eqn:X; [|discriminate]. inversion H; subst.
    destruct (push_spec nat x k (t_q s)) as [E1 [E2 _]]. constructor; cbn [t_q t_held t_failed]; auto.
    + apply qinv_push; auto.
    + congruence.
    + rewrite E1, <- app_assoc. simpl. rewrite <- held_split; auto.
      assert (N : NoDup (q_items (t_q s) ++ map snd (t_held s))) by (eapply Permutation_NoDup; [symmetry; exact P|apply seq_NoDup]).
      eapply NoDup_right; eauto.
  - destruct (q_spurious k (t_q s)) eqn:E; inversion H; subst. pose proof (qinv_spurious _ _ _ _ E Q).
    unfold q_spurious in E. destruct (pick _ _) as [[? ?]|]; inversion E; subst. constructor; simpl; auto.
Qed.
Lemma tinv_exec : forall n acts s s', t_exec acts s = Some s' -> TInv n s -> TInv n s'.
Proof.
  induction acts as [|a acts IH]; intros s s' H I; simpl in H; [inversion H; subst; auto|].
  destruct (t_step a s) eqn:E; [|discriminate]. eapply IH; eauto. eapply tinv_step; eauto.
Qed.
