(* Proofs about the effect of Solve on the caller's orderings. *)

From Coq Require Import ZArith List Bool Lia.
From Verif Require Import ZMap OrderedGroupsModel OrderedGroupsSpec OrderedGroupsProofs EnumModel OptionsModel
  SolveOrderingModel SolveOrderingSpec.
Import ListNotations.
Local Open Scope Z_scope.

Lemma built_ok : forall s, built s -> ok s.
Proof.
  intros s [os [rs H]]. destruct (run_refines os og_empty s rs no_groups rep_empty H) as [f [_ [O _]]]. exact O.
Qed.

Lemma remove_absent : forall e s, zfind e (e2g s) = None -> remove e s = (s, false).
Proof. intros e s H. unfold remove, group_id. rewrite H. reflexivity. Qed.

Lemma remove_all_absent : forall es n s, (forall e, In e es -> zfind e (e2g s) = None) ->
  fst (remove_all es n s) = s.
Proof.
  induction es as [|e es IH]; intros n s H; cbn [remove_all]; [reflexivity|].
  rewrite (remove_absent e s) by (apply H; left; reflexivity).
  apply IH. intros x Hx. apply H. right. exact Hx.
Qed.

Lemma remove_bulk_absent : forall es s, (forall e, In e es -> zfind e (e2g s) = None) ->
  fst (remove_bulk es s) = s.
Proof.
  intros es s H. unfold remove_bulk. destruct (_ || _); [reflexivity|]. apply remove_all_absent. exact H.
Qed.

Lemma remove_bulk_effect : forall es s, ok s ->
  ok (fst (remove_bulk es s)) /\
  (forall x, zfind x (e2g (fst (remove_bulk es s))) = if in_dec Z.eq_dec x es then None else zfind x (e2g s)).
Proof.
  intros es s O. destruct (remove_bulk es s) as [s' k] eqn:E. cbn [fst].
  destruct (remove_bulk_ok es s s' k O E) as [O' [_ F]]. split; assumption.
Qed.

Lemma has_find : forall s e, has s e <-> zfind e (e2g s) <> None.
Proof.
  intros s e. unfold has, is_member, zmem. destruct (zfind e (e2g s)); split; intro H; try discriminate; auto; congruence.
Qed.

Lemma regroup_effect : forall l i size s, ok s ->
  ok (regroup l i size s) /\
  (forall x, ~ In x l -> zfind x (e2g (regroup l i size s)) = zfind x (e2g s)) /\
  (forall x, In x l -> zfind x (e2g (regroup l i size s)) = Some 0 \/ zfind x (e2g (regroup l i size s)) = Some 1).
Proof.
  induction l as [|e l IH]; intros i size s O; cbn [regroup].
  - split; [exact O|]. split; [reflexivity|]. intros x [].
  - set (g := if Nat.ltb i size then 0 else 1). assert (G : g = 0 \/ g = 1) by (unfold g; destruct (Nat.ltb i size); auto).
    destruct (add_element e g s) as [s1 b] eqn:E.
    destruct (add_ok e g s s1 b O E) as [O1 [B F]]. cbn [fst].
    assert (Bt : b = true) by (rewrite B; apply Z.leb_le; lia). rewrite Bt in F. cbn [andb] in F.
    destruct (IH (S i) size s1 O1) as [O2 [K1 K2]]. split; [exact O2|]. split.
    + intros x Hx. rewrite K1 by (intro; apply Hx; right; assumption).
      rewrite F. destruct (Z.eqb_spec x e) as [->|N]; [|reflexivity]. exfalso. apply Hx. left. reflexivity.
    + intros x [->|Hx]; [|apply K2; exact Hx].
      destruct (in_dec Z.eq_dec x l) as [I|I]; [apply K2; exact I|].
      rewrite K1 by exact I. rewrite F, Z.eqb_refl. destruct G as [->| ->]; auto.
Qed.

(* the possible effects on one ordering: elements in R may go, elements in B may
   be put into group 0 or 1 if [re] *)
Definition effect (R B : list Z) (re : Prop) (s s' : og) : Prop :=
  ok s' /\
  forall e, zfind e (e2g s') = zfind e (e2g s) \/
            (In e R /\ zfind e (e2g s') = None) \/
            (re /\ In e B /\ (zfind e (e2g s') = Some 0 \/ zfind e (e2g s') = Some 1)).

Lemma effect_refl : forall R B re s, ok s -> effect R B re s s.
Proof. intros R B re s O. split; [exact O|]. auto. Qed.

Lemma effect_remove : forall R B re s, ok s -> effect R B re s (fst (remove_bulk R s)).
Proof.
  intros R B re s O. destruct (remove_bulk_effect R s O) as [O' F]. split; [exact O'|].
  intro e. rewrite F. destruct (in_dec Z.eq_dec e R) as [I|I]; [right; left; auto|left; reflexivity].
Qed.

Lemma effect_then_remove : forall R B re s s1, effect R B re s s1 ->
  effect R B re s (fst (remove_bulk R s1)).
Proof.
  intros R B re s s1 [O F]. destruct (remove_bulk_effect R s1 O) as [O' F']. split; [exact O'|].
  intro e. rewrite F'. destruct (in_dec Z.eq_dec e R) as [I|I]; [right; left; auto|apply F].
Qed.

Lemma put_same : forall h i x, put h i x i = x.
Proof. intros. unfold put. rewrite Nat.eqb_refl. reflexivity. Qed.
Lemma put_other : forall h i j x, j <> i -> put h i x j = h j.
Proof. intros. unfold put. destruct (Nat.eqb_spec j i); congruence. Qed.

Lemma reorder_effect : forall t p d a blocks R s s1 ok1 s2, ok s -> s1 = fst (remove_bulk R s) ->
  ReorderProgram t p d a blocks s1 = Some (ok1, s2) ->
  effect R (an_schur_ordering a) (IsSchurType t = true /\ num_groups s1 = 1) s s2.
Proof.
  intros t p d a blocks R s s1 ok1 s2 O E1 H.
  assert (EF : forall re, effect R (an_schur_ordering a) re s s1)
    by (intro re; rewrite E1; apply effect_remove; exact O).
  unfold ReorderProgram in H. destruct (IsSchurType t).
  - unfold ReorderForSchur in H.
    destruct (negb (num_elements s1 =? Z.of_nat (length blocks))); [inversion H; subst; apply EF|].
    destruct (Z.eqb_spec (num_groups s1) 1) as [G|G].
    + destruct (negb _); [discriminate|]. inversion H; subst ok1 s2. clear H.
      destruct (EF False) as [O1 F1].
      destruct (regroup_effect (an_schur_ordering a) 0 (an_schur_size a) s1 O1) as [O2 [K1 K2]].
      split; [exact O2|]. intro e.
      destruct (in_dec Z.eq_dec e (an_schur_ordering a)) as [I|I].
      * right; right. split; [auto|]. split; [exact I|]. apply K2; exact I.
      * rewrite (K1 e I). destruct (F1 e) as [F|[F|[[] _]]]; auto.
    + destruct (negb (an_independent a)); inversion H; subst; apply EF.
  - destruct ((t =? SPARSE_NORMAL_CHOLESKY) && negb d); [inversion H; subst; apply EF|].
    destruct ((t =? CGNR) && (p =? SUBSET)); inversion H; subst; apply EF.
Qed.

Lemma schur_b : forall q, IsSchurType (rq_solver q) = true <-> schur_solver q.
Proof.
  intro q. unfold IsSchurType, schur_solver. rewrite !orb_true_iff, !Z.eqb_eq. tauto.
Qed.

(* when the caller's linear solver ordering may be regrouped *)
Definition may_regroup (q : request) (removed : list Z) (h : store) (j : nat) : Prop :=
  rq_linear_ordering q = Some j /\ schur_solver q /\ num_groups (fst (remove_bulk removed (h j))) = 1.

Lemma effect_weaken : forall R B (re re' : Prop) s s', (re -> re') -> effect R B re s s' -> effect R B re' s s'.
Proof. intros R B re re' s s' W [O F]. split; [exact O|]. intro e. destruct (F e) as [H|[H|[H1 H2]]]; auto. Qed.

Lemma setup_linear_effect : forall q a removed blocks h okl h', (forall j, ok (h j)) ->
  SetupLinearSolver q a removed blocks h = Finished okl h' ->
  forall j, (rq_linear_ordering q <> Some j /\ h' j = h j) \/
            (rq_linear_ordering q = Some j /\
             effect removed (an_schur_ordering a) (may_regroup q removed h j) (h j) (h' j)).
Proof.
  intros q a removed blocks h okl h' O H j. unfold SetupLinearSolver in H.
  destruct (rq_linear_ordering q) as [i|] eqn:L.
  - destruct (min_nonzero_group (h i)) as [f|]; [|discriminate].
    set (s := fst (remove_bulk removed (h i))) in *.
    assert (M : forall t p ok1 s2, (IsSchurType t = true -> schur_solver q) ->
       ReorderProgram t p (rq_dynamic q) a blocks s = Some (ok1, s2) ->
       effect removed (an_schur_ordering a) (may_regroup q removed h i) (h i) s2).
    { intros t p ok1 s2 W R. eapply effect_weaken; [|eapply reorder_effect; [apply O|reflexivity|exact R]].
      intros [A B]. split; [exact L|]. split; [apply W; exact A|exact B]. }
    assert (C : forall ok1 s2, effect removed (an_schur_ordering a) (may_regroup q removed h i) (h i) s2 ->
       Finished ok1 (put h i s2) = Finished okl h' ->
       (Some i <> Some j /\ h' j = h j) \/
       (Some i = Some j /\ effect removed (an_schur_ordering a) (may_regroup q removed h j) (h j) (h' j))).
    { intros ok1 s2 E Q. inversion Q; subst okl h'. destruct (Nat.eq_dec j i) as [->|N].
      - right. split; [reflexivity|]. rewrite put_same. exact E.
      - left. split; [congruence|]. apply put_other; exact N. }
    destruct (IsSchurType (rq_solver q)) eqn:SC.
    + assert (SS : schur_solver q) by (apply schur_b; exact SC).
      destruct (min_nonzero_group s) as [f'|]; [|discriminate].
      cbv zeta in H.
      destruct (ReorderProgram _ _ _ _ _ _) as [[ok1 s2]|] eqn:R; [|discriminate].
      eapply C; [|exact H]. eapply M; [|exact R]. intros _; exact SS.
    + destruct (ReorderProgram _ _ _ _ _ _) as [[ok1 s2]|] eqn:R; [|discriminate].
      eapply C; [|exact H]. eapply M; [|exact R]. intro Q. congruence.
  - destruct (ReorderProgram _ _ _ _ _ _) as [[ok1 s2]|]; [|discriminate].
    inversion H; subst. left. split; [discriminate|reflexivity].
Qed.

Lemma solve_effect : forall q a h okf h', (forall j, ok (h j)) -> Solve q a h = Finished okf h' ->
  forall j, h' j = h j \/
    (passed q j /\ rq_minimizer q = TRUST_REGION /\
     effect (removed_blocks a) (an_schur_ordering a) (may_regroup q (removed_blocks a) h j) (h j) (h' j)).
Proof.
  intros q a h okf h' O H j. unfold Solve in H.
  destruct (Z.eqb_spec (rq_minimizer q) TRUST_REGION) as [T|T]; [|inversion H; left; reflexivity].
  unfold TrustRegionPreprocess in H. unfold removed_blocks.
  destruct (negb (an_program_ok a)); [inversion H; left; reflexivity|].
  destruct (an_reduced a) as [[removed blocks]|]; [|inversion H; left; reflexivity].
  destruct (Nat.eqb (length blocks) 0); [inversion H; left; reflexivity|].
  destruct (SetupLinearSolver q a removed blocks h) as [|ok1 h1] eqn:S1; [discriminate|].
  pose proof (setup_linear_effect q a removed blocks h ok1 h1 O S1) as E1.
  assert (E1' : forall k, h1 k = h k \/
     (passed q k /\ effect removed (an_schur_ordering a) (may_regroup q removed h k) (h k) (h1 k))).
  { intro k. destruct (E1 k) as [[_ E]|[L E]]; [left; exact E|right; split; [left; exact L|exact E]]. }
  assert (Keep : forall x, h1 = x -> x j = h j \/
    (passed q j /\ rq_minimizer q = TRUST_REGION /\
     effect removed (an_schur_ordering a) (may_regroup q removed h j) (h j) (x j))).
  { intros x <-. destruct (E1' j) as [E|[P E]]; auto. }
  destruct ok1; [|inversion H; subst; apply Keep; reflexivity].
  destruct (negb (an_evaluator_ok a)); [inversion H; subst; apply Keep; reflexivity|].
  unfold SetupInnerIterationMinimizer in H.
  destruct (negb (rq_inner q)); [inversion H; subst; apply Keep; reflexivity|].
  destruct (an_callback a); [inversion H; subst; apply Keep; reflexivity|].
  destruct (Nat.eqb (length blocks) 1); [inversion H; subst; apply Keep; reflexivity|].
  destruct (rq_inner_ordering q) as [i|] eqn:I; [|inversion H; subst; apply Keep; reflexivity].
  assert (Q : h' = put h1 i (fst (remove_bulk removed (h1 i)))).
  { cbv zeta in H. destruct (num_elements _ =? 0); [inversion H; reflexivity|].
    destruct (negb (an_inner_ordering_ok a)); inversion H; reflexivity. }
  rewrite Q. destruct (Nat.eq_dec j i) as [->|N].
  - rewrite put_same. right. split; [right; exact I|]. split; [exact T|].
    destruct (E1' i) as [E|[_ E]]; [rewrite E; apply effect_remove; apply O|].
    apply effect_then_remove. exact E.
  - rewrite put_other by exact N. apply Keep. reflexivity.
Qed.

Lemma same_find : forall s s', (forall e, zfind e (e2g s') = zfind e (e2g s)) -> same_ordering s s'.
Proof. intros s s' H e. unfold group_id. rewrite H. reflexivity. Qed.

Lemma no_member_min : forall s, ok s -> (min_nonzero_group s = None <-> forall e, ~ has s e).
Proof.
  intros s O. destruct (observers_ok s (fun e => zfind e (e2g s)) (conj O (fun e => eq_refl)))
    as [_ [_ [_ [_ [_ [_ M]]]]]].
  split.
  - intros E e He. rewrite E in M. apply has_find in He. apply He, M.
  - intro N. destruct (min_nonzero_group s) as [g|]; [|reflexivity]. destruct M as [[e He] _].
    exfalso. apply (N e). apply has_find. rewrite He. discriminate.
Qed.
