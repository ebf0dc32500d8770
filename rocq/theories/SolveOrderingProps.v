(* C53: what Solve does to the orderings in the caller's options. *)

From Coq Require Import ZArith List Bool Lia.
From Verif Require Import ZMap OrderedGroupsModel OrderedGroupsSpec OrderedGroupsProofs EnumModel OptionsModel
  SolveOrderingModel SolveOrderingSpec SolveOrderingProofs.
Import ListNotations.
Local Open Scope Z_scope.

(* The orderings are unchanged when no block in them is removed from the problem
   (constant or unused) and a Schur type solver is not given one single group. *)
Theorem orderings_unchanged_without_removed_blocks : forall q a h okf h',
  (forall j, built (h j)) -> Solve q a h = Finished okf h' ->
  (forall i e, passed q i -> In e (removed_blocks a) -> ~ has (h i) e) ->
  (schur_solver q -> forall i, rq_linear_ordering q = Some i -> num_groups (h i) <> 1) ->
  unchanged h h'.
Proof.
  intros q a h okf h' B H NR NG j.
  assert (O : forall j, ok (h j)) by (intro k; apply built_ok, B).
  destruct (solve_effect q a h okf h' O H j) as [E|[P [_ [_ F]]]]; [rewrite E; intro e; reflexivity|].
  apply same_find. intro e. destruct (F e) as [E|[[I E]|[[L [S G]] _]]].
  - exact E.
  - rewrite E. symmetry. destruct (zfind e (e2g (h j))) eqn:Z0; [|reflexivity].
    exfalso. apply (NR j e P I). apply has_find. rewrite Z0. discriminate.
  - exfalso. apply (NG S j L). rewrite remove_bulk_absent in G; [exact G|].
    intros x Hx. destruct (zfind x (e2g (h j))) eqn:Z0; [|reflexivity].
    exfalso. apply (NR j x P Hx). apply has_find. rewrite Z0. discriminate.
Qed.
Print Assumptions orderings_unchanged_without_removed_blocks.

(* The line search minimizer never touches them. *)
Theorem orderings_unchanged_by_line_search : forall q a h,
  rq_minimizer q <> TRUST_REGION ->
  exists okf, Solve q a h = Finished okf h.
Proof.
  intros q a h N. unfold Solve. destruct (Z.eqb_spec (rq_minimizer q) TRUST_REGION) as [T|_]; [contradiction|].
  eexists. reflexivity.
Qed.
Print Assumptions orderings_unchanged_by_line_search.

(* In every case: orderings not passed are untouched; a block leaves an ordering
   only if it was removed from the problem; a block enters one only if Ceres put it
   there as part of its own Schur ordering; the group of a block changes only for
   a Schur type solver whose ordering has a single group left. *)
Theorem orderings_effect_of_solve : forall q a h okf h',
  (forall j, built (h j)) -> Solve q a h = Finished okf h' ->
  (forall j, ~ passed q j -> same_ordering (h j) (h' j)) /\
  (forall j e, has (h j) e -> ~ In e (removed_blocks a) -> has (h' j) e) /\
  (forall j e, has (h' j) e -> has (h j) e \/
     (rq_linear_ordering q = Some j /\ schur_solver q /\ In e (an_schur_ordering a))) /\
  (forall j e, has (h j) e -> has (h' j) e -> group_id e (h' j) <> group_id e (h j) ->
     rq_linear_ordering q = Some j /\ schur_solver q /\ In e (an_schur_ordering a) /\
     (group_id e (h' j) = 0 \/ group_id e (h' j) = 1)).
Proof.
  intros q a h okf h' B H.
  assert (O : forall j, ok (h j)) by (intro k; apply built_ok, B).
  pose proof (solve_effect q a h okf h' O H) as E.
  split; [|split; [|split]].
  - intros j N. destruct (E j) as [E1|[P _]]; [rewrite E1; intro e; reflexivity|contradiction].
  - intros j e He N. destruct (E j) as [E1|[_ [_ [_ F]]]]; [rewrite E1; exact He|].
    apply has_find. apply has_find in He. destruct (F e) as [F1|[[I _]|[_ [_ [F1|F1]]]]]; try congruence; contradiction.
  - intros j e He. destruct (E j) as [E1|[_ [_ [_ F]]]]; [rewrite E1 in He; left; exact He|].
    apply has_find in He. destruct (F e) as [F1|[[_ F1]|[[L [S _]] [I _]]]].
    + left. apply has_find. congruence.
    + congruence.
    + right. auto.
  - intros j e He He' N. destruct (E j) as [E1|[_ [_ [_ F]]]]; [rewrite E1 in N; destruct (N eq_refl)|].
    apply has_find in He'. destruct (F e) as [F1|[[_ F1]|[[L [S _]] [I F1]]]].
    + exfalso. apply N. unfold group_id. rewrite F1. reflexivity.
    + congruence.
    + split; [exact L|]. split; [exact S|]. split; [exact I|].
      unfold group_id. destruct F1 as [-> | ->]; auto.
Qed.
Print Assumptions orderings_effect_of_solve.

(* Preprocessing aborts exactly when the linear solver ordering that was passed
   is empty, or a Schur type solver is used and only removed blocks are in it
   (assuming that ComputeStableSchurOrdering orders all blocks, which is C18). *)
Theorem solve_aborts_iff_ordering_empty : forall q a h,
  (forall j, built (h j)) -> length (an_schur_ordering a) = length (kept_blocks a) ->
  (Solve q a h = Aborts <->
   rq_minimizer q = TRUST_REGION /\ an_program_ok a = true /\ kept_blocks a <> [] /\
   exists i, rq_linear_ordering q = Some i /\
     ((forall e, ~ has (h i) e) \/
      (schur_solver q /\ forall e, has (h i) e -> In e (removed_blocks a)))).
Proof.
  intros q a h B LS.
  assert (O : forall j, ok (h j)) by (intro k; apply built_ok, B).
  unfold Solve. destruct (Z.eqb_spec (rq_minimizer q) TRUST_REGION) as [T|T];
    [|split; [discriminate|intros [T' _]; contradiction]].
  unfold TrustRegionPreprocess, kept_blocks, removed_blocks in *.
  destruct (an_program_ok a); cbn [negb]; [|split; [discriminate|intros [_ [Q _]]; discriminate]].
  destruct (an_reduced a) as [[removed blocks]|]; [|split; [discriminate|intros [_ [_ [Q _]]]; destruct (Q eq_refl)]].
  destruct (Nat.eqb_spec (length blocks) 0) as [L0|L0].
  { destruct blocks; [|discriminate]. split; [discriminate|intros [_ [_ [Q _]]]; destruct (Q eq_refl)]. }
  assert (NB : blocks <> []) by (intros ->; apply L0; reflexivity).
  assert (Inner : forall h1, SetupInnerIterationMinimizer q a removed blocks h1 <> Aborts).
  { intro h1. unfold SetupInnerIterationMinimizer. destruct (negb (rq_inner q)); [discriminate|].
    destruct (an_callback a); [discriminate|]. destruct (Nat.eqb (length blocks) 1); [discriminate|].
    destruct (rq_inner_ordering q); [|discriminate]. cbv zeta. destruct (_ =? _); [discriminate|].
    destruct (negb _); discriminate. }
  assert (Red : (match SetupLinearSolver q a removed blocks h with
                 | Finished true h1 => if negb (an_evaluator_ok a) then Finished false h1
                     else SetupInnerIterationMinimizer q a removed blocks h1
                 | r => r end = Aborts) <-> SetupLinearSolver q a removed blocks h = Aborts).
  { destruct (SetupLinearSolver q a removed blocks h) as [|[] h1]; [tauto| |split; discriminate].
    destruct (negb (an_evaluator_ok a)); [split; discriminate|].
    split; [intro Q; destruct (Inner h1 Q)|discriminate]. }
  rewrite Red. clear Red Inner.
  assert (RP : forall t p s, ReorderProgram t p (rq_dynamic q) a blocks s <> None).
  { intros t p s. unfold ReorderProgram. destruct (IsSchurType t).
    - unfold ReorderForSchur. destruct (negb _); [discriminate|]. destruct (_ =? 1).
      + rewrite LS, Nat.eqb_refl. discriminate.
      + destruct (negb _); discriminate.
    - destruct (_ && _); [discriminate|]. destruct (_ && _); discriminate. }
  unfold SetupLinearSolver. destruct (rq_linear_ordering q) as [i|].
  2:{ split; [|intros [_ [_ [_ [i [Q _]]]]]; discriminate].
      destruct (ReorderProgram _ _ _ _ _ _) as [[okr s']|] eqn:R; [discriminate|]. destruct (RP _ _ _ R). }
  assert (EX : forall P : nat -> Prop, (exists k, Some i = Some k /\ P k) <-> P i).
  { intro P. split; [intros [k [Q H]]; inversion Q; exact H|intro H; exists i; auto]. }
  rewrite (EX (fun k => (forall e, ~ has (h k) e) \/ (schur_solver q /\ forall e, has (h k) e -> In e removed))).
  clear EX.
  destruct (min_nonzero_group (h i)) as [f|] eqn:M1.
  2:{ pose proof (proj1 (no_member_min _ (O i)) M1) as NM1. tauto. }
  assert (NE : ~ forall e, ~ has (h i) e).
  { intro Q. pose proof (proj2 (no_member_min _ (O i)) Q). congruence. }
  cbv zeta. destruct (remove_bulk_effect removed (h i) (O i)) as [O' F].
  set (s := fst (remove_bulk removed (h i))) in *.
  assert (AB : (forall e, ~ has s e) <-> (forall e, has (h i) e -> In e removed)).
  { split.
    - intros Q e He. apply has_find in He. specialize (Q e). rewrite has_find, F in Q.
      destruct (in_dec Z.eq_dec e removed) as [I|I]; [exact I|]. exfalso. apply Q. exact He.
    - intros Q e He. apply has_find in He. rewrite F in He.
      destruct (in_dec Z.eq_dec e removed) as [I|I]; [congruence|]. apply I, Q, has_find, He. }
  destruct (IsSchurType (rq_solver q)) eqn:SC.
  - apply schur_b in SC. destruct (min_nonzero_group s) as [f'|] eqn:M2.
    + split; [|intros [_ [_ [_ [Q|[_ Q]]]]]; [contradiction|]].
      * destruct (ReorderProgram _ _ _ _ _ _) as [[okr s']|] eqn:R; [discriminate|]. destruct (RP _ _ _ R).
      * exfalso. pose proof (proj2 AB Q) as Q1. pose proof (proj2 (no_member_min _ O') Q1). congruence.
    + pose proof (proj1 (no_member_min _ O') M2) as NM2. pose proof (proj1 AB NM2). tauto.
  - split; [|intros [_ [_ [_ [Q|[S _]]]]]; [contradiction|apply schur_b in S; congruence]].
    destruct (ReorderProgram _ _ _ _ _ _) as [[okr s']|] eqn:R; [discriminate|]. destruct (RP _ _ _ R).
Qed.
Print Assumptions solve_aborts_iff_ordering_empty.

(* ---- concrete runs ---- *)

Definition of_calls (os : list op) : og := match run os og_empty with Some (s, _) => s | None => og_empty end.

(* blocks at addresses 10, 20, 30; the caller orders 10 before 20 and 30 *)
Definition my_ordering : og := of_calls [OAdd 10 0; OAdd 20 1; OAdd 30 1].
Definition my_store : store := fun j => if Nat.eqb j 0 then my_ordering else og_empty.
Definition dense_schur : request := mkrequest TRUST_REGION DENSE_SCHUR JACOBI false (Some 0%nat) false None.
Definition all_fine (removed blocks schur : list Z) (n : nat) : answers :=
  mkanswers true (Some (removed, blocks)) schur n true true true true false true true.

Lemma my_store_built : forall j, built (my_store j).
Proof.
  intro j. unfold my_store. destruct (Nat.eqb j 0).
  - exists [OAdd 10 0; OAdd 20 1; OAdd 30 1], [RBool true; RBool true; RBool true]. reflexivity.
  - exists [], []. reflexivity.
Qed.

(* The full claim "Solve leaves the caller's orderings as they were" is false:
   block 30 is held constant during the first solve and is gone from the ordering
   afterwards, so that a second solve with block 30 variable again fails. *)
Theorem ordering_changed_refuted :
  exists q a h okf h', (forall j, built (h j)) /\ Solve q a h = Finished okf h' /\ ~ unchanged h h' /\
    okf = true /\
    (exists a', kept_blocks a' = [10; 20; 30] /\ removed_blocks a' = [] /\
       (exists h1, Solve q a' h = Finished true h1) /\ exists h2, Solve q a' h' = Finished false h2).
Proof.
  exists dense_schur, (all_fine [30] [10; 20] [] 0), my_store, true.
  eexists. split; [exact my_store_built|]. split; [reflexivity|]. split.
  - intro U. specialize (U 0%nat 30). discriminate U.
  - split; [reflexivity|]. exists (all_fine [] [10; 20; 30] [] 0).
    split; [reflexivity|]. split; [reflexivity|]. split; eexists; reflexivity.
Qed.
Print Assumptions ordering_changed_refuted.

(* Without any constant block: an ordering with one group is regrouped. *)
Theorem single_group_regrouped_refuted :
  exists q a h h', Solve q a h = Finished true h' /\ removed_blocks a = [] /\
    group_id 30 (h 0%nat) = 0 /\ group_id 30 (h' 0%nat) = 1.
Proof.
  exists dense_schur, (all_fine [] [10; 20; 30] [10; 20; 30] 2),
    (fun _ => of_calls [OAdd 10 0; OAdd 20 0; OAdd 30 0]).
  eexists. split; [reflexivity|]. split; [reflexivity|]. split; reflexivity.
Qed.
Print Assumptions single_group_regrouped_refuted.

(* An empty ordering aborts the process. *)
Theorem empty_ordering_aborts_refuted :
  exists q a h, (forall j, built (h j)) /\ Solve q a h = Aborts.
Proof.
  exists dense_schur, (all_fine [] [10; 20] [10; 20] 1), (fun _ => og_empty).
  split; [intro j; exists [], []; reflexivity|reflexivity].
Qed.
Print Assumptions empty_ordering_aborts_refuted.

(* a run satisfying the hypotheses of the first theorem *)
Example nothing_removed :
  exists h', Solve dense_schur (all_fine [] [10; 20; 30] [] 0) my_store = Finished true h' /\
    unchanged my_store h'.
Proof.
  eexists. split; [reflexivity|].
  eapply (orderings_unchanged_without_removed_blocks dense_schur (all_fine [] [10; 20; 30] [] 0) my_store true).
  - exact my_store_built.
  - reflexivity.
  - intros i e _ [].
  - intros _ i Hi. inversion Hi; subst. discriminate.
Qed.
