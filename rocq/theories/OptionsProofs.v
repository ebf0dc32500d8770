(* Proofs about Solver::Options::IsValid. *)

From Coq Require Import String ZArith List Bool Lia.
From Verif Require Import Dbl EnumModel OptionsModel OptionsSpec.
Import ListNotations.
Local Open Scope Z_scope.

Lemma need_valid : forall c m r, need c m r = Valid <-> c = true /\ r = Valid.
Proof. intros c m r. unfold need. destruct c; split; intro H; [auto|apply H|discriminate|destruct H; discriminate]. Qed.

Lemma need_invalid : forall c m r t, need c m r = Invalid t ->
  (c = false /\ t = m) \/ (c = true /\ r = Invalid t).
Proof. intros c m r t. unfold need. destruct c; intro H; [auto|]. inversion H; auto. Qed.

Lemma need_fatal : forall c m r, need c m r = Fatal <-> c = true /\ r = Fatal.
Proof. intros c m r. unfold need. destruct c; split; intro H; [auto|apply H|discriminate|destruct H; discriminate]. Qed.

Lemma then_valid : forall r s, andThen r s = Valid <-> r = Valid /\ s = Valid.
Proof. intros r s. destruct r; cbn [andThen]; split; intro H; auto; try discriminate; destruct H; auto; discriminate. Qed.

Lemma then_invalid : forall r s t, andThen r s = Invalid t ->
  r = Invalid t \/ (r = Valid /\ s = Invalid t).
Proof. intros r s t. destruct r; cbn [andThen]; intro H; auto. Qed.

Lemma then_fatal : forall r s, andThen r s = Fatal <-> r = Fatal \/ (r = Valid /\ s = Fatal).
Proof.
  intros r s. destruct r; cbn [andThen]; split; intro H; auto; try discriminate;
    destruct H as [H|[H H']]; auto; discriminate.
Qed.

Lemma if_valid : forall (c : bool) (r : result),
  (if c then r else Valid) = Valid <-> (c = true -> r = Valid).
Proof. intros c r. destruct c; split; intro H; auto; discriminate. Qed.

Lemma if_invalid : forall (c : bool) (r : result) t,
  (if c then r else Valid) = Invalid t -> c = true /\ r = Invalid t.
Proof. intros c r t. destruct c; intro H; auto; discriminate. Qed.

Lemma if_fatal : forall (c : bool) (r : result),
  (if c then r else Valid) = Fatal <-> c = true /\ r = Fatal.
Proof. intros c r. destruct c; split; intro H; auto; try discriminate; destruct H; auto; discriminate. Qed.

(* a list of rules, one by one *)
Fixpoint all_of (l : list rule) (o : options) : Prop :=
  match l with [] => True | r :: rest => snd r o /\ all_of rest o end.

Lemma all_of_iff : forall l o, all_of l o <-> (forall r, In r l -> satisfied o r).
Proof.
  induction l as [|a l IH]; intros o; cbn [all_of].
  - split; [intros _ r []|auto].
  - rewrite IH. split.
    + intros [H1 H2] r [E|Hin]; [subst; exact H1|apply H2; exact Hin].
    + intro H. split; [apply H; left; reflexivity|intros r Hr; apply H; right; exact Hr].
Qed.

Lemma negb_andb_imp : forall a b, negb (a && b) = true <-> (a = true -> b = false).
Proof. intros [|] [|]; cbn; intuition congruence. Qed.

(* ---- the common rules ---- *)

Lemma common_ok : forall o, CommonOptionsAreValid o = Valid <-> all_of common_rules o.
Proof.
  intro o. unfold CommonOptionsAreValid. rewrite !need_valid, if_valid, !need_valid.
  cbn [all_of common_rules snd]. rewrite !Z.leb_le, !Z.ltb_lt.
  unfold nonnegative, positive, le, lt, zero. tauto.
Qed.

Lemma line_search_ok : forall o, LineSearchOptionsAreValid o = Valid <-> all_of line_search_rules o.
Proof.
  intro o. unfold LineSearchOptionsAreValid. rewrite !need_valid.
  cbn [all_of line_search_rules snd]. rewrite !Z.ltb_lt.
  unfold nonnegative, positive, le, lt, zero, uses_trust_region.
  assert (A : ((if (minimizer_type o =? TRUST_REGION)%Z then 0 else 1) <=?
        max_num_line_search_step_size_iterations o)%Z = true <->
       (0 <= max_num_line_search_step_size_iterations o /\
                (~ minimizer_type o = TRUST_REGION -> 1 <= max_num_line_search_step_size_iterations o))).
  { destruct (Z.eqb_spec (minimizer_type o) TRUST_REGION) as [E|E]; rewrite Z.leb_le; split; intro H; lia. }
  rewrite A.
  assert (B : negb (((line_search_direction_type o =? BFGS)%Z || (line_search_direction_type o =? LBFGS)%Z) &&
              negb (line_search_type o =? WOLFE)%Z) = true <->
              (line_search_direction_type o = BFGS \/ line_search_direction_type o = LBFGS ->
                line_search_type o = WOLFE)).
  { rewrite negb_andb_imp, orb_true_iff, !Z.eqb_eq, negb_false_iff, Z.eqb_eq. reflexivity. }
  rewrite B. tauto.
Qed.

(* ---- the linear solver ---- *)

Lemma dense_available : forall b lib,
  IsDenseLinearAlgebraLibraryTypeAvailable b lib = true <->
  (lib = EIGEN \/ (lib = LAPACK /\ no_lapack b = false) \/ (lib = CUDA /\ no_cuda b = false)).
Proof.
  intros b lib. unfold IsDenseLinearAlgebraLibraryTypeAvailable.
  destruct (Z.eqb_spec lib EIGEN) as [->|N1]; [tauto|].
  destruct (Z.eqb_spec lib LAPACK) as [->|N2].
  { destruct (no_lapack b); cbn; split; intro H; auto; try discriminate.
    destruct H as [H|[[_ H]|[H _]]]; discriminate. }
  destruct (Z.eqb_spec lib CUDA) as [->|N3].
  { destruct (no_cuda b); cbn; split; intro H; auto; try discriminate.
    destruct H as [H|[[H _]|[_ H]]]; discriminate. }
  split; [discriminate|]. tauto.
Qed.

Lemma sparse_available : forall b lib,
  (if IsSparseLinearAlgebraLibraryTypeAvailable (libs b) lib
   then if (lib =? CUDA_SPARSE)%Z then negb (no_cudss b) else true else false) = true <->
  sparse_cholesky_built b lib.
Proof.
  intros b lib. unfold IsSparseLinearAlgebraLibraryTypeAvailable, sparse_cholesky_built.
  destruct (Z.eqb_spec lib SUITE_SPARSE) as [->|N1].
  { cbn. destruct (no_suitesparse (libs b)); cbn; split; intro H; auto; try discriminate.
    destruct H as [[_ H]|[[H _]|[[H _]|[[H _]|H]]]]; discriminate. }
  destruct (Z.eqb_spec lib ACCELERATE_SPARSE) as [->|N2].
  { cbn. destruct (no_accelerate (libs b)); cbn; split; intro H; auto; try discriminate.
    destruct H as [[H _]|[[_ H]|[[H _]|[[H _]|H]]]]; discriminate. }
  destruct (Z.eqb_spec lib EIGEN_SPARSE) as [->|N3].
  { cbn. destruct (use_eigen_sparse (libs b)); cbn; split; intro H; auto; try discriminate.
    destruct H as [[H _]|[[H _]|[[_ H]|[[H _]|H]]]]; discriminate. }
  destruct (Z.eqb_spec lib CUDA_SPARSE) as [->|N4].
  { cbn. destruct (no_cuda (libs b)), (no_cudss b); cbn; split; intro H; auto 10; try discriminate;
    destruct H as [[H _]|[[H _]|[[H _]|[[_ [H1 H2]]|H]]]]; discriminate. }
  destruct (Z.eqb_spec lib NO_SPARSE) as [->|N5]; [tauto|].
  split; [discriminate|]. tauto.
Qed.

Lemma nesdis_available : forall b lib, IsNestedDissectionAvailable b lib = true <-> nested_dissection_built b lib.
Proof.
  intros b lib. unfold IsNestedDissectionAvailable, nested_dissection_built.
  rewrite !orb_true_iff, !andb_true_iff, !Z.eqb_eq.
  destruct (no_cudss b); [|rewrite andb_true_iff, Z.eqb_eq; tauto].
  split; [intros [[[H|H]|H]|H]; auto; discriminate|].
  intros [H|[H|[H|[_ [H _]]]]]; auto; discriminate.
Qed.

(* what OptionsAreValidForSparseCholeskyBasedSolver demands *)
Definition sparse_demands (b : build2) (o : options) : Prop :=
  sparse_linear_algebra_library_type o <> NO_SPARSE /\
  sparse_cholesky_built b (sparse_linear_algebra_library_type o) /\
  (linear_solver_ordering_type o = NESDIS ->
   nested_dissection_built b (sparse_linear_algebra_library_type o)) /\
  (no_cholmod_float b = true -> use_mixed_precision_solves o = true ->
   sparse_linear_algebra_library_type o <> SUITE_SPARSE) /\
  (dynamic_sparsity o = true -> sparse_linear_algebra_library_type o <> ACCELERATE_SPARSE).

Lemma sparse_ok : forall b o,
  OptionsAreValidForSparseCholeskyBasedSolver b o = Valid <-> sparse_demands b o.
Proof.
  intros b o. unfold OptionsAreValidForSparseCholeskyBasedSolver, sparse_demands.
  cbv zeta. rewrite !need_valid, sparse_available, !negb_andb_imp, negb_true_iff, Z.eqb_neq.
  rewrite negb_false_iff, nesdis_available, !Z.eqb_neq, Z.eqb_eq, andb_true_iff. tauto.
Qed.

Ltac solver_cases o E :=
  unfold needs_dense_library, needs_sparse_cholesky, solver_is; rewrite E; cbn [In].

Definition iterative_demands (b : build2) (o : options) : Prop :=
  dynamic_sparsity o = false /\
  (use_explicit_schur_complement o = true -> preconditioner_type o = SCHUR_JACOBI) /\
  (use_explicit_schur_complement o = true -> use_spse_initialization o = false) /\
  (uses_power_series o -> 1 <= max_num_spse_iterations o) /\
  (uses_power_series o -> nonnegative (spse_tolerance o)) /\
  use_mixed_precision_solves o = false /\
  preconditioner_type o <> SUBSET /\
  (preconditioner_type o = CLUSTER_JACOBI \/ preconditioner_type o = CLUSTER_TRIDIAGONAL ->
   sparse_demands b o).

Lemma power_series_b : forall o,
  (use_spse_initialization o || (preconditioner_type o =? SCHUR_POWER_SERIES_EXPANSION)%Z) = true <->
  uses_power_series o.
Proof.
  intro o. unfold uses_power_series, preconditioner_is. rewrite orb_true_iff, Z.eqb_eq. cbn [In].
  split; (intros [H|H]; [left; exact H|right]); [left; auto|]. destruct H as [H|[]]; auto.
Qed.

Lemma iterative_ok : forall b o, linear_solver_type o = ITERATIVE_SCHUR ->
  OptionsAreValidForIterativeSchur b o = Valid <-> iterative_demands b o.
Proof.
  intros b o E. unfold OptionsAreValidForIterativeSchur, checkType, iterative_demands. rewrite E, Z.eqb_refl.
  repeat (rewrite need_valid || rewrite then_valid || rewrite if_valid). rewrite power_series_b, !negb_true_iff.
  rewrite orb_true_iff, !Z.eqb_eq, Z.eqb_neq, sparse_ok, Z.leb_le.
  unfold nonnegative, le, zero. tauto.
Qed.

Definition cgnr_demands (b : build2) (o : options) : Prop :=
  (preconditioner_type o = IDENTITY \/ preconditioner_type o = JACOBI \/ preconditioner_type o = SUBSET) /\
  use_mixed_precision_solves o = false /\ dynamic_sparsity o = false /\
  (preconditioner_type o = SUBSET -> sparse_linear_algebra_library_type o <> CUDA_SPARSE) /\
  (preconditioner_type o = SUBSET -> num_subset_blocks o <> 0%nat) /\
  (preconditioner_type o = SUBSET -> sparse_demands b o) /\
  (sparse_linear_algebra_library_type o = CUDA_SPARSE -> no_cuda (libs b) = false).

Lemma three_ways : forall a b c : bool, negb (negb a && negb b && negb c) = true <->
  a = true \/ b = true \/ c = true.
Proof. intros [|] [|] [|]; cbn; split; intro H; auto; try discriminate. destruct H as [H|[H|H]]; discriminate. Qed.

Lemma cgnr_ok : forall b o, linear_solver_type o = CGNR ->
  OptionsAreValidForCgnr b o = Valid <-> cgnr_demands b o.
Proof.
  intros b o E. unfold OptionsAreValidForCgnr, checkType, cgnr_demands. rewrite E, Z.eqb_refl.
  repeat (rewrite need_valid || rewrite then_valid || rewrite if_valid). rewrite three_ways, !negb_true_iff.
  rewrite !Z.eqb_eq, Z.eqb_neq, sparse_ok, Nat.eqb_neq.
  change (IsSparseLinearAlgebraLibraryTypeAvailable (libs b) CUDA_SPARSE) with (negb (no_cuda (libs b))).
  rewrite negb_true_iff. tauto.
Qed.

Lemma solver_in_b : forall o l, solver_is o l <-> existsb (Z.eqb (linear_solver_type o)) l = true.
Proof.
  intros o l. unfold solver_is. rewrite existsb_exists. split.
  - intro H. exists (linear_solver_type o). split; [exact H|apply Z.eqb_refl].
  - intros [x [H E]]. apply Z.eqb_eq in E. rewrite E. exact H.
Qed.

Lemma precond_one : forall o a, preconditioner_is o [a] <-> preconditioner_type o = a.
Proof. intros o a. unfold preconditioner_is. cbn [In]. intuition congruence. Qed.
Lemma precond_two : forall o a b, preconditioner_is o [a; b] <->
  preconditioner_type o = a \/ preconditioner_type o = b.
Proof. intros o a b. unfold preconditioner_is. cbn [In]. intuition congruence. Qed.
Lemma precond_three : forall o a b c, preconditioner_is o [a; b; c] <->
  preconditioner_type o = a \/ preconditioner_type o = b \/ preconditioner_type o = c.
Proof. intros o a b c. unfold preconditioner_is. cbn [In]. intuition congruence. Qed.

(* decide the statements [solver_is o l] once the solver is known *)
Ltac decide_solver E :=
  repeat match goal with
  | |- context [solver_is ?o ?l] =>
      let H := fresh in
      first
        [ assert (H : solver_is o l <-> True)
            by (rewrite solver_in_b, E; split; [auto|intros _; reflexivity]); rewrite H; clear H
        | assert (H : solver_is o l <-> False)
            by (rewrite solver_in_b, E; split; [discriminate|intros []]); rewrite H; clear H ]
  end.

Lemma linear_ok : forall b o,
  OptionsAreValidForLinearSolver b o = Valid <->
  known_solver o /\ all_of (linear_solver_rules b) o.
Proof.
  intros b o. unfold OptionsAreValidForLinearSolver. cbv zeta.
  cbn [all_of linear_solver_rules snd]. unfold known_solver, needs_dense_library, needs_sparse_cholesky.
  rewrite !precond_one, !precond_two, !precond_three.
  destruct (Z.eqb_spec (linear_solver_type o) DENSE_NORMAL_CHOLESKY) as [E|N1].
  { decide_solver E. unfold OptionsAreValidForDenseNormalCholesky, checkType, OptionsAreValidForDenseSolver.
    rewrite E, Z.eqb_refl, need_valid, dense_available. unfold dense_library_built. tauto. }
  destruct (Z.eqb_spec (linear_solver_type o) DENSE_QR) as [E|N2].
  { decide_solver E. unfold OptionsAreValidForDenseQr, checkType, OptionsAreValidForDenseSolver.
    rewrite E, Z.eqb_refl, then_valid, !need_valid, dense_available, negb_true_iff.
    unfold dense_library_built. tauto. }
  destruct (Z.eqb_spec (linear_solver_type o) SPARSE_NORMAL_CHOLESKY) as [E|N3].
  { decide_solver E. unfold OptionsAreValidForSparseNormalCholesky, checkType.
    rewrite E, Z.eqb_refl, sparse_ok. unfold sparse_demands. tauto. }
  destruct (Z.eqb_spec (linear_solver_type o) DENSE_SCHUR) as [E|N4].
  { decide_solver E. unfold OptionsAreValidForDenseSchur, checkType, OptionsAreValidForDenseSolver.
    rewrite E, Z.eqb_refl, need_valid, then_valid, need_valid, dense_available, negb_true_iff.
    unfold dense_library_built. tauto. }
  destruct (Z.eqb_spec (linear_solver_type o) SPARSE_SCHUR) as [E|N5].
  { decide_solver E. unfold OptionsAreValidForSparseSchur, checkType.
    rewrite E, Z.eqb_refl, need_valid, negb_true_iff, sparse_ok. unfold sparse_demands. tauto. }
  destruct (Z.eqb_spec (linear_solver_type o) ITERATIVE_SCHUR) as [E|N6].
  { decide_solver E. rewrite (iterative_ok b o E). unfold iterative_demands, sparse_demands. tauto. }
  destruct (Z.eqb_spec (linear_solver_type o) CGNR) as [E|N7].
  { decide_solver E. rewrite (cgnr_ok b o E). unfold cgnr_demands, sparse_demands. tauto. }
  split; [discriminate|]. intros [H _]. exfalso. unfold solver_is in H. cbn [In] in H.
  repeat (destruct H as [H|H]; [congruence|]). destruct H.
Qed.

Lemma trust_region_ok : forall b o,
  TrustRegionOptionsAreValid b o = Valid <->
  all_of trust_region_rules o /\ known_solver o /\ all_of (linear_solver_rules b) o.
Proof.
  intros b o. rewrite <- linear_ok. unfold TrustRegionOptionsAreValid.
  repeat (rewrite need_valid || rewrite then_valid || rewrite if_valid).
  generalize (OptionsAreValidForLinearSolver b o = Valid). intro L.
  cbn [all_of trust_region_rules snd].
  assert (D : negb ((trust_region_strategy_type o =? DOGLEG)%Z && IsIterativeSolver (linear_solver_type o)) = true <->
              (trust_region_strategy_type o = DOGLEG -> ~ solver_is o [CGNR; ITERATIVE_SCHUR])).
  { rewrite negb_andb_imp, Z.eqb_eq, solver_in_b. unfold IsIterativeSolver. cbn [existsb].
    rewrite orb_false_r. rewrite <- not_true_iff_false. reflexivity. }
  assert (F : negb (negb (match trust_region_minimizer_iterations_to_dump o with [] => true | _ => false end) &&
              negb (trust_region_problem_dump_format_type o =? CONSOLE)%Z &&
              String.eqb (trust_region_problem_dump_directory o) "") = true <->
       (trust_region_minimizer_iterations_to_dump o <> [] ->
                trust_region_problem_dump_format_type o <> CONSOLE ->
                trust_region_problem_dump_directory o <> ""%string)).
  { rewrite negb_andb_imp, andb_true_iff, !negb_true_iff, Z.eqb_neq, String.eqb_neq.
    destruct (trust_region_minimizer_iterations_to_dump o) as [|a l].
    - split; [intros _ H; exfalso; apply H; reflexivity|intros _ [H _]; discriminate].
    - split; [intros H _ H2; apply H; auto|intros H [_ H2]; apply H; auto; discriminate]. }
  rewrite D, F, !Z.leb_le, Z.ltb_lt. unfold nonnegative, positive, le, lt, zero. tauto.
Qed.

Theorem valid_iff : forall b o, IsValid b o = Valid <-> acceptable b o.
Proof.
  intros b o. unfold IsValid. rewrite !then_valid, if_valid, common_ok, line_search_ok, trust_region_ok, Z.eqb_eq.
  rewrite !all_of_iff. unfold acceptable, applies, uses_trust_region. split.
  - intros [H1 [H2 H3]]. split.
    + intros r [H|[H|[T Q]]]; [apply H1; exact H|apply H3; exact H|].
      destruct (H2 T) as [A [_ B]]. destruct Q as [H|H]; [apply A|apply B]; exact H.
    + intro T. apply (H2 T).
  - intros [H K]. split; [intros r Hr; apply H; auto|]. split; [|intros r Hr; apply H; auto].
    intro T. split; [intros r Hr; apply H; auto|]. split; [auto|intros r Hr; apply H; auto 6].
Qed.

(* ---- rejection ---- *)

Fixpoint blames (l : list rule) (o : options) (t : string) : Prop :=
  match l with [] => False | r :: rest => (t = fst r o /\ ~ snd r o) \/ blames rest o t end.

Lemma blames_spec : forall l o t, blames l o t ->
  exists r, In r l /\ ~ satisfied o r /\ t = fst r o.
Proof.
  induction l as [|a l IH]; intros o t; cbn [blames]; [intros []|].
  intros [[E N]|H].
  - exists a. split; [left; reflexivity|split; [exact N|exact E]].
  - destruct (IH o t H) as [r [H1 H2]]. exists r. split; [right; exact H1|exact H2].
Qed.

Lemma leb_not : forall a b, (a <=? b) = false -> ~ a <= b.
Proof. intros a b H. apply Z.leb_gt in H. lia. Qed.
Lemma ltb_not : forall a b, (a <? b) = false -> ~ a < b.
Proof. intros a b H. apply Z.ltb_ge in H. lia. Qed.
Lemma le_not : forall a b, dle a b = false -> ~ le a b.
Proof. unfold le. congruence. Qed.
Lemma lt_not : forall a b, dlt a b = false -> ~ lt a b.
Proof. unfold lt. congruence. Qed.
Lemma imp_not : forall (A B : Prop), A -> ~ B -> ~ (A -> B).
Proof. tauto. Qed.

Ltac blame_easy :=
  first [ assumption
        | apply leb_not; assumption | apply ltb_not; assumption
        | apply le_not; assumption | apply lt_not; assumption
        | apply imp_not; [assumption|blame_easy] ].

(* go to the rule with this text *)
Ltac find_rule := first [ left; split; [reflexivity|] | right; find_rule ].

Ltac split_need H :=
  let N := fresh "N" in let T := fresh "T" in
  apply need_invalid in H; destruct H as [[N T]|[N H]];
  [rewrite T; clear T|].

Ltac split_as H N :=
  try clear N;
  let T := fresh "T" in
  apply need_invalid in H; destruct H as [[N T]|[N H]];
  [rewrite T; clear T|].

Lemma common_bad : forall o t, CommonOptionsAreValid o = Invalid t -> blames common_rules o t.
Proof.
  intros o t H. unfold CommonOptionsAreValid in H. cbn [blames common_rules fst snd]. unfold text.
  do 6 (split_need H; [find_rule; blame_easy|]).
  apply if_invalid in H. destruct H as [C H].
  do 2 (split_need H; [find_rule; blame_easy|]). discriminate.
Qed.

Lemma line_search_bad : forall o t, LineSearchOptionsAreValid o = Invalid t -> blames line_search_rules o t.
Proof.
  intros o t H. unfold LineSearchOptionsAreValid in H. cbn [blames line_search_rules fst snd]. unfold text.
  do 6 (split_need H; [find_rule; blame_easy|]).
  split_need H; [find_rule|].
  { apply Z.leb_gt in N5. unfold uses_trust_region.
    destruct (Z.eqb_spec (minimizer_type o) TRUST_REGION) as [E|E]; intros [H1 H2]; [lia|].
    specialize (H2 E). lia. }
  do 4 (split_need H; [find_rule; blame_easy|]).
  split_need H; [find_rule|discriminate].
  intro Q. apply negb_false_iff in N10. apply andb_true_iff in N10. destruct N10 as [A B].
  rewrite orb_true_iff, !Z.eqb_eq in A. apply negb_true_iff, Z.eqb_neq in B. auto.
Qed.

Lemma and_not : forall a b : bool, negb (a && b) = false -> a = true /\ b = true.
Proof. intros a b H. apply negb_false_iff in H. apply andb_true_iff in H. exact H. Qed.

Lemma sparse_bad : forall b o t, needs_sparse_cholesky o ->
  OptionsAreValidForSparseCholeskyBasedSolver b o = Invalid t -> blames (linear_solver_rules b) o t.
Proof.
  intros b o t NS H. unfold OptionsAreValidForSparseCholeskyBasedSolver in H. cbv zeta in H.
  cbn [blames linear_solver_rules fst snd]. unfold text, library_name.
  assert (I : IsIterativeSolver (linear_solver_type o) = true <-> solver_is o [CGNR; ITERATIVE_SCHUR]).
  { rewrite solver_in_b. unfold IsIterativeSolver. cbn [existsb]. rewrite orb_false_r. reflexivity. }
  split_need H.
  { apply negb_false_iff, Z.eqb_eq in N.
    destruct (IsIterativeSolver (linear_solver_type o)) eqn:EI.
    - right; left. split; [reflexivity|]. intro Q. apply Q; [exact NS|apply I; reflexivity|exact N].
    - right; right; left. split; [reflexivity|]. intro Q.
      apply Q; [exact NS|rewrite <- I; discriminate|exact N]. }
  split_need H.
  { assert (NB : ~ sparse_cholesky_built b (sparse_linear_algebra_library_type o))
      by (rewrite <- sparse_available, N0; discriminate).
    destruct (IsIterativeSolver (linear_solver_type o)) eqn:EI.
    - right; right; right; left. split; [reflexivity|]. intro Q. apply NB, Q; [exact NS|apply I; reflexivity].
    - right; right; right; right; left. split; [reflexivity|]. intro Q.
      apply NB, Q; [exact NS|rewrite <- I; discriminate]. }
  split_need H.
  { apply and_not in N1. destruct N1 as [A B]. apply Z.eqb_eq in A. apply negb_true_iff in B.
    do 5 right; left. split; [reflexivity|]. intro Q. specialize (Q NS A).
    apply nesdis_available in Q. congruence. }
  split_need H.
  { apply and_not in N2. destruct N2 as [A B]. apply andb_true_iff in A. destruct A as [A1 A2].
    apply Z.eqb_eq in B. do 6 right; left. split; [reflexivity|]. intro Q. exact (Q NS A1 A2 B). }
  split_need H; [|discriminate].
  apply and_not in N3. destruct N3 as [A B]. apply Z.eqb_eq in B.
  do 7 right; left. split; [reflexivity|]. intro Q. exact (Q NS A B).
Qed.

Lemma dense_bad : forall b o t, needs_dense_library o ->
  OptionsAreValidForDenseSolver b o = Invalid t -> blames (linear_solver_rules b) o t.
Proof.
  intros b o t ND H. unfold OptionsAreValidForDenseSolver in H.
  cbn [blames linear_solver_rules fst snd]. split_need H; [|discriminate].
  left. split; [reflexivity|]. intro Q. specialize (Q ND).
  unfold dense_library_built in Q. apply dense_available in Q. congruence.
Qed.

Lemma solver_one : forall o l c, linear_solver_type o = c -> In c l -> solver_is o l.
Proof. intros o l c E H. unfold solver_is. rewrite E. exact H. Qed.

Ltac member := cbn [In]; repeat (first [left; reflexivity | right]).
Ltac solver E := eapply solver_one; [exact E|member].

Lemma linear_bad : forall b o t,
  OptionsAreValidForLinearSolver b o = Invalid t -> blames (linear_solver_rules b) o t.
Proof.
  intros b o t H. unfold OptionsAreValidForLinearSolver in H. cbv zeta in H.
  destruct (Z.eqb_spec (linear_solver_type o) DENSE_NORMAL_CHOLESKY) as [E|N1].
  { unfold OptionsAreValidForDenseNormalCholesky, checkType in H. rewrite E, Z.eqb_refl in H.
    apply dense_bad; [solver E|exact H]. }
  destruct (Z.eqb_spec (linear_solver_type o) DENSE_QR) as [E|N2].
  { unfold OptionsAreValidForDenseQr, checkType in H. rewrite E, Z.eqb_refl in H.
    apply then_invalid in H. destruct H as [H|[_ H]]; [apply dense_bad; [solver E|exact H]|].
    cbn [blames linear_solver_rules fst snd]. unfold text.
    split_as H K; [|discriminate]. apply negb_false_iff in K. find_rule.
    intro Q. rewrite Q in K; [discriminate|solver E]. }
  destruct (Z.eqb_spec (linear_solver_type o) SPARSE_NORMAL_CHOLESKY) as [E|N3].
  { unfold OptionsAreValidForSparseNormalCholesky, checkType in H. rewrite E, Z.eqb_refl in H.
    apply sparse_bad; [left; solver E|exact H]. }
  destruct (Z.eqb_spec (linear_solver_type o) DENSE_SCHUR) as [E|N4].
  { unfold OptionsAreValidForDenseSchur, checkType in H. rewrite E, Z.eqb_refl in H.
    split_as H K.
    - cbn [blames linear_solver_rules fst snd]. unfold text. apply negb_false_iff in K. find_rule.
      intro Q. rewrite Q in K; [discriminate|solver E].
    - apply then_invalid in H. destruct H as [H|[_ H]]; [|discriminate].
      apply dense_bad; [solver E|exact H]. }
  destruct (Z.eqb_spec (linear_solver_type o) SPARSE_SCHUR) as [E|N5].
  { unfold OptionsAreValidForSparseSchur, checkType in H. rewrite E, Z.eqb_refl in H.
    split_as H K.
    - cbn [blames linear_solver_rules fst snd]. unfold text. apply negb_false_iff in K. find_rule.
      intro Q. rewrite Q in K; [discriminate|solver E].
    - apply sparse_bad; [left; solver E|exact H]. }
  destruct (Z.eqb_spec (linear_solver_type o) ITERATIVE_SCHUR) as [E|N6].
  { assert (S : solver_is o [ITERATIVE_SCHUR]) by (solver E).
    unfold OptionsAreValidForIterativeSchur, checkType in H. rewrite E, Z.eqb_refl in H.
    assert (Dyn : dynamic_sparsity o = true -> blames (linear_solver_rules b) o
              "Dynamic sparsity is only supported with SPARSE_NORMAL_CHOLESKY."%string).
    { intro D. cbn [blames linear_solver_rules fst snd]. unfold text. find_rule.
      intro Q. rewrite Q in D; [discriminate|solver E]. }
    split_as H K; [apply Dyn; apply negb_false_iff; assumption|clear K].
    apply then_invalid in H. destruct H as [H|[_ H]].
    { apply if_invalid in H. destruct H as [C H]. cbn [blames linear_solver_rules fst snd]. unfold text.
      split_as H K.
      - find_rule. intro Q. specialize (Q S C). rewrite precond_one in Q. apply Z.eqb_neq in K. auto.
      - split_as H K; [|discriminate]. apply negb_false_iff in K. find_rule.
        intro Q. rewrite (Q S C) in K. discriminate. }
    apply then_invalid in H. destruct H as [H|[_ H]].
    { apply if_invalid in H. destruct H as [C H]. apply power_series_b in C.
      cbn [blames linear_solver_rules fst snd]. unfold text.
      split_as H K.
      - find_rule. intro Q. specialize (Q S C). apply Z.leb_gt in K. lia.
      - split_as H K; [|discriminate]. find_rule.
        intro Q. specialize (Q S C). apply le_not in K. exact (K Q). }
    split_as H K.
    { apply negb_false_iff in K. cbn [blames linear_solver_rules fst snd]. unfold text. find_rule.
      intro Q. rewrite (Q S) in K. discriminate. }
    split_as H K; [apply Dyn; apply negb_false_iff; assumption|clear K].
    split_as H K.
    { cbn [blames linear_solver_rules fst snd]. unfold text. find_rule.
      intro Q. specialize (Q S). rewrite precond_one in Q.
      apply Q. apply negb_false_iff, Z.eqb_eq in K. exact K. }
    apply if_invalid in H. destruct H as [C H]. apply sparse_bad; [|exact H].
    right; left. split; [exact S|]. rewrite precond_two. rewrite orb_true_iff, !Z.eqb_eq in C. exact C. }
  destruct (Z.eqb_spec (linear_solver_type o) CGNR) as [E|N7]; [|discriminate].
  assert (S : solver_is o [CGNR]) by (solver E).
  unfold OptionsAreValidForCgnr, checkType in H. rewrite E, Z.eqb_refl in H.
  split_as H K.
  { cbn [blames linear_solver_rules fst snd]. unfold text. find_rule.
    intro Q. specialize (Q S). rewrite precond_three, <- !Z.eqb_eq, <- three_ways in Q. congruence. }
  split_as H K.
  { apply negb_false_iff in K. cbn [blames linear_solver_rules fst snd]. unfold text. find_rule.
    intro Q. rewrite (Q S) in K. discriminate. }
  split_as H K.
  { apply negb_false_iff in K. cbn [blames linear_solver_rules fst snd]. unfold text. find_rule.
    intro Q. rewrite Q in K; [discriminate|solver E]. }
  apply then_invalid in H. destruct H as [H|[_ H]].
  - apply if_invalid in H. destruct H as [C H]. apply Z.eqb_eq, precond_one in C.
    split_as H K.
    { apply negb_false_iff, Z.eqb_eq in K. cbn [blames linear_solver_rules fst snd]. unfold text. find_rule.
      intro Q. exact (Q S C K). }
    split_as H K.
    { apply negb_false_iff, Nat.eqb_eq in K. cbn [blames linear_solver_rules fst snd]. unfold text. find_rule.
      intro Q. exact (Q S C K). }
    apply then_invalid in H. destruct H as [H|[_ H]]; [|discriminate].
    apply sparse_bad; [|exact H]. right; right. split; [exact S|exact C].
  - apply if_invalid in H. destruct H as [C H]. apply Z.eqb_eq in C.
    split_as H K; [|discriminate].
    change (IsSparseLinearAlgebraLibraryTypeAvailable (libs b) CUDA_SPARSE) with (negb (no_cuda (libs b))) in K.
    apply negb_false_iff in K. cbn [blames linear_solver_rules fst snd]. unfold text. find_rule.
    intro Q. rewrite (Q S C) in K. discriminate.
Qed.

Lemma trust_region_bad : forall b o t, TrustRegionOptionsAreValid b o = Invalid t ->
  blames trust_region_rules o t \/ blames (linear_solver_rules b) o t.
Proof.
  intros b o t H. unfold TrustRegionOptionsAreValid in H.
  do 15 (split_need H; [left; cbn [blames trust_region_rules fst snd]; unfold text; find_rule; blame_easy|]).
  apply then_invalid in H. destruct H as [H|[_ H]].
  { left. apply if_invalid in H. destruct H as [C H]. split_need H; [|discriminate].
    cbn [blames trust_region_rules fst snd]; unfold text; find_rule; blame_easy. }
  apply then_invalid in H. destruct H as [H|[_ H]].
  { left. apply if_invalid in H. destruct H as [C H]. split_need H; [|discriminate].
    cbn [blames trust_region_rules fst snd]; unfold text; find_rule; blame_easy. }
  split_need H.
  { left. apply and_not in N14. destruct N14 as [A B]. apply Z.eqb_eq in A.
    cbn [blames trust_region_rules fst snd]; unfold text; find_rule.
    intro Q. apply (Q A). rewrite solver_in_b. cbn [existsb]. rewrite orb_false_r. exact B. }
  apply then_invalid in H. destruct H as [H|[_ H]]; [right; apply linear_bad; exact H|].
  left. split_need H; [|discriminate].
  apply and_not in N15. destruct N15 as [A B]. apply andb_true_iff in A. destruct A as [A1 A2].
  apply negb_true_iff in A1, A2. apply Z.eqb_neq in A2. apply String.eqb_eq in B.
  cbn [blames trust_region_rules fst snd]; unfold text; find_rule.
  intro Q. apply Q; [|exact A2|exact B].
  intro Z0. rewrite Z0 in A1. discriminate.
Qed.

Theorem invalid_blames : forall b o t, IsValid b o = Invalid t ->
  exists r, applies b o r /\ ~ satisfied o r /\ t = fst r o.
Proof.
  intros b o t H. unfold IsValid in H. apply then_invalid in H. destruct H as [H|[_ H]].
  { destruct (blames_spec _ _ _ (common_bad o t H)) as [r [H1 H2]]. exists r.
    split; [left; exact H1|exact H2]. }
  apply then_invalid in H. destruct H as [H|[_ H]].
  - apply if_invalid in H. destruct H as [C H]. apply Z.eqb_eq in C.
    destruct (trust_region_bad b o t H) as [B|B]; destruct (blames_spec _ _ _ B) as [r [H1 H2]];
      exists r; (split; [right; right; split; [exact C|auto]|exact H2]).
  - destruct (blames_spec _ _ _ (line_search_bad o t H)) as [r [H1 H2]]. exists r.
    split; [right; left; exact H1|exact H2].
Qed.

(* ---- abort ---- *)

Lemma common_no_fatal : forall o, CommonOptionsAreValid o <> Fatal.
Proof.
  intros o H. unfold CommonOptionsAreValid in H.
  repeat (rewrite need_fatal in H || rewrite if_fatal in H). decompose [and] H. discriminate.
Qed.

Lemma line_search_no_fatal : forall o, LineSearchOptionsAreValid o <> Fatal.
Proof.
  intros o H. unfold LineSearchOptionsAreValid in H.
  repeat (rewrite need_fatal in H). decompose [and] H. discriminate.
Qed.

Lemma sparse_no_fatal : forall b o, OptionsAreValidForSparseCholeskyBasedSolver b o <> Fatal.
Proof.
  intros b o H. unfold OptionsAreValidForSparseCholeskyBasedSolver in H. cbv zeta in H.
  repeat (rewrite need_fatal in H). decompose [and] H. discriminate.
Qed.

Lemma dense_no_fatal : forall b o, OptionsAreValidForDenseSolver b o <> Fatal.
Proof.
  intros b o H. unfold OptionsAreValidForDenseSolver in H. rewrite need_fatal in H. destruct H; discriminate.
Qed.

Lemma linear_fatal : forall b o, OptionsAreValidForLinearSolver b o = Fatal <-> ~ known_solver o.
Proof.
  intros b o. unfold known_solver. rewrite solver_in_b, not_true_iff_false. cbn [existsb].
  rewrite !orb_false_iff. unfold OptionsAreValidForLinearSolver. cbv zeta.
  pose proof (sparse_no_fatal b o) as SF. pose proof (dense_no_fatal b o) as DF.
  destruct (Z.eqb_spec (linear_solver_type o) DENSE_NORMAL_CHOLESKY) as [E|N1].
  { unfold OptionsAreValidForDenseNormalCholesky, checkType. rewrite E, Z.eqb_refl.
    split; [intro H; contradiction|intros [H _]; discriminate]. }
  destruct (Z.eqb_spec (linear_solver_type o) DENSE_QR) as [E|N2].
  { unfold OptionsAreValidForDenseQr, checkType. rewrite E, Z.eqb_refl, then_fatal, need_fatal.
    split; [|intros [_ [H _]]; discriminate]. intros [H|[_ [_ H]]]; [contradiction|discriminate]. }
  destruct (Z.eqb_spec (linear_solver_type o) SPARSE_NORMAL_CHOLESKY) as [E|N3].
  { unfold OptionsAreValidForSparseNormalCholesky, checkType. rewrite E, Z.eqb_refl.
    split; [intro H; contradiction|intros [_ [_ [H _]]]; discriminate]. }
  destruct (Z.eqb_spec (linear_solver_type o) DENSE_SCHUR) as [E|N4].
  { unfold OptionsAreValidForDenseSchur, checkType. rewrite E, Z.eqb_refl, need_fatal, then_fatal.
    split; [|intros [_ [_ [_ [H _]]]]; discriminate]. intros [_ [H|[_ H]]]; [contradiction|discriminate]. }
  destruct (Z.eqb_spec (linear_solver_type o) SPARSE_SCHUR) as [E|N5].
  { unfold OptionsAreValidForSparseSchur, checkType. rewrite E, Z.eqb_refl, need_fatal.
    split; [|intros [_ [_ [_ [_ [H _]]]]]; discriminate]. intros [_ H]; contradiction. }
  destruct (Z.eqb_spec (linear_solver_type o) ITERATIVE_SCHUR) as [E|N6].
  { unfold OptionsAreValidForIterativeSchur, checkType. rewrite E, Z.eqb_refl.
    repeat (rewrite need_fatal || rewrite then_fatal || rewrite if_fatal).
    split; [|intros [_ [_ [_ [_ [_ [H _]]]]]]; discriminate].
    intro H. exfalso. intuition discriminate. }
  destruct (Z.eqb_spec (linear_solver_type o) CGNR) as [E|N7].
  { unfold OptionsAreValidForCgnr, checkType. rewrite E, Z.eqb_refl.
    repeat (rewrite need_fatal || rewrite then_fatal || rewrite if_fatal).
    split; [|intros [_ [_ [_ [_ [_ [_ [H _]]]]]]]; discriminate].
    intro H. exfalso. intuition discriminate. }
  tauto.
Qed.

Theorem fatal_only : forall b o, IsValid b o = Fatal -> uses_trust_region o /\ ~ known_solver o.
Proof.
  intros b o H. unfold IsValid in H. rewrite !then_fatal, if_fatal in H.
  destruct H as [H|[_ [[C H]|[_ H]]]];
    [destruct (common_no_fatal o H)| |destruct (line_search_no_fatal o H)].
  apply Z.eqb_eq in C. split; [exact C|].
  unfold TrustRegionOptionsAreValid in H.
  repeat (rewrite need_fatal in H || rewrite then_fatal in H || rewrite if_fatal in H).
  rewrite linear_fatal in H. intuition discriminate.
Qed.
