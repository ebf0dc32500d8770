(* C52 and C60: option validation, and what it guarantees later. *)

From Coq Require Import String ZArith List Bool Lia.
From Verif Require Import Dbl DblArith EnumModel OptionsModel OptionsSpec OptionsProofs StrategyModel.
Import ListNotations.
Local Open Scope Z_scope.

(* IsValid accepts exactly the options satisfying every rule that applies. *)
Theorem options_accepted_iff_rules_hold : forall b o,
  IsValid b o = Valid <-> acceptable b o.
Proof. exact valid_iff. Qed.
Print Assumptions options_accepted_iff_rules_hold.

(* A rejection names a rule that is really violated. *)
Theorem options_rejection_names_violated_rule : forall b o t,
  IsValid b o = OptionsModel.Invalid t -> exists r, applies b o r /\ ~ satisfied o r /\ t = fst r o.
Proof. exact invalid_blames. Qed.
Print Assumptions options_rejection_names_violated_rule.

(* IsValid aborts only for an integer that is no linear solver. *)
Theorem options_validation_never_aborts : forall b o,
  known_solver o -> IsValid b o <> Fatal.
Proof. intros b o K H. destruct (fatal_only b o H) as [_ N]. exact (N K). Qed.
Print Assumptions options_validation_never_aborts.

(* No NaN gets through. *)
Lemma le_no_nan : forall a b, le a b -> a <> NaN /\ b <> NaN.
Proof. unfold le. intros [] [] H; split; try discriminate. Qed.
Lemma lt_no_nan : forall a b, lt a b -> a <> NaN /\ b <> NaN.
Proof. unfold lt. intros [] [] H; split; try discriminate. Qed.

Definition common_numbers (o : options) : list dbl :=
  [max_solver_time_in_seconds o; function_tolerance o; gradient_tolerance o; parameter_tolerance o;
   min_line_search_step_size o; line_search_sufficient_function_decrease o;
   max_line_search_step_contraction o; min_line_search_step_contraction o;
   line_search_sufficient_curvature_decrease o; max_line_search_step_expansion o].

Definition trust_region_numbers (o : options) : list dbl :=
  [initial_trust_region_radius o; min_trust_region_radius o; max_trust_region_radius o;
   min_relative_decrease o; min_lm_diagonal o; max_lm_diagonal o; eta o].

Theorem accepted_options_have_no_nan : forall b o, IsValid b o = Valid ->
  (forall x, In x (common_numbers o) -> x <> NaN) /\
  (uses_trust_region o -> forall x, In x (trust_region_numbers o) -> x <> NaN).
Proof.
  intros b o H. apply valid_iff in H. destruct H as [H _].
  assert (C : all_of common_rules o) by (apply all_of_iff; intros r Hr; apply H; left; exact Hr).
  assert (L : all_of line_search_rules o) by (apply all_of_iff; intros r Hr; apply H; right; left; exact Hr).
  split.
  - cbn [all_of common_rules line_search_rules snd] in C, L. unfold nonnegative, positive in C, L.
    decompose [and] C. decompose [and] L. clear C L H.
    repeat match goal with
           | K : le _ _ |- _ => apply le_no_nan in K
           | K : lt _ _ |- _ => apply lt_no_nan in K
           end.
    intros x Hx. cbn [In common_numbers] in Hx.
    repeat (destruct Hx as [<-|Hx]; [tauto|]). destruct Hx.
  - intro T.
    assert (R : all_of trust_region_rules o)
      by (apply all_of_iff; intros r Hr; apply H; right; right; split; [exact T|left; exact Hr]).
    cbn [all_of trust_region_rules snd] in R. unfold nonnegative, positive in R.
    decompose [and] R. clear C L H R.
    repeat match goal with
           | K : le _ _ |- _ => apply le_no_nan in K
           | K : lt _ _ |- _ => apply lt_no_nan in K
           end.
    intros x Hx. cbn [In trust_region_numbers] in Hx.
    repeat (destruct Hx as [<-|Hx]; [tauto|]). destruct Hx.
Qed.
Print Assumptions accepted_options_have_no_nan.

(* The strategy options SetupMinimizerOptions makes
   (trust_region_preprocessor.cc:367-380). *)
Definition strategy_options (o : options) : lm_opts :=
  mkLMO (initial_trust_region_radius o) (max_trust_region_radius o) (min_lm_diagonal o) (max_lm_diagonal o).

(* The checks that the strategies and the line searches make when they start
   hold for accepted options -- for the strategies provided min_lm_diagonal is
   not zero. *)
Theorem accepted_options_pass_later_checks : forall b o, IsValid b o = Valid ->
  (uses_trust_region o -> positive (min_lm_diagonal o) ->
   lm_new (strategy_options o) <> None /\ dl_new (strategy_options o) <> None) /\
  positive (line_search_sufficient_function_decrease o) /\
  lt (line_search_sufficient_function_decrease o) ONE /\
  lt (line_search_sufficient_function_decrease o) (line_search_sufficient_curvature_decrease o) /\
  lt (line_search_sufficient_curvature_decrease o) ONE /\
  lt ONE (max_line_search_step_expansion o) /\
  (~ uses_trust_region o -> 0 < max_num_line_search_step_size_iterations o).
Proof.
  intros b o H. apply valid_iff in H. destruct H as [H _].
  assert (L : all_of line_search_rules o) by (apply all_of_iff; intros r Hr; apply H; right; left; exact Hr).
  split.
  - intros T P.
    assert (R : all_of trust_region_rules o)
      by (apply all_of_iff; intros r Hr; apply H; right; right; split; [exact T|left; exact Hr]).
    cbn [all_of trust_region_rules snd] in R. unfold nonnegative, positive, le, lt, zero in *.
    unfold lm_new, dl_new, strategy_options. cbn [lo_min_diag lo_max_diag lo_max].
    destruct R as [_ [_ [R3 [_ [_ [_ [_ [_ [_ [R10 _]]]]]]]]]].
    rewrite P, R3, R10. split; discriminate.
  - cbn [all_of line_search_rules snd] in L. decompose [and] L.
    assert (LL : lt (line_search_sufficient_function_decrease o) ONE).
    { unfold lt in *.
      destruct (line_search_sufficient_function_decrease o), (line_search_sufficient_curvature_decrease o);
        try discriminate; cbn [dlt ONE] in *; try reflexivity; try discriminate.
      rewrite Z.ltb_lt in *. lia. }
    split; [assumption|]. split; [exact LL|]. split; [assumption|]. split; [assumption|].
    split; [assumption|]. intro T.
    match goal with K : ~ uses_trust_region o -> _ |- _ => specialize (K T); lia end.
Qed.
Print Assumptions accepted_options_pass_later_checks.

(* The default options (solver.h:90-760) on a build with Eigen's sparse Cholesky. *)
Definition plain_build : build2 := mkbuild2 (mkbuild true true true true true) true true false true false.

Definition default_options : options :=
  mkoptions TRUST_REGION LBFGS WOLFE 20 (dq 1 1000000000) (dq 1 10000) (dq 1 1000) (dq 6 10) 20 (dq 9 10)
    (dz 10) LEVENBERG_MARQUARDT false 5 50 (dz (10 ^ 9)) 1 (dz (10 ^ 4)) (dz (10 ^ 16))
    (dq 1 (10 ^ 32)) (dq 1 1000) (dq 1 1000000) (dz (10 ^ 32)) 5 (dq 1 1000000) (dq 1 (10 ^ 10))
    (dq 1 (10 ^ 8)) SPARSE_NORMAL_CHOLESKY JACOBI 0%nat EIGEN EIGEN_SPARSE AMD false false false 0 500 5
    false (dq 1 10) (dq 1 10) false (dq 1 1000) [] "/tmp" TEXTFILE false (dq 1 (10 ^ 8)) (dq 1 1000000).

Example default_accepted : IsValid plain_build default_options = Valid.
Proof. vm_compute. reflexivity. Qed.

(* the same with the smallest allowed diagonal set to zero *)
Definition zero_diagonal : options :=
  mkoptions TRUST_REGION LBFGS WOLFE 20 (dq 1 1000000000) (dq 1 10000) (dq 1 1000) (dq 6 10) 20 (dq 9 10)
    (dz 10) LEVENBERG_MARQUARDT false 5 50 (dz (10 ^ 9)) 1 (dz (10 ^ 4)) (dz (10 ^ 16))
    (dq 1 (10 ^ 32)) (dq 1 1000) (Fin 0) (dz (10 ^ 32)) 5 (dq 1 1000000) (dq 1 (10 ^ 10))
    (dq 1 (10 ^ 8)) SPARSE_NORMAL_CHOLESKY JACOBI 0%nat EIGEN EIGEN_SPARSE AMD false false false 0 500 5
    false (dq 1 10) (dq 1 10) false (dq 1 1000) [] "/tmp" TEXTFILE false (dq 1 (10 ^ 8)) (dq 1 1000000).

(* Accepted options can still abort the process: IsValid allows
   min_lm_diagonal = 0, both strategies CHECK that it is positive. *)
Theorem accepted_options_abort_strategy_refuted :
  exists b o, IsValid b o = Valid /\ uses_trust_region o /\
    lm_new (strategy_options o) = None /\ dl_new (strategy_options o) = None.
Proof.
  exists plain_build, zero_diagonal. split; [vm_compute; reflexivity|]. split; [reflexivity|].
  split; reflexivity.
Qed.
Print Assumptions accepted_options_abort_strategy_refuted.

Example nan_rejected :
  IsValid plain_build (mkoptions TRUST_REGION LBFGS WOLFE 20 (dq 1 1000000000) (dq 1 10000) (dq 1 1000) (dq 6 10) 20 (dq 9 10)
    (dz 10) LEVENBERG_MARQUARDT false 5 50 (dz (10 ^ 9)) 1 (dz (10 ^ 4)) (dz (10 ^ 16))
    (dq 1 (10 ^ 32)) (dq 1 1000) (Fin 0) (dz (10 ^ 32)) 5 NaN (dq 1 (10 ^ 10))
    (dq 1 (10 ^ 8)) SPARSE_NORMAL_CHOLESKY JACOBI 0%nat EIGEN EIGEN_SPARSE AMD false false false 0 500 5
    false (dq 1 10) (dq 1 10) false (dq 1 1000) [] "/tmp" TEXTFILE false (dq 1 (10 ^ 8)) (dq 1 1000000))
  = OptionsModel.Invalid "Solver::Options::function_tolerance >= 0.0".
Proof. vm_compute. reflexivity. Qed.

Example known : known_solver default_options.
Proof. right; right; left. reflexivity. Qed.

(* dynamic_sparsity, which the messages call "only supported with
   SPARSE_NORMAL_CHOLESKY", is accepted with the two dense solvers that keep
   no Schur complement *)
Example dynamic_dense_accepted :
  OptionsAreValidForLinearSolver plain_build
   (mkoptions TRUST_REGION LBFGS WOLFE 20 NaN NaN NaN NaN 20 NaN NaN LEVENBERG_MARQUARDT false 5 50 NaN 1 NaN NaN NaN NaN
     NaN NaN 5 NaN NaN NaN DENSE_QR JACOBI 0%nat EIGEN EIGEN_SPARSE AMD false true false 0 500 5 false NaN NaN false NaN [] ""
     TEXTFILE false NaN NaN) = Valid.
Proof. reflexivity. Qed.

(* ---- C60: accepted options yield a linear solver ---- *)

Theorem accepted_options_create_solver : forall b o,
  IsValid b o = Valid -> uses_trust_region o ->
  LinearSolverCreate b o <> NoSolver /\ LinearSolverCreate b o <> CreateAborts.
Proof.
  intros b o H T. apply valid_iff in H. destruct H as [H K]. specialize (K T).
  assert (L : all_of (linear_solver_rules b) o)
    by (apply all_of_iff; intros r Hr; apply H; right; right; split; [exact T|right; exact Hr]).
  clear H. pose proof (proj2 (linear_ok b o) (conj K L)) as V. clear L.
  unfold LinearSolverCreate, OptionsAreValidForLinearSolver in *. cbv zeta in *.
  assert (NS : OptionsAreValidForSparseCholeskyBasedSolver b o = Valid ->
     no_suitesparse (libs b) && no_accelerate (libs b) && negb (use_eigen_sparse (libs b)) && no_cudss b = false).
  { intro S. apply sparse_ok in S. destruct S as [S1 [S2 _]]. unfold sparse_cholesky_built in S2.
    destruct (no_suitesparse (libs b)), (no_accelerate (libs b)), (use_eigen_sparse (libs b)), (no_cudss b);
      try reflexivity; exfalso; intuition discriminate. }
  destruct (Z.eqb_spec (linear_solver_type o) CGNR) as [E|N1].
  { rewrite E in V. change (CGNR =? DENSE_NORMAL_CHOLESKY) with false in V. cbn [Z.eqb] in V.
    assert (V' : OptionsAreValidForCgnr b o = Valid) by exact V. clear V.
    apply (cgnr_ok b o E) in V'. destruct V' as [P [_ [_ [P2 _]]]].
    destruct (Z.eqb_spec (sparse_linear_algebra_library_type o) CUDA_SPARSE) as [C|C].
    - destruct (no_cuda (libs b)); cbn [negb andb].
      + unfold CgnrSolver. destruct P as [P|[P|P]]; rewrite P; split; discriminate.
      + unfold CudaCgnrSolverCreate. destruct P as [P|[P|P]]; [| |destruct (P2 P C)]; rewrite P; split; discriminate.
    - rewrite andb_false_r. unfold CgnrSolver. destruct P as [P|[P|P]]; rewrite P; split; discriminate. }
  destruct (Z.eqb_spec (linear_solver_type o) SPARSE_NORMAL_CHOLESKY) as [E|N2].
  { rewrite E in V. assert (V' : OptionsAreValidForSparseNormalCholesky b o = Valid) by exact V.
    unfold OptionsAreValidForSparseNormalCholesky, checkType in V'. rewrite E, Z.eqb_refl in V'.
    rewrite (NS V'). destruct (dynamic_sparsity o); split; discriminate. }
  destruct (Z.eqb_spec (linear_solver_type o) SPARSE_SCHUR) as [E|N3].
  { rewrite E in V. assert (V' : OptionsAreValidForSparseSchur b o = Valid) by exact V.
    unfold OptionsAreValidForSparseSchur, checkType in V'. rewrite E, Z.eqb_refl in V'.
    apply need_valid in V'. rewrite (NS (proj2 V')). split; discriminate. }
  destruct (Z.eqb_spec (linear_solver_type o) DENSE_SCHUR) as [E|N4]; [split; discriminate|].
  destruct (Z.eqb_spec (linear_solver_type o) ITERATIVE_SCHUR) as [E|N5];
    [destruct (use_explicit_schur_complement o); split; discriminate|].
  destruct (Z.eqb_spec (linear_solver_type o) DENSE_QR) as [E|N6]; [split; discriminate|].
  destruct (Z.eqb_spec (linear_solver_type o) DENSE_NORMAL_CHOLESKY) as [E|N7]; [split; discriminate|].
  discriminate.
Qed.
Print Assumptions accepted_options_create_solver.

(* When the user's first elimination group has become empty, the Schur solver
   is replaced.  The replacement is an acceptable configuration again exactly
   when none of three gaps is hit. *)
Definition fallback_gap (b : build2) (o : options) : Prop :=
  (solver_is o [DENSE_SCHUR] /\ use_mixed_precision_solves o = true) \/
  (solver_is o [ITERATIVE_SCHUR] /\ preconditioner_is o [SCHUR_POWER_SERIES_EXPANSION]) \/
  (solver_is o [ITERATIVE_SCHUR] /\ sparse_linear_algebra_library_type o = CUDA_SPARSE /\
   no_cuda (libs b) = true).

Lemma sparse_demands_solver : forall b t p o,
  sparse_demands b (with_solver t p o) <-> sparse_demands b o.
Proof. intros. reflexivity. Qed.

Lemma fallback_linear : forall b o,
  solver_is o [SPARSE_SCHUR; DENSE_SCHUR; ITERATIVE_SCHUR] ->
  preconditioner_is o [IDENTITY; JACOBI; SCHUR_JACOBI; SCHUR_POWER_SERIES_EXPANSION; CLUSTER_JACOBI;
                       CLUSTER_TRIDIAGONAL; SUBSET] ->
  OptionsAreValidForLinearSolver b o = Valid ->
  (OptionsAreValidForLinearSolver b (AlternateLinearSolver o) = Valid <-> ~ fallback_gap b o).
Proof.
  intros b o S P V. unfold solver_is in S. cbn [In] in S. unfold fallback_gap.
  destruct S as [E|[E|[E|[]]]]; symmetry in E; decide_solver E; unfold AlternateLinearSolver; rewrite E.
  - cbn [IsSchurType negb]. change (negb (IsSchurType SPARSE_SCHUR)) with false. cbv iota.
    unfold OptionsAreValidForLinearSolver in V. cbv zeta in V. rewrite E in V.
    assert (V' : OptionsAreValidForSparseSchur b o = Valid) by exact V. clear V.
    unfold OptionsAreValidForSparseSchur, checkType in V'. rewrite E, Z.eqb_refl in V'.
    apply need_valid in V'. destruct V' as [_ V']. split; [tauto|]. intros _.
    change (OptionsAreValidForSparseNormalCholesky b
              (with_solver SPARSE_NORMAL_CHOLESKY (preconditioner_type o) o) = Valid).
    unfold OptionsAreValidForSparseNormalCholesky, checkType. cbn [linear_solver_type with_solver].
    rewrite Z.eqb_refl. apply sparse_ok. apply sparse_ok in V'. exact V'.
  - change (negb (IsSchurType DENSE_SCHUR)) with false. cbv iota.
    unfold OptionsAreValidForLinearSolver in V. cbv zeta in V. rewrite E in V.
    assert (V' : OptionsAreValidForDenseSchur b o = Valid) by exact V. clear V.
    unfold OptionsAreValidForDenseSchur, checkType in V'. rewrite E, Z.eqb_refl in V'.
    apply need_valid in V'. destruct V' as [_ V']. apply then_valid in V'. destruct V' as [V' _].
    unfold OptionsAreValidForDenseSolver in V'. apply need_valid in V'. destruct V' as [V' _].
    change (OptionsAreValidForLinearSolver b (with_solver (LinearSolverForZeroEBlocks DENSE_SCHUR)
       (if DENSE_SCHUR =? ITERATIVE_SCHUR then PreconditionerForZeroEBlocks (preconditioner_type o)
        else preconditioner_type o) o))
      with (OptionsAreValidForDenseQr b (with_solver DENSE_QR (preconditioner_type o) o)).
    unfold OptionsAreValidForDenseQr, checkType. cbn [linear_solver_type with_solver].
    rewrite Z.eqb_refl, then_valid, need_valid. unfold OptionsAreValidForDenseSolver.
    cbn [dense_linear_algebra_library_type use_mixed_precision_solves with_solver].
    rewrite need_valid, V', negb_true_iff. destruct (use_mixed_precision_solves o); intuition discriminate.
  - change (negb (IsSchurType ITERATIVE_SCHUR)) with false. cbv iota. rewrite Z.eqb_refl.
    unfold OptionsAreValidForLinearSolver in V. cbv zeta in V. rewrite E in V.
    assert (V' : OptionsAreValidForIterativeSchur b o = Valid) by exact V. clear V.
    apply (iterative_ok b o E) in V'. destruct V' as [D [_ [_ [_ [_ [M [NSub _]]]]]]].
    change (LinearSolverForZeroEBlocks ITERATIVE_SCHUR) with CGNR.
    set (q := PreconditionerForZeroEBlocks (preconditioner_type o)).
    change (OptionsAreValidForLinearSolver b (with_solver CGNR q o))
      with (OptionsAreValidForCgnr b (with_solver CGNR q o)).
    rewrite (cgnr_ok b (with_solver CGNR q o) eq_refl). unfold cgnr_demands.
    cbn [preconditioner_type use_mixed_precision_solves dynamic_sparsity sparse_linear_algebra_library_type
         num_subset_blocks with_solver].
    rewrite precond_one.
    unfold preconditioner_is in P. cbn [In] in P.
    assert (Q : q <> SUBSET /\ ((q = IDENTITY \/ q = JACOBI \/ q = SUBSET) <->
                  preconditioner_type o <> SCHUR_POWER_SERIES_EXPANSION)).
    { unfold q.
      destruct P as [P|[P|[P|[P|[P|[P|[P|[]]]]]]]]; rewrite <- P in *;
        try (split; [discriminate|split; [discriminate|intros _; vm_compute; auto]]).
      - split; [discriminate|]. split; [intros [A|[A|A]]; discriminate|intro A; destruct (A eq_refl)].
      - destruct (NSub eq_refl). }
    destruct Q as [Q1 Q2].
    destruct (no_cuda (libs b)); intuition discriminate.
Qed.

Theorem fallback_valid_iff : forall b o,
  solver_is o [SPARSE_SCHUR; DENSE_SCHUR; ITERATIVE_SCHUR] ->
  preconditioner_is o [IDENTITY; JACOBI; SCHUR_JACOBI; SCHUR_POWER_SERIES_EXPANSION; CLUSTER_JACOBI;
                       CLUSTER_TRIDIAGONAL; SUBSET] ->
  uses_trust_region o -> IsValid b o = Valid ->
  (IsValid b (AlternateLinearSolver o) = Valid <-> ~ fallback_gap b o).
Proof.
  intros b o S P T V.
  assert (VL : OptionsAreValidForLinearSolver b o = Valid).
  { apply valid_iff in V. destruct V as [H K]. apply linear_ok. split; [apply K; exact T|].
    apply all_of_iff. intros r Hr. apply H. right; right. split; [exact T|right; exact Hr]. }
  rewrite <- (fallback_linear b o S P VL).
  unfold IsValid in *. rewrite !then_valid in *. destruct V as [V1 [V2 V3]].
  assert (A : forall t p, CommonOptionsAreValid (with_solver t p o) = Valid /\
                          LineSearchOptionsAreValid (with_solver t p o) = Valid)
    by (intros t p; split; [exact V1|exact V3]).
  rewrite !if_valid in *.
  unfold AlternateLinearSolver. destruct (negb (IsSchurType (linear_solver_type o))) eqn:NI.
  { exfalso. unfold solver_is in S. cbn [In] in S.
    destruct S as [E|[E|[E|[]]]]; rewrite <- E in NI; discriminate. }
  set (t := LinearSolverForZeroEBlocks (linear_solver_type o)).
  set (p := if linear_solver_type o =? ITERATIVE_SCHUR then _ else _).
  destruct (A t p) as [A1 A2]. split.
  - intros [_ [H _]]. specialize (H (proj2 (Z.eqb_eq _ _) T)).
    apply trust_region_ok in H. apply linear_ok. apply H.
  - intro H. split; [exact A1|]. split; [|exact A2]. intros _.
    specialize (V2 (proj2 (Z.eqb_eq _ _) T)). apply trust_region_ok in V2. destruct V2 as [R [K _]].
    apply linear_ok in H. apply trust_region_ok. split; [|exact H].
    cbn [all_of trust_region_rules snd] in R |- *. decompose [and] R. clear R.
    repeat match goal with |- _ /\ _ => split end; try assumption; try exact I.
    intro DL.
    match goal with K2 : trust_region_strategy_type o = DOGLEG -> _ |- _ => specialize (K2 DL); rename K2 into ND end.
    clear - S ND. unfold t, solver_is in *. cbn [In linear_solver_type with_solver] in *.
    destruct S as [E|[E|[E|[]]]]; rewrite <- E in *.
    + intros [Q|[Q|[]]]; discriminate.
    + intros [Q|[Q|[]]]; discriminate.
    + exfalso. apply ND. right; left; reflexivity.
Qed.
Print Assumptions fallback_valid_iff.

(* The gaps are real: with ITERATIVE_SCHUR and SCHUR_POWER_SERIES_EXPANSION the
   replacement is CGNR with SCHUR_POWER_SERIES_EXPANSION, whose constructor aborts. *)
Definition power_series_options : options :=
  with_solver ITERATIVE_SCHUR SCHUR_POWER_SERIES_EXPANSION default_options.

Theorem fallback_aborts_refuted :
  exists b o, IsValid b o = Valid /\ uses_trust_region o /\
    LinearSolverCreate b (AlternateLinearSolver o) = CreateAborts.
Proof.
  exists plain_build, power_series_options. split; [vm_compute; reflexivity|]. split; reflexivity.
Qed.
Print Assumptions fallback_aborts_refuted.

(* With DENSE_SCHUR and mixed precision the replacement is what IsValid rejects. *)
Definition mixed_dense_schur : options :=
  mkoptions TRUST_REGION LBFGS WOLFE 20 (dq 1 1000000000) (dq 1 10000) (dq 1 1000) (dq 6 10) 20 (dq 9 10)
    (dz 10) LEVENBERG_MARQUARDT false 5 50 (dz (10 ^ 9)) 1 (dz (10 ^ 4)) (dz (10 ^ 16))
    (dq 1 (10 ^ 32)) (dq 1 1000) (dq 1 1000000) (dz (10 ^ 32)) 5 (dq 1 1000000) (dq 1 (10 ^ 10))
    (dq 1 (10 ^ 8)) DENSE_SCHUR JACOBI 0%nat EIGEN EIGEN_SPARSE AMD false false true 0 500 5
    false (dq 1 10) (dq 1 10) false (dq 1 1000) [] "/tmp" TEXTFILE false (dq 1 (10 ^ 8)) (dq 1 1000000).

Theorem fallback_invalid_refuted :
  exists b o, IsValid b o = Valid /\
    IsValid b (AlternateLinearSolver o) =
      OptionsModel.Invalid "Can't use use_mixed_precision_solves with DENSE_QR.".
Proof.
  exists plain_build, mixed_dense_schur. split; vm_compute; reflexivity.
Qed.
Print Assumptions fallback_invalid_refuted.

(* a case without a gap *)
Example fallback_ok :
  let o := with_solver ITERATIVE_SCHUR SCHUR_JACOBI default_options in
  IsValid plain_build o = Valid /\ IsValid plain_build (AlternateLinearSolver o) = Valid /\
  LinearSolverCreate plain_build (AlternateLinearSolver o) = Cgnr.
Proof. vm_compute. auto. Qed.
