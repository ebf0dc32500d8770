(* C51: conversions between enumerations and strings. *)

From Coq Require Import String Ascii ZArith List Bool Lia.
From Verif Require Import EnumModel EnumSpec EnumProofs.
Import ListNotations.
Local Open Scope Z_scope.
Local Open Scope string_scope.

Theorem LinearSolverType_strings :
  prints LinearSolverType_names LinearSolverTypeToString /\
  parses LinearSolverType_names StringToLinearSolverType /\
  (forall v s, named LinearSolverType_names v s -> forall old, StringToLinearSolverType (LinearSolverTypeToString v) old = (true, v)).
Proof.
  split; [prove_prints|]. split; [prove_parses LinearSolverType_names|]. prove_round.
Qed.
Print Assumptions LinearSolverType_strings.

Theorem PreconditionerType_strings :
  prints PreconditionerType_names PreconditionerTypeToString /\
  parses PreconditionerType_names StringToPreconditionerType /\
  (forall v s, named PreconditionerType_names v s -> forall old, StringToPreconditionerType (PreconditionerTypeToString v) old = (true, v)).
Proof.
  split; [prove_prints|]. split; [prove_parses PreconditionerType_names|]. prove_round.
Qed.
Print Assumptions PreconditionerType_strings.

Theorem SparseLinearAlgebraLibraryType_strings :
  prints SparseLinearAlgebraLibraryType_names SparseLinearAlgebraLibraryTypeToString /\
  parses SparseLinearAlgebraLibraryType_names StringToSparseLinearAlgebraLibraryType /\
  (forall v s, named SparseLinearAlgebraLibraryType_names v s -> forall old, StringToSparseLinearAlgebraLibraryType (SparseLinearAlgebraLibraryTypeToString v) old = (true, v)).
Proof.
  split; [prove_prints|]. split; [prove_parses SparseLinearAlgebraLibraryType_names|]. prove_round.
Qed.
Print Assumptions SparseLinearAlgebraLibraryType_strings.

Theorem LinearSolverOrderingType_strings :
  prints LinearSolverOrderingType_names LinearSolverOrderingTypeToString /\
  parses LinearSolverOrderingType_names StringToLinearSolverOrderingType /\
  (forall v s, named LinearSolverOrderingType_names v s -> forall old, StringToLinearSolverOrderingType (LinearSolverOrderingTypeToString v) old = (true, v)).
Proof.
  split; [prove_prints|]. split; [prove_parses LinearSolverOrderingType_names|]. prove_round.
Qed.
Print Assumptions LinearSolverOrderingType_strings.

Theorem DenseLinearAlgebraLibraryType_strings :
  prints DenseLinearAlgebraLibraryType_names DenseLinearAlgebraLibraryTypeToString /\
  parses DenseLinearAlgebraLibraryType_names StringToDenseLinearAlgebraLibraryType /\
  (forall v s, named DenseLinearAlgebraLibraryType_names v s -> forall old, StringToDenseLinearAlgebraLibraryType (DenseLinearAlgebraLibraryTypeToString v) old = (true, v)).
Proof.
  split; [prove_prints|]. split; [prove_parses DenseLinearAlgebraLibraryType_names|]. prove_round.
Qed.
Print Assumptions DenseLinearAlgebraLibraryType_strings.

Theorem TrustRegionStrategyType_strings :
  prints TrustRegionStrategyType_names TrustRegionStrategyTypeToString /\
  parses TrustRegionStrategyType_names StringToTrustRegionStrategyType /\
  (forall v s, named TrustRegionStrategyType_names v s -> forall old, StringToTrustRegionStrategyType (TrustRegionStrategyTypeToString v) old = (true, v)).
Proof.
  split; [prove_prints|]. split; [prove_parses TrustRegionStrategyType_names|]. prove_round.
Qed.
Print Assumptions TrustRegionStrategyType_strings.

Theorem DoglegType_strings :
  prints DoglegType_names DoglegTypeToString /\
  parses DoglegType_names StringToDoglegType /\
  (forall v s, named DoglegType_names v s -> forall old, StringToDoglegType (DoglegTypeToString v) old = (true, v)).
Proof.
  split; [prove_prints|]. split; [prove_parses DoglegType_names|]. prove_round.
Qed.
Print Assumptions DoglegType_strings.

Theorem MinimizerType_strings :
  prints MinimizerType_names MinimizerTypeToString /\
  parses MinimizerType_names StringToMinimizerType /\
  (forall v s, named MinimizerType_names v s -> forall old, StringToMinimizerType (MinimizerTypeToString v) old = (true, v)).
Proof.
  split; [prove_prints|]. split; [prove_parses MinimizerType_names|]. prove_round.
Qed.
Print Assumptions MinimizerType_strings.

Theorem LineSearchDirectionType_strings :
  prints LineSearchDirectionType_names LineSearchDirectionTypeToString /\
  parses LineSearchDirectionType_names StringToLineSearchDirectionType /\
  (forall v s, named LineSearchDirectionType_names v s -> forall old, StringToLineSearchDirectionType (LineSearchDirectionTypeToString v) old = (true, v)).
Proof.
  split; [prove_prints|]. split; [prove_parses LineSearchDirectionType_names|]. prove_round.
Qed.
Print Assumptions LineSearchDirectionType_strings.

Theorem LineSearchType_strings :
  prints LineSearchType_names LineSearchTypeToString /\
  parses LineSearchType_names StringToLineSearchType /\
  (forall v s, named LineSearchType_names v s -> forall old, StringToLineSearchType (LineSearchTypeToString v) old = (true, v)).
Proof.
  split; [prove_prints|]. split; [prove_parses LineSearchType_names|]. prove_round.
Qed.
Print Assumptions LineSearchType_strings.

Theorem LineSearchInterpolationType_strings :
  prints LineSearchInterpolationType_names LineSearchInterpolationTypeToString /\
  parses LineSearchInterpolationType_names StringToLineSearchInterpolationType /\
  (forall v s, named LineSearchInterpolationType_names v s -> forall old, StringToLineSearchInterpolationType (LineSearchInterpolationTypeToString v) old = (true, v)).
Proof.
  split; [prove_prints|]. split; [prove_parses LineSearchInterpolationType_names|]. prove_round.
Qed.
Print Assumptions LineSearchInterpolationType_strings.

Theorem NonlinearConjugateGradientType_strings :
  prints NonlinearConjugateGradientType_names NonlinearConjugateGradientTypeToString /\
  parses NonlinearConjugateGradientType_names StringToNonlinearConjugateGradientType /\
  (forall v s, named NonlinearConjugateGradientType_names v s -> forall old, StringToNonlinearConjugateGradientType (NonlinearConjugateGradientTypeToString v) old = (true, v)).
Proof.
  split; [prove_prints|]. split; [prove_parses NonlinearConjugateGradientType_names|]. prove_round.
Qed.
Print Assumptions NonlinearConjugateGradientType_strings.

Theorem CovarianceAlgorithmType_strings :
  prints CovarianceAlgorithmType_names CovarianceAlgorithmTypeToString /\
  parses CovarianceAlgorithmType_names StringToCovarianceAlgorithmType /\
  (forall v s, named CovarianceAlgorithmType_names v s -> forall old, StringToCovarianceAlgorithmType (CovarianceAlgorithmTypeToString v) old = (true, v)).
Proof.
  split; [prove_prints|]. split; [prove_parses CovarianceAlgorithmType_names|]. prove_round.
Qed.
Print Assumptions CovarianceAlgorithmType_strings.

Theorem NumericDiffMethodType_strings :
  prints NumericDiffMethodType_names NumericDiffMethodTypeToString /\
  parses NumericDiffMethodType_names StringToNumericDiffMethodType /\
  (forall v s, named NumericDiffMethodType_names v s -> forall old, StringToNumericDiffMethodType (NumericDiffMethodTypeToString v) old = (true, v)).
Proof.
  split; [prove_prints|]. split; [prove_parses NumericDiffMethodType_names|]. prove_round.
Qed.
Print Assumptions NumericDiffMethodType_strings.

Theorem VisibilityClusteringType_strings :
  prints VisibilityClusteringType_names VisibilityClusteringTypeToString /\
  parses VisibilityClusteringType_names StringToVisibilityClusteringType /\
  (forall v s, named VisibilityClusteringType_names v s -> forall old, StringToVisibilityClusteringType (VisibilityClusteringTypeToString v) old = (true, v)).
Proof.
  split; [prove_prints|]. split; [prove_parses VisibilityClusteringType_names|]. prove_round.
Qed.
Print Assumptions VisibilityClusteringType_strings.

Theorem TerminationType_strings : prints TerminationType_names TerminationTypeToString.
Proof. prove_prints. Qed.
Print Assumptions TerminationType_strings.

Theorem LoggingType_strings :
  prints LoggingType_names LoggingTypeToString /\
  parses LoggingType_names StringToLoggingType /\
  (forall v s, named LoggingType_names v s -> forall old, StringToLoggingType (LoggingTypeToString v) old = (true, v)).
Proof.
  split; [prove_prints|]. split; [prove_parses LoggingType_names|]. prove_round.
Qed.
Print Assumptions LoggingType_strings.

Theorem DumpFormatType_strings :
  prints DumpFormatType_names DumpFormatTypeToString /\
  parses DumpFormatType_names StringToDumpFormatType /\
  (forall v s, named DumpFormatType_names v s -> forall old, StringToDumpFormatType (DumpFormatTypeToString v) old = (true, v)).
Proof.
  split; [prove_prints|]. split; [prove_parses DumpFormatType_names|]. prove_round.
Qed.
Print Assumptions DumpFormatType_strings.
(* No string conversion ever produces UNKNOWN for an enumerator, and UNKNOWN is
   not accepted: e.g. *)
Example unknown_rejected : StringToLinearSolverType "UNKNOWN" CGNR = (false, CGNR).
Proof. reflexivity. Qed.

Example mixed_case : StringToLinearSolverType "dense_Qr" CGNR = (true, DENSE_QR).
Proof. reflexivity. Qed.

Example trailing_space : StringToLinearSolverType "DENSE_QR " CGNR = (false, CGNR).
Proof. reflexivity. Qed.

Example cast_value : LinearSolverTypeToString 7 = "UNKNOWN" /\ MinimizerTypeToString 1 = "TRUST_REGION".
Proof. split; reflexivity. Qed.

(* The predicates next to the conversions. *)
Theorem schur_types : forall v s, named LinearSolverType_names v s ->
  (IsSchurType v = true <-> In s ["DENSE_SCHUR"; "SPARSE_SCHUR"; "ITERATIVE_SCHUR"]).
Proof.
  intros v s N. apply named_cases in N. cbn in N.
  repeat (destruct N as [N|N]; [injection N as <- <-; cbn; intuition discriminate|]). destruct N.
Qed.
Print Assumptions schur_types.

(* For every build: a library is available unless the build excludes it; NO_SPARSE
   and EIGEN always are; integers that are no enumerators never are. *)
Theorem availability : forall b v,
  (IsSparseLinearAlgebraLibraryTypeAvailable b v = true <->
   exists s, named SparseLinearAlgebraLibraryType_names v s /\
     ((s = "SUITE_SPARSE" /\ no_suitesparse b = false) \/
      (s = "ACCELERATE_SPARSE" /\ no_accelerate b = false) \/
      (s = "EIGEN_SPARSE" /\ use_eigen_sparse b = true) \/
      (s = "CUDA_SPARSE" /\ no_cuda b = false) \/ s = "NO_SPARSE")) /\
  (IsDenseLinearAlgebraLibraryTypeAvailable b v = true <->
   exists s, named DenseLinearAlgebraLibraryType_names v s /\
     (s = "EIGEN" \/ (s = "LAPACK" /\ no_lapack b = false) \/ (s = "CUDA" /\ no_cuda b = false))).
Proof.
  intros b v. split; split.
  - unfold IsSparseLinearAlgebraLibraryTypeAvailable. rewrite <- ?negb_true_iff.
    repeat match goal with
    | |- (if Z.eqb v ?k then _ else _) = _ -> _ => destruct (Z.eqb_spec v k) as [->|];
       [intros H; try (apply negb_true_iff in H)|] end; try discriminate;
    (eexists; split; [apply in_named; cbn; solve_in|]); eauto 10.
  - intros (s & N & H). apply named_cases in N. cbn in N.
    repeat (destruct N as [N|N]; [injection N as <- <-; cbn;
      decompose [or and] H; try discriminate; try (rewrite H2); try (rewrite H3); auto;
      try match goal with Q : _ = false |- _ => rewrite Q end; auto|]). destruct N.
  - unfold IsDenseLinearAlgebraLibraryTypeAvailable.
    repeat match goal with
    | |- (if Z.eqb v ?k then _ else _) = _ -> _ => destruct (Z.eqb_spec v k) as [->|];
       [intros H; try (apply negb_true_iff in H)|] end; try discriminate;
    (eexists; split; [apply in_named; cbn; solve_in|]); eauto 10.
  - intros (s & N & H). apply named_cases in N. cbn in N.
    repeat (destruct N as [N|N]; [injection N as <- <-; cbn;
      decompose [or and] H; try discriminate; auto;
      try match goal with Q : _ = false |- _ => rewrite Q end; auto|]). destruct N.
Qed.
Print Assumptions availability.
