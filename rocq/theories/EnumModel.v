(* Conversions between the enumerations of include/ceres/types.h and strings:
   internal/ceres/types.cc.

   A variable of an enumeration type holds an integer; the enumerators are
   numbered as the language prescribes (from zero upwards), and an integer
   that is not an enumerator can be obtained by a cast.  Each StringToX
   returns the boolean and the final value of *type. *)

From Coq Require Import String Ascii ZArith Bool.
Local Open Scope Z_scope.
Local Open Scope string_scope.

(* ::toupper in the "C" locale *)
Definition toupper (c : ascii) : ascii :=
  let n := nat_of_ascii c in
  if ((97 <=? n)%nat && (n <=? 122)%nat)%bool then ascii_of_nat (n - 32) else c.

(* types.cc:47-49  UpperCase *)
Fixpoint UpperCase (s : string) : string :=
  match s with
  | EmptyString => EmptyString
  | String c rest => String (toupper c) (UpperCase rest)
  end.

(* include/ceres/types.h:57-91  enum LinearSolverType *)
Definition DENSE_NORMAL_CHOLESKY : Z := 0.
Definition DENSE_QR : Z := 1.
Definition SPARSE_NORMAL_CHOLESKY : Z := 2.
Definition DENSE_SCHUR : Z := 3.
Definition SPARSE_SCHUR : Z := 4.
Definition ITERATIVE_SCHUR : Z := 5.
Definition CGNR : Z := 6.

(* include/ceres/types.h:93-141  enum PreconditionerType *)
Definition IDENTITY : Z := 0.
Definition JACOBI : Z := 1.
Definition SCHUR_JACOBI : Z := 2.
Definition SCHUR_POWER_SERIES_EXPANSION : Z := 3.
Definition CLUSTER_JACOBI : Z := 4.
Definition CLUSTER_TRIDIAGONAL : Z := 5.
Definition SUBSET : Z := 6.

(* include/ceres/types.h:166-185  enum SparseLinearAlgebraLibraryType *)
Definition SUITE_SPARSE : Z := 0.
Definition EIGEN_SPARSE : Z := 1.
Definition ACCELERATE_SPARSE : Z := 2.
Definition CUDA_SPARSE : Z := 3.
Definition NO_SPARSE : Z := 4.

(* include/ceres/types.h:204-209  enum LinearSolverOrderingType *)
Definition AMD : Z := 0.
Definition NESDIS : Z := 1.

(* include/ceres/types.h:211-215  enum DenseLinearAlgebraLibraryType *)
Definition EIGEN : Z := 0.
Definition LAPACK : Z := 1.
Definition CUDA : Z := 2.

(* include/ceres/types.h:318-339  enum TrustRegionStrategyType *)
Definition LEVENBERG_MARQUARDT : Z := 0.
Definition DOGLEG : Z := 1.

(* include/ceres/types.h:348-357  enum DoglegType *)
Definition TRADITIONAL_DOGLEG : Z := 0.
Definition SUBSPACE_DOGLEG : Z := 1.

(* include/ceres/types.h:224-227  enum MinimizerType *)
Definition LINE_SEARCH : Z := 0.
Definition TRUST_REGION : Z := 1.

(* include/ceres/types.h:229-295  enum LineSearchDirectionType *)
Definition STEEPEST_DESCENT : Z := 0.
Definition NONLINEAR_CONJUGATE_GRADIENT : Z := 1.
Definition LBFGS : Z := 2.
Definition BFGS : Z := 3.

(* include/ceres/types.h:309-314  enum LineSearchType *)
Definition ARMIJO : Z := 0.
Definition WOLFE : Z := 1.

(* include/ceres/types.h:459-463  enum LineSearchInterpolationType *)
Definition BISECTION : Z := 0.
Definition QUADRATIC : Z := 1.
Definition CUBIC : Z := 2.

(* include/ceres/types.h:303-307  enum NonlinearConjugateGradientType *)
Definition FLETCHER_REEVES : Z := 0.
Definition POLAK_RIBIERE : Z := 1.
Definition HESTENES_STIEFEL : Z := 2.

(* include/ceres/types.h:465-468  enum CovarianceAlgorithmType *)
Definition DENSE_SVD : Z := 0.
Definition SPARSE_QR : Z := 1.

(* include/ceres/types.h:446-457  enum NumericDiffMethodType *)
Definition CENTRAL : Z := 0.
Definition FORWARD : Z := 1.
Definition RIDDERS : Z := 2.

(* include/ceres/types.h:143-164  enum VisibilityClusteringType *)
Definition CANONICAL_VIEWS : Z := 0.
Definition SINGLE_LINKAGE : Z := 1.

(* include/ceres/types.h:359-395  enum TerminationType *)
Definition CONVERGENCE : Z := 0.
Definition NO_CONVERGENCE : Z := 1.
Definition FAILURE : Z := 2.
Definition USER_SUCCESS : Z := 3.
Definition USER_FAILURE : Z := 4.

(* include/ceres/types.h:219-222  enum LoggingType *)
Definition SILENT : Z := 0.
Definition PER_MINIMIZER_ITERATION : Z := 1.

(* include/ceres/types.h:419-435  enum DumpFormatType *)
Definition CONSOLE : Z := 0.
Definition TEXTFILE : Z := 1.

(* types.cc:51-63  LinearSolverTypeToString *)
Definition LinearSolverTypeToString (type : Z) : string :=
  if Z.eqb type DENSE_NORMAL_CHOLESKY then "DENSE_NORMAL_CHOLESKY" else
  if Z.eqb type DENSE_QR then "DENSE_QR" else
  if Z.eqb type SPARSE_NORMAL_CHOLESKY then "SPARSE_NORMAL_CHOLESKY" else
  if Z.eqb type DENSE_SCHUR then "DENSE_SCHUR" else
  if Z.eqb type SPARSE_SCHUR then "SPARSE_SCHUR" else
  if Z.eqb type ITERATIVE_SCHUR then "ITERATIVE_SCHUR" else
  if Z.eqb type CGNR then "CGNR" else
  "UNKNOWN".

(* types.cc:65-75  StringToLinearSolverType *)
Definition StringToLinearSolverType (value : string) (type : Z) : bool * Z :=
  let value := UpperCase value in
  if String.eqb value "DENSE_NORMAL_CHOLESKY" then (true, DENSE_NORMAL_CHOLESKY) else
  if String.eqb value "DENSE_QR" then (true, DENSE_QR) else
  if String.eqb value "SPARSE_NORMAL_CHOLESKY" then (true, SPARSE_NORMAL_CHOLESKY) else
  if String.eqb value "DENSE_SCHUR" then (true, DENSE_SCHUR) else
  if String.eqb value "SPARSE_SCHUR" then (true, SPARSE_SCHUR) else
  if String.eqb value "ITERATIVE_SCHUR" then (true, ITERATIVE_SCHUR) else
  if String.eqb value "CGNR" then (true, CGNR) else
  (false, type).

(* types.cc:77-89  PreconditionerTypeToString *)
Definition PreconditionerTypeToString (type : Z) : string :=
  if Z.eqb type IDENTITY then "IDENTITY" else
  if Z.eqb type JACOBI then "JACOBI" else
  if Z.eqb type SCHUR_JACOBI then "SCHUR_JACOBI" else
  if Z.eqb type SCHUR_POWER_SERIES_EXPANSION then "SCHUR_POWER_SERIES_EXPANSION" else
  if Z.eqb type CLUSTER_JACOBI then "CLUSTER_JACOBI" else
  if Z.eqb type CLUSTER_TRIDIAGONAL then "CLUSTER_TRIDIAGONAL" else
  if Z.eqb type SUBSET then "SUBSET" else
  "UNKNOWN".

(* types.cc:91-101  StringToPreconditionerType *)
Definition StringToPreconditionerType (value : string) (type : Z) : bool * Z :=
  let value := UpperCase value in
  if String.eqb value "IDENTITY" then (true, IDENTITY) else
  if String.eqb value "JACOBI" then (true, JACOBI) else
  if String.eqb value "SCHUR_JACOBI" then (true, SCHUR_JACOBI) else
  if String.eqb value "SCHUR_POWER_SERIES_EXPANSION" then (true, SCHUR_POWER_SERIES_EXPANSION) else
  if String.eqb value "CLUSTER_JACOBI" then (true, CLUSTER_JACOBI) else
  if String.eqb value "CLUSTER_TRIDIAGONAL" then (true, CLUSTER_TRIDIAGONAL) else
  if String.eqb value "SUBSET" then (true, SUBSET) else
  (false, type).

(* types.cc:103-114  SparseLinearAlgebraLibraryTypeToString *)
Definition SparseLinearAlgebraLibraryTypeToString (type : Z) : string :=
  if Z.eqb type SUITE_SPARSE then "SUITE_SPARSE" else
  if Z.eqb type EIGEN_SPARSE then "EIGEN_SPARSE" else
  if Z.eqb type ACCELERATE_SPARSE then "ACCELERATE_SPARSE" else
  if Z.eqb type CUDA_SPARSE then "CUDA_SPARSE" else
  if Z.eqb type NO_SPARSE then "NO_SPARSE" else
  "UNKNOWN".

(* types.cc:116-125  StringToSparseLinearAlgebraLibraryType *)
Definition StringToSparseLinearAlgebraLibraryType (value : string) (type : Z) : bool * Z :=
  let value := UpperCase value in
  if String.eqb value "SUITE_SPARSE" then (true, SUITE_SPARSE) else
  if String.eqb value "EIGEN_SPARSE" then (true, EIGEN_SPARSE) else
  if String.eqb value "ACCELERATE_SPARSE" then (true, ACCELERATE_SPARSE) else
  if String.eqb value "CUDA_SPARSE" then (true, CUDA_SPARSE) else
  if String.eqb value "NO_SPARSE" then (true, NO_SPARSE) else
  (false, type).

(* types.cc:127-134  LinearSolverOrderingTypeToString *)
Definition LinearSolverOrderingTypeToString (type : Z) : string :=
  if Z.eqb type AMD then "AMD" else
  if Z.eqb type NESDIS then "NESDIS" else
  "UNKNOWN".

(* types.cc:136-142  StringToLinearSolverOrderingType *)
Definition StringToLinearSolverOrderingType (value : string) (type : Z) : bool * Z :=
  let value := UpperCase value in
  if String.eqb value "AMD" then (true, AMD) else
  if String.eqb value "NESDIS" then (true, NESDIS) else
  (false, type).

(* types.cc:144-153  DenseLinearAlgebraLibraryTypeToString *)
Definition DenseLinearAlgebraLibraryTypeToString (type : Z) : string :=
  if Z.eqb type EIGEN then "EIGEN" else
  if Z.eqb type LAPACK then "LAPACK" else
  if Z.eqb type CUDA then "CUDA" else
  "UNKNOWN".

(* types.cc:155-162  StringToDenseLinearAlgebraLibraryType *)
Definition StringToDenseLinearAlgebraLibraryType (value : string) (type : Z) : bool * Z :=
  let value := UpperCase value in
  if String.eqb value "EIGEN" then (true, EIGEN) else
  if String.eqb value "LAPACK" then (true, LAPACK) else
  if String.eqb value "CUDA" then (true, CUDA) else
  (false, type).

(* types.cc:164-171  TrustRegionStrategyTypeToString *)
Definition TrustRegionStrategyTypeToString (type : Z) : string :=
  if Z.eqb type LEVENBERG_MARQUARDT then "LEVENBERG_MARQUARDT" else
  if Z.eqb type DOGLEG then "DOGLEG" else
  "UNKNOWN".

(* types.cc:173-179  StringToTrustRegionStrategyType *)
Definition StringToTrustRegionStrategyType (value : string) (type : Z) : bool * Z :=
  let value := UpperCase value in
  if String.eqb value "LEVENBERG_MARQUARDT" then (true, LEVENBERG_MARQUARDT) else
  if String.eqb value "DOGLEG" then (true, DOGLEG) else
  (false, type).

(* types.cc:181-188  DoglegTypeToString *)
Definition DoglegTypeToString (type : Z) : string :=
  if Z.eqb type TRADITIONAL_DOGLEG then "TRADITIONAL_DOGLEG" else
  if Z.eqb type SUBSPACE_DOGLEG then "SUBSPACE_DOGLEG" else
  "UNKNOWN".

(* types.cc:190-195  StringToDoglegType *)
Definition StringToDoglegType (value : string) (type : Z) : bool * Z :=
  let value := UpperCase value in
  if String.eqb value "TRADITIONAL_DOGLEG" then (true, TRADITIONAL_DOGLEG) else
  if String.eqb value "SUBSPACE_DOGLEG" then (true, SUBSPACE_DOGLEG) else
  (false, type).

(* types.cc:197-204  MinimizerTypeToString *)
Definition MinimizerTypeToString (type : Z) : string :=
  if Z.eqb type TRUST_REGION then "TRUST_REGION" else
  if Z.eqb type LINE_SEARCH then "LINE_SEARCH" else
  "UNKNOWN".

(* types.cc:206-211  StringToMinimizerType *)
Definition StringToMinimizerType (value : string) (type : Z) : bool * Z :=
  let value := UpperCase value in
  if String.eqb value "TRUST_REGION" then (true, TRUST_REGION) else
  if String.eqb value "LINE_SEARCH" then (true, LINE_SEARCH) else
  (false, type).

(* types.cc:213-222  LineSearchDirectionTypeToString *)
Definition LineSearchDirectionTypeToString (type : Z) : string :=
  if Z.eqb type STEEPEST_DESCENT then "STEEPEST_DESCENT" else
  if Z.eqb type NONLINEAR_CONJUGATE_GRADIENT then "NONLINEAR_CONJUGATE_GRADIENT" else
  if Z.eqb type LBFGS then "LBFGS" else
  if Z.eqb type BFGS then "BFGS" else
  "UNKNOWN".

(* types.cc:224-232  StringToLineSearchDirectionType *)
Definition StringToLineSearchDirectionType (value : string) (type : Z) : bool * Z :=
  let value := UpperCase value in
  if String.eqb value "STEEPEST_DESCENT" then (true, STEEPEST_DESCENT) else
  if String.eqb value "NONLINEAR_CONJUGATE_GRADIENT" then (true, NONLINEAR_CONJUGATE_GRADIENT) else
  if String.eqb value "LBFGS" then (true, LBFGS) else
  if String.eqb value "BFGS" then (true, BFGS) else
  (false, type).

(* types.cc:234-241  LineSearchTypeToString *)
Definition LineSearchTypeToString (type : Z) : string :=
  if Z.eqb type ARMIJO then "ARMIJO" else
  if Z.eqb type WOLFE then "WOLFE" else
  "UNKNOWN".

(* types.cc:243-248  StringToLineSearchType *)
Definition StringToLineSearchType (value : string) (type : Z) : bool * Z :=
  let value := UpperCase value in
  if String.eqb value "ARMIJO" then (true, ARMIJO) else
  if String.eqb value "WOLFE" then (true, WOLFE) else
  (false, type).

(* types.cc:250-259  LineSearchInterpolationTypeToString *)
Definition LineSearchInterpolationTypeToString (type : Z) : string :=
  if Z.eqb type BISECTION then "BISECTION" else
  if Z.eqb type QUADRATIC then "QUADRATIC" else
  if Z.eqb type CUBIC then "CUBIC" else
  "UNKNOWN".

(* types.cc:261-268  StringToLineSearchInterpolationType *)
Definition StringToLineSearchInterpolationType (value : string) (type : Z) : bool * Z :=
  let value := UpperCase value in
  if String.eqb value "BISECTION" then (true, BISECTION) else
  if String.eqb value "QUADRATIC" then (true, QUADRATIC) else
  if String.eqb value "CUBIC" then (true, CUBIC) else
  (false, type).

(* types.cc:270-279  NonlinearConjugateGradientTypeToString *)
Definition NonlinearConjugateGradientTypeToString (type : Z) : string :=
  if Z.eqb type FLETCHER_REEVES then "FLETCHER_REEVES" else
  if Z.eqb type POLAK_RIBIERE then "POLAK_RIBIERE" else
  if Z.eqb type HESTENES_STIEFEL then "HESTENES_STIEFEL" else
  "UNKNOWN".

(* types.cc:281-288  StringToNonlinearConjugateGradientType *)
Definition StringToNonlinearConjugateGradientType (value : string) (type : Z) : bool * Z :=
  let value := UpperCase value in
  if String.eqb value "FLETCHER_REEVES" then (true, FLETCHER_REEVES) else
  if String.eqb value "POLAK_RIBIERE" then (true, POLAK_RIBIERE) else
  if String.eqb value "HESTENES_STIEFEL" then (true, HESTENES_STIEFEL) else
  (false, type).

(* types.cc:290-297  CovarianceAlgorithmTypeToString *)
Definition CovarianceAlgorithmTypeToString (type : Z) : string :=
  if Z.eqb type DENSE_SVD then "DENSE_SVD" else
  if Z.eqb type SPARSE_QR then "SPARSE_QR" else
  "UNKNOWN".

(* types.cc:299-305  StringToCovarianceAlgorithmType *)
Definition StringToCovarianceAlgorithmType (value : string) (type : Z) : bool * Z :=
  let value := UpperCase value in
  if String.eqb value "DENSE_SVD" then (true, DENSE_SVD) else
  if String.eqb value "SPARSE_QR" then (true, SPARSE_QR) else
  (false, type).

(* types.cc:307-315  NumericDiffMethodTypeToString *)
Definition NumericDiffMethodTypeToString (type : Z) : string :=
  if Z.eqb type CENTRAL then "CENTRAL" else
  if Z.eqb type FORWARD then "FORWARD" else
  if Z.eqb type RIDDERS then "RIDDERS" else
  "UNKNOWN".

(* types.cc:317-324  StringToNumericDiffMethodType *)
Definition StringToNumericDiffMethodType (value : string) (type : Z) : bool * Z :=
  let value := UpperCase value in
  if String.eqb value "CENTRAL" then (true, CENTRAL) else
  if String.eqb value "FORWARD" then (true, FORWARD) else
  if String.eqb value "RIDDERS" then (true, RIDDERS) else
  (false, type).

(* types.cc:326-333  VisibilityClusteringTypeToString *)
Definition VisibilityClusteringTypeToString (type : Z) : string :=
  if Z.eqb type CANONICAL_VIEWS then "CANONICAL_VIEWS" else
  if Z.eqb type SINGLE_LINKAGE then "SINGLE_LINKAGE" else
  "UNKNOWN".

(* types.cc:335-341  StringToVisibilityClusteringType *)
Definition StringToVisibilityClusteringType (value : string) (type : Z) : bool * Z :=
  let value := UpperCase value in
  if String.eqb value "CANONICAL_VIEWS" then (true, CANONICAL_VIEWS) else
  if String.eqb value "SINGLE_LINKAGE" then (true, SINGLE_LINKAGE) else
  (false, type).

(* types.cc:343-353  TerminationTypeToString *)
Definition TerminationTypeToString (type : Z) : string :=
  if Z.eqb type CONVERGENCE then "CONVERGENCE" else
  if Z.eqb type NO_CONVERGENCE then "NO_CONVERGENCE" else
  if Z.eqb type FAILURE then "FAILURE" else
  if Z.eqb type USER_SUCCESS then "USER_SUCCESS" else
  if Z.eqb type USER_FAILURE then "USER_FAILURE" else
  "UNKNOWN".

(* types.cc:355-362  LoggingTypeToString *)
Definition LoggingTypeToString (type : Z) : string :=
  if Z.eqb type SILENT then "SILENT" else
  if Z.eqb type PER_MINIMIZER_ITERATION then "PER_MINIMIZER_ITERATION" else
  "UNKNOWN".

(* types.cc:364-369  StringToLoggingType *)
Definition StringToLoggingType (value : string) (type : Z) : bool * Z :=
  let value := UpperCase value in
  if String.eqb value "SILENT" then (true, SILENT) else
  if String.eqb value "PER_MINIMIZER_ITERATION" then (true, PER_MINIMIZER_ITERATION) else
  (false, type).

(* types.cc:371-378  DumpFormatTypeToString *)
Definition DumpFormatTypeToString (type : Z) : string :=
  if Z.eqb type CONSOLE then "CONSOLE" else
  if Z.eqb type TEXTFILE then "TEXTFILE" else
  "UNKNOWN".

(* types.cc:380-385  StringToDumpFormatType *)
Definition StringToDumpFormatType (value : string) (type : Z) : bool * Z :=
  let value := UpperCase value in
  if String.eqb value "CONSOLE" then (true, CONSOLE) else
  if String.eqb value "TEXTFILE" then (true, TEXTFILE) else
  (false, type).

(* types.cc:390-396  IsSchurType *)
Definition IsSchurType (type : Z) : bool :=
  (Z.eqb type SPARSE_SCHUR) || (Z.eqb type DENSE_SCHUR) || (Z.eqb type ITERATIVE_SCHUR).

(* the compile time switches CERES_NO_SUITESPARSE, CERES_NO_ACCELERATE_SPARSE,
   CERES_USE_EIGEN_SPARSE, CERES_NO_CUDA and CERES_NO_LAPACK *)
Record build : Type := mkbuild {
  no_suitesparse : bool; no_accelerate : bool; use_eigen_sparse : bool; no_cuda : bool; no_lapack : bool
}.

(* types.cc:398-438  IsSparseLinearAlgebraLibraryTypeAvailable *)
Definition IsSparseLinearAlgebraLibraryTypeAvailable (b : build) (type : Z) : bool :=
  if Z.eqb type SUITE_SPARSE then negb (no_suitesparse b) else
  if Z.eqb type ACCELERATE_SPARSE then negb (no_accelerate b) else
  if Z.eqb type EIGEN_SPARSE then use_eigen_sparse b else
  if Z.eqb type CUDA_SPARSE then negb (no_cuda b) else
  if Z.eqb type NO_SPARSE then true else
  false.

(* types.cc:440-463  IsDenseLinearAlgebraLibraryTypeAvailable *)
Definition IsDenseLinearAlgebraLibraryTypeAvailable (b : build) (type : Z) : bool :=
  if Z.eqb type EIGEN then true else
  if Z.eqb type LAPACK then negb (no_lapack b) else
  if Z.eqb type CUDA then negb (no_cuda b) else
  false.
