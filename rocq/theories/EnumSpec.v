(* Specification for C51: the names of the enumerators as the header lists them
   and what a conversion to and from strings has to do. *)

From Coq Require Import String Ascii ZArith List.
Import ListNotations.
Local Open Scope Z_scope.
Local Open Scope string_scope.

(* the names in the order of the header; the value is the position *)
Definition named (names : list string) (v : Z) (s : string) : Prop :=
  exists n, v = Z.of_nat n /\ nth_error names n = Some s.

Definition letters : list (ascii * ascii) :=
  [("a","A");("b","B");("c","C");("d","D");("e","E");("f","F");("g","G");("h","H");("i","I");
   ("j","J");("k","K");("l","L");("m","M");("n","N");("o","O");("p","P");("q","Q");("r","R");
   ("s","S");("t","T");("u","U");("v","V");("w","W");("x","X");("y","Y");("z","Z")]%char.

Definition same_letter (a b : ascii) : Prop := a = b \/ In (a, b) letters \/ In (b, a) letters.

(* the same string up to upper and lower case *)
Inductive same_ignoring_case : string -> string -> Prop :=
| same_empty : same_ignoring_case "" ""
| same_cons a b s t : same_letter a b -> same_ignoring_case s t ->
    same_ignoring_case (String a s) (String b t).

(* enumerators are printed as their names, other integers as UNKNOWN *)
Definition prints (names : list string) (to : Z -> string) : Prop :=
  (forall v s, named names v s -> to v = s) /\
  (forall v, (forall s, ~ named names v s) -> to v = "UNKNOWN").

(* exactly the names are accepted, in any case; otherwise the variable keeps
   its value *)
Definition parses (names : list string) (from : string -> Z -> bool * Z) : Prop :=
  forall s old,
    (forall v n, named names v n -> same_ignoring_case s n -> from s old = (true, v)) /\
    ((forall v n, named names v n -> ~ same_ignoring_case s n) -> from s old = (false, old)).

(* include/ceres/types.h:57-91 *)
Definition LinearSolverType_names : list string :=
  ["DENSE_NORMAL_CHOLESKY"; "DENSE_QR"; "SPARSE_NORMAL_CHOLESKY"; "DENSE_SCHUR"; "SPARSE_SCHUR"; "ITERATIVE_SCHUR"; "CGNR"].
(* include/ceres/types.h:93-141 *)
Definition PreconditionerType_names : list string :=
  ["IDENTITY"; "JACOBI"; "SCHUR_JACOBI"; "SCHUR_POWER_SERIES_EXPANSION"; "CLUSTER_JACOBI"; "CLUSTER_TRIDIAGONAL"; "SUBSET"].
(* include/ceres/types.h:166-185 *)
Definition SparseLinearAlgebraLibraryType_names : list string :=
  ["SUITE_SPARSE"; "EIGEN_SPARSE"; "ACCELERATE_SPARSE"; "CUDA_SPARSE"; "NO_SPARSE"].
(* include/ceres/types.h:204-209 *)
Definition LinearSolverOrderingType_names : list string :=
  ["AMD"; "NESDIS"].
(* include/ceres/types.h:211-215 *)
Definition DenseLinearAlgebraLibraryType_names : list string :=
  ["EIGEN"; "LAPACK"; "CUDA"].
(* include/ceres/types.h:318-339 *)
Definition TrustRegionStrategyType_names : list string :=
  ["LEVENBERG_MARQUARDT"; "DOGLEG"].
(* include/ceres/types.h:348-357 *)
Definition DoglegType_names : list string :=
  ["TRADITIONAL_DOGLEG"; "SUBSPACE_DOGLEG"].
(* include/ceres/types.h:224-227 *)
Definition MinimizerType_names : list string :=
  ["LINE_SEARCH"; "TRUST_REGION"].
(* include/ceres/types.h:229-295 *)
Definition LineSearchDirectionType_names : list string :=
  ["STEEPEST_DESCENT"; "NONLINEAR_CONJUGATE_GRADIENT"; "LBFGS"; "BFGS"].
(* include/ceres/types.h:309-314 *)
Definition LineSearchType_names : list string :=
  ["ARMIJO"; "WOLFE"].
(* include/ceres/types.h:459-463 *)
Definition LineSearchInterpolationType_names : list string :=
  ["BISECTION"; "QUADRATIC"; "CUBIC"].
(* include/ceres/types.h:303-307 *)
Definition NonlinearConjugateGradientType_names : list string :=
  ["FLETCHER_REEVES"; "POLAK_RIBIERE"; "HESTENES_STIEFEL"].
(* include/ceres/types.h:465-468 *)
Definition CovarianceAlgorithmType_names : list string :=
  ["DENSE_SVD"; "SPARSE_QR"].
(* include/ceres/types.h:446-457 *)
Definition NumericDiffMethodType_names : list string :=
  ["CENTRAL"; "FORWARD"; "RIDDERS"].
(* include/ceres/types.h:143-164 *)
Definition VisibilityClusteringType_names : list string :=
  ["CANONICAL_VIEWS"; "SINGLE_LINKAGE"].
(* include/ceres/types.h:359-395 *)
Definition TerminationType_names : list string :=
  ["CONVERGENCE"; "NO_CONVERGENCE"; "FAILURE"; "USER_SUCCESS"; "USER_FAILURE"].
(* include/ceres/types.h:219-222 *)
Definition LoggingType_names : list string :=
  ["SILENT"; "PER_MINIMIZER_ITERATION"].
(* include/ceres/types.h:419-435 *)
Definition DumpFormatType_names : list string :=
  ["CONSOLE"; "TEXTFILE"].
