(* Specification for C73. *)
From Coq Require Import Reals List Arith.
From Verif Require Import SchurModel LsqModel.
Import ListNotations.
Open Scope R_scope.

(* A has m rows and n columns; D is a diagonal matrix or absent *)
Definition row_times (n : nat) (A : nat -> nat -> R) (x : nat -> R) (p : nat) : R := sumn n (fun q => A p q * x q).
Definition weight (D : option (nat -> R)) (q : nat) : R := match D with Some d => d q | None => 0 end.
(* |A x - b|^2 + |D x|^2 *)
Definition objective (m n : nat) (A : nat -> nat -> R) (b : nat -> R) (D : option (nat -> R)) (x : nat -> R) : R :=
  sumn m (fun p => (row_times n A x p - b p) * (row_times n A x p - b p)) + sumn n (fun q => (weight D q * x q) * (weight D q * x q)).
Definition minimizes (m n : nat) (A : nat -> nat -> R) (b : nat -> R) (D : option (nat -> R)) (x : nat -> R) : Prop :=
  forall y, objective m n A b D x <= objective m n A b D y.
(* no nonzero v has A v = 0 and D v = 0 *)
Definition full_rank (m n : nat) (A : nat -> nat -> R) (D : option (nat -> R)) : Prop :=
  forall v, (forall p, (p < m)%nat -> row_times n A v p = 0) -> (forall q, (q < n)%nat -> weight D q * v q = 0) -> forall q, (q < n)%nat -> v q = 0.
Definition same (n : nat) (x y : nat -> R) : Prop := forall q, (q < n)%nat -> x q = y q.

Definition symmetric_matrix (n : nat) (m : nat -> nat -> R) : Prop := forall i j, (i < n)%nat -> (j < n)%nat -> m i j = m j i.
Definition positive_definite (n : nat) (m : nat -> nat -> R) : Prop :=
  symmetric_matrix n m /\ forall v, (exists i, (i < n)%nat /\ v i <> 0) -> 0 < sumn n (fun i => v i * row_times n m v i).

(* what a Cholesky factorization promises in exact arithmetic: a successful one solves with the
   matrix it was given; the factor is lower triangular, has a positive diagonal and m = l l' *)
Definition exact_cholesky (c : Cholesky) : Prop :=
  forall n m f, symmetric_matrix n m -> factorize c n m = Some f ->
    (forall rhs, same n (row_times n m (solve c n f rhs)) rhs) /\
    (forall i j, (i < n)%nat -> (j <= i)%nat -> m i j = sumn (S j) (fun k => lower_factor c f i k * lower_factor c f j k)) /\
    (forall i, (i < n)%nat -> 0 < lower_factor c f i i).
(* it succeeds on all positive definite matrices *)
Definition complete_cholesky (c : Cholesky) : Prop :=
  forall n m, positive_definite n m -> exists f, factorize c n m = Some f.
(* a QR factorization solves the least squares problem of a matrix with full column rank if it
   reports a solution; it reports one for these matrices *)
Definition exact_qr (q : QR) : Prop :=
  forall m n A b, full_rank m n A None ->
    exists x, qr_solve q m n (qr_factorize q m n A) b = Some x /\ minimizes m n A b None x.
(* an inexact factorization: the error of one solve is at most rho times the solution, in the
   measure size *)
Definition accurate (c : Cholesky) (n : nat) (m : nat -> nat -> R) (f : Factor c) (size : (nat -> R) -> R) (rho : R) : Prop :=
  forall z r, same n (row_times n m z) r -> size (fun i => z i - solve c n f r i) <= rho * size z.
Definition measures (n : nat) (size : (nat -> R) -> R) : Prop := forall x y, same n x y -> size x = size y.
