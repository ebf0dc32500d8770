(* Specification for C64: the regularised normal equations and what is left of them when the
   first ne unknowns are eliminated. *)
From Coq Require Import Reals ZArith List Arith Bool.
From Verif Require Import SchurModel BlockSparseModel BlockSparseSpec CGModel CGSpec ImplicitSchurModel.
Import ListNotations.
Open Scope R_scope.

(* H = A'A + D'D and g = A'b *)
Definition weight (D : option vec) (i : nat) : R := match D with Some d => d i * d i | None => 0 end.
Definition normal (a : BlockSparse) (D : option vec) : matrix := fun i j =>
  sumn (height (structure a)) (fun p => entries a p i * entries a p j) + if (i =? j)%nat then weight D i else 0.
Definition gradient (a : BlockSparse) (b : vec) : vec := fun i => sumn (height (structure a)) (fun p => entries a p i * b p).

(* (u, x) *)
Definition joined (ne : nat) (u x : vec) : vec := fun i => if (i <? ne)%nat then u i else x (i - ne)%nat.
(* the equations from ne on *)
Definition lower (ne : nat) (x : vec) : vec := fun i => x (ne + i)%nat.
(* y = S x: H (u, x) = (0, y) for some u *)
Definition schur_product (ne nf : nat) (H : matrix) (x y : vec) : Prop :=
  exists u, same ne (apply (ne + nf) H (joined ne u x)) (fun _ => 0) /\ same nf (lower ne (apply (ne + nf) H (joined ne u x))) y.
(* g - H (u, 0) = (0, r) for some u *)
Definition reduced_rhs (ne nf : nat) (H : matrix) (g r : vec) : Prop :=
  exists u, same ne (residual (ne + nf) H g (joined ne u (fun _ => 0))) (fun _ => 0) /\ same nf (lower ne (residual (ne + nf) H g (joined ne u (fun _ => 0)))) r.
(* the Schur complement as a matrix *)
Definition is_schur (ne nf : nat) (H S : matrix) : Prop := forall x, schur_product ne nf H x (apply nf S x).
(* N is the inverse of M *)
Definition inverse_of (n : nat) (M N : matrix) : Prop :=
  forall i j, (i < n)%nat -> (j < n)%nat -> sumn n (fun k => M i k * N k j) = (if (i =? j)%nat then 1 else 0) /\ sumn n (fun k => N i k * M k j) = (if (i =? j)%nat then 1 else 0).
(* what is asked of Cholesky: the inverse of a symmetric definite matrix *)
Definition inverts (llt : nat -> matrix -> matrix) : Prop := forall n m, symmetric n m -> definite n m -> inverse_of n m (llt n m).

(* i and j are in the same one of the blocks of these sizes *)
Fixpoint together (bl : list Block) (i j : nat) : bool :=
  match bl with
  | [] => false
  | b :: bl' => if (i <? size b)%nat then (j <? size b)%nat else (negb (j <? size b)%nat && together bl' (i - size b) (j - size b))
  end.
(* the block diagonal of M *)
Definition block_diagonal (bl : list Block) (M : matrix) : matrix := fun i j => if together bl i j then M i j else 0.
(* the part of H that belongs to the columns from ne on, and - F'E (E'E + De'De)^-1 E'F *)
Definition corner (ne : nat) (H : matrix) : matrix := fun i j => H (ne + i)%nat (ne + j)%nat.
(* no row block has more than one f block *)
Definition one_f (nelim : nat) (bs : Structure) : Prop :=
  forall row, In row (rows bs) -> (length (filter (fun c => negb (block_id c <? nelim)%nat) (cells row)) <= 1)%nat.
(* the powers: terms 0, 1, 2, ... of the series for the inverse of B - W; V: inverse of B *)
Fixpoint series (n : nat) (V W : matrix) (x : vec) (k : nat) : vec := match k with O => apply n V x | S k' => apply n V (apply n W (series n V W x k')) end.
Definition partial_sum (n : nat) (V W : matrix) (x : vec) (k : nat) : vec := fun i => sumn (S k) (fun j => series n V W x j i).
(* |A x - b|^2 + |D x|^2 *)
Definition cost (a : BlockSparse) (D : option vec) (b x : vec) : R :=
  let n := num_columns a in
  sumn (height (structure a)) (fun p => (sumn n (fun j => entries a p j * x j) - b p) * (sumn n (fun j => entries a p j * x j) - b p)) +
  sumn n (fun i => weight D i * (x i * x i)).
(* a preconditioner made elsewhere (the Schur and cluster ones), when one is asked for and
   was updated, multiplies by a symmetric matrix with the property P; SUBSET is not asked for *)
Definition given (n : nat) (o : LinearOptions) (other : option Operator) (P : matrix -> Prop) : Prop :=
  match preconditioner_type o with
  | IDENTITY | JACOBI | SCHUR_POWER_SERIES_EXPANSION => True
  | SCHUR_JACOBI | CLUSTER_JACOBI | CLUSTER_TRIDIAGONAL => forall op, other = Some op -> exists M, symmetric n M /\ P M /\ represents n op M
  | SUBSET => False
  end.
