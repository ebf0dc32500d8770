(* Specification for C62: the system A x = b, the quadratic model, Krylov spaces. *)
From Coq Require Import Reals ZArith Arith.
From Verif Require Import SchurModel CGModel.
Open Scope R_scope.

(* A x *)
Definition apply (n : nat) (A : matrix) (x : vec) : vec := fun i => sumn n (fun j => A i j * x j).
(* on a zero vector the operator gives A x *)
Definition represents (n : nat) (op : Operator) (A : matrix) : Prop := forall x i, (i < n)%nat -> op x (fun _ => 0) i = apply n A x i.
Definition inner (n : nat) (x y : vec) : R := sumn n (fun i => x i * y i).
Definition symmetric (n : nat) (A : matrix) : Prop := forall i j, (i < n)%nat -> (j < n)%nat -> A i j = A j i.
Definition semidefinite (n : nat) (A : matrix) : Prop := forall v, 0 <= inner n v (apply n A v).
Definition definite (n : nat) (A : matrix) : Prop := forall v, (exists i, (i < n)%nat /\ v i <> 0) -> 0 < inner n v (apply n A v).
Definition same (n : nat) (x y : vec) : Prop := forall i, (i < n)%nat -> x i = y i.
(* x' A x - 2 b' x *)
Definition Q (n : nat) (A : matrix) (b x : vec) : R := inner n x (apply n A x) - 2 * inner n b x.
Definition residual (n : nat) (A : matrix) (b x : vec) : vec := fun i => b i - apply n A x i.
Definition length_of (n : nat) (x : vec) : R := sqrt (inner n x x).
(* v is a combination of w 0, ..., w (k - 1) *)
Definition in_span (n k : nat) (w : nat -> vec) (v : vec) : Prop := exists c : nat -> R, forall i, (i < n)%nat -> v i = sumn k (fun j => c j * w j i).
(* the Krylov vectors (M A)^j M r of the residual r at x0; M: the preconditioner *)
Fixpoint krylov (n : nat) (A M : matrix) (b x0 : vec) (j : nat) : vec :=
  match j with O => apply n M (residual n A b x0) | S j' => apply n M (apply n A (krylov n A M b x0 j')) end.
(* x is what k steps of conjugate gradients give: the only point of x0 plus the Krylov
   space of dimension k where Q is smallest *)
Definition cg_point (n : nat) (A M : matrix) (b x0 : vec) (k : nat) (x : vec) : Prop :=
  in_span n k (krylov n A M b x0) (fun i => x i - x0 i) /\
  forall y, in_span n k (krylov n A M b x0) (fun i => y i - x0 i) -> same n x y \/ Q n A b x < Q n A b y.

(* the two stopping tests after k steps: x is the point, x' the one before it *)
Definition small_residual (n : nat) (A : matrix) (b : vec) (r_tol : R) (x : vec) : Prop := length_of n (residual n A b x) <= r_tol * length_of n b.
Definition small_decrease (n : nat) (A : matrix) (b : vec) (q_tol : R) (k : nat) (x x' : vec) : Prop :=
  (0 < k)%nat /\ (Q n A b x <> 0 -> INR k * (Q n A b x - Q n A b x') / Q n A b x < q_tol) /\ (Q n A b x = 0 -> Q n A b x < Q n A b x').
Definition may_stop (o : Options) (k : nat) : Prop := if (k =? 0)%nat then min_num_iterations o = 0%Z else (min_num_iterations o <= Z.of_nat k)%Z.
Definition stop (n : nat) (o : Options) (A : matrix) (b : vec) (k : nat) (x x' : vec) : Prop :=
  may_stop o k /\ (small_residual n A b (r_tolerance o) x \/ small_decrease n A b (q_tolerance o) k x x').

(* the points of k steps: each is the conjugate gradients point, the quadratic model goes
   down, and no stopping test held before the last one *)
Definition path (n : nat) (o : Options) (A M : matrix) (b x0 : vec) (k : nat) (xs : nat -> vec) : Prop :=
  same n (xs 0%nat) x0 /\ (k <= n)%nat /\ ((k <= 1)%nat \/ (Z.of_nat k <= max_num_iterations o)%Z) /\
  (forall j, (j <= k)%nat -> cg_point n A M b x0 j (xs j)) /\
  (forall j, (j < k)%nat -> Q n A b (xs (S j)) < Q n A b (xs j)) /\
  (forall j, (j < k)%nat -> ~ stop n o A b j (xs j) (xs (j - 1)%nat)).

(* what the summary says, k steps having been made, is so *)
Definition justified (n : nat) (o : Options) (A M : matrix) (b : vec) (k : nat) (xs : nat -> vec) (s : Summary) : Prop :=
  let x := xs k in let x' := xs (k - 1)%nat in
  match message s with
  | RhsIsZero => False
  | BetaIsZero => False
  | InitialResidual => termination_type s = SUCCESS /\ num_iterations s = 0%Z /\ k = 0%nat /\ may_stop o 0 /\ small_residual n A b (r_tolerance o) x
  | Residual => termination_type s = SUCCESS /\ num_iterations s = Z.of_nat k /\ (0 < k)%nat /\ may_stop o k /\ small_residual n A b (r_tolerance o) x
  | QuadraticModel => termination_type s = SUCCESS /\ num_iterations s = Z.of_nat k /\ may_stop o k /\ small_decrease n A b (q_tolerance o) k x x'
  | MaxIterations => termination_type s = NO_CONVERGENCE /\ num_iterations s = Z.of_nat k /\ (0 < k)%nat /\ (max_num_iterations o <= Z.of_nat k)%Z /\ ~ stop n o A b k x x'
  | Indefinite => termination_type s = NO_CONVERGENCE /\ num_iterations s = Z.of_nat (S k) /\ ~ stop n o A b k x x' /\
      exists p, inner n p (apply n A p) <= 0 /\ inner n p (residual n A b x) <> 0
  | RhoIsZero => termination_type s = FAILURE /\ num_iterations s = Z.of_nat (S k) /\ ~ stop n o A b k x x' /\
      inner n (residual n A b x) (apply n M (residual n A b x)) = 0
  end.
