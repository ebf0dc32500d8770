(** Vocabulary for the statements about polynomials. *)
Require Import Reals List Lra.
From Coquelicot Require Import Coquelicot.
From Verif Require Import PolynomialModel.
Import ListNotations.
Open Scope R_scope.

(** the value of c_0 x^n + ... + c_n by definition *)
Fixpoint power_sum (p : poly) (x : R) : R :=
  match p with [] => 0 | c :: q => c * x ^ (length q) + power_sum q x end.

(** p goes through the samples *)
Definition matches (p : poly) (s : sample) : Prop :=
  (forall v, s_value s = Some v -> eval p (s_x s) = v) /\
  (forall g, s_gradient s = Some g -> is_derive (eval p) (s_x s) g).

(** a linear solver's contract: when the system has a solution it returns one, of the right size *)
Fixpoint row_dot (a b : list R) : R :=
  match a, b with x :: a', y :: b' => x * y + row_dot a' b' | _, _ => 0 end.
Definition solves (n : nat) (p : poly) (eqs : list (list R * R)) : Prop :=
  length p = n /\ (forall e, In e eqs -> row_dot (fst e) p = snd e).
Definition solver_ok (solve : list (list R * R) -> poly) (eqs : list (list R * R)) : Prop :=
  forall p, solves (length eqs) p eqs -> solves (length eqs) (solve eqs) eqs.

(** x is an eigenvalue of the n by n matrix m (v is a row vector: v m = x v) *)
Fixpoint sum_of (n : nat) (f : nat -> R) : R :=
  match n with O => 0 | S k => sum_of k f + f k end.
Definition eigenvalue (n : nat) (m : mat) (x : R) : Prop :=
  exists v : nat -> R, (exists i, (i < n)%nat /\ v i <> 0) /\
    forall j, (j < n)%nat -> sum_of n (fun i => v i * m i j) = x * v j.
(** an eigenvalue solver's contract, real eigenvalues only: when it succeeds it
    returns exactly those *)
Definition eigensolver_ok (eig : nat -> mat -> option (list root)) : Prop :=
  forall n m l x, eig n m = Some l -> (In (Some x, Some 0) l <-> eigenvalue n m x).

(** x is a global minimum of f on [a, b] *)
Definition minimum_on (f : R -> R) (a b x : R) : Prop :=
  a <= x <= b /\ forall y, a <= y <= b -> f x <= f y.

(** samples at different points, with a value wherever there is a gradient *)
Definition hermite (l : list sample) : Prop :=
  NoDup (map s_x l) /\ forall s, In s l -> s_gradient s <> None -> s_value s <> None.
