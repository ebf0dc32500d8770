(* Specification for C65: the inverse of J'J and its blocks. *)
From Coq Require Import Reals ZArith List Arith Bool Permutation.
From Verif Require Import SchurModel CGModel CGSpec SparseModel SparseSpec ImplicitSchurSpec CovarianceModel.
Import ListNotations.
Open Scope R_scope.

(* the blocks that vary: not constant, of positive dimension, some residual depends on them *)
Definition varying (p : CProblem) (b : PBlock) : Prop := In b (p_blocks p) /\ p_constant b = false /\ (0 < p_tangent b)%nat /\ exists u, In u (p_uses p) /\ In (pointer b) u.
(* all blocks are different arrays; without a manifold both sizes agree *)
Definition proper (p : CProblem) : Prop :=
  NoDup (map pointer (p_blocks p)) /\ forall b, In b (p_blocks p) -> p_plus b = None -> p_tangent b = p_size b.
(* what PlusJacobian gives, the identity without manifold *)
Definition plus_jacobian (b : PBlock) : matrix := match p_plus b with Some j => j | None => fun i j => if (i =? j)%nat then 1 else 0 end.

(* l: the varying blocks in the order of their addresses *)
Definition listing (p : CProblem) (l : list PBlock) : Prop :=
  (forall b, In b l <-> varying p b) /\ forall i j b c, nth_error l i = Some b -> nth_error l j = Some c -> (i < j)%nat -> (pointer b < pointer c)%nat.
(* the first column of the i-th of them, and the number of columns *)
Fixpoint first_column (l : list PBlock) (i : nat) : nat := match l, i with b :: l', S i' => p_tangent b + first_column l' i' | _, _ => 0%nat end.
Definition columns (l : list PBlock) : nat := first_column l (length l).

(* asked for, in one order or the other *)
Definition requested (pairs : list (nat * nat)) (a b : nat) : Prop := In (a, b) pairs \/ In (b, a) pairs.
(* M is, on r rows and c columns, the block of C that begins at (i, j) *)
Definition is_block (C : matrix) (i j r c : nat) (M : matrix) : Prop := forall x y, (x < r)%nat -> (y < c)%nat -> M x y = C (i + x)%nat (j + y)%nat.
(* M = P1 B P2' for the block B of C that begins at (i, j) *)
Definition is_lifted (C : matrix) (i j : nat) (b c : PBlock) (M : matrix) : Prop := forall x y, (x < p_size b)%nat -> (y < p_size c)%nat ->
  M x y = sumn (p_tangent b) (fun u => sumn (p_tangent c) (fun v => plus_jacobian b x u * C (i + u)%nat (j + v)%nat * plus_jacobian c y v)).

(* J'J *)
Definition information (m : nat) (J : matrix) : matrix := fun i j => sumn m (fun r => J r i * J r j).
Definition transposed (A : matrix) : matrix := fun i j => A j i.
(* the four equations of Moore and Penrose *)
Definition mul (n : nat) (A B : matrix) : matrix := fun i j => sumn n (fun k => A i k * B k j).
Definition pseudo_inverse (n : nat) (A C : matrix) : Prop := forall i j, (i < n)%nat -> (j < n)%nat ->
  mul n (mul n A C) A i j = A i j /\ mul n (mul n C A) C i j = C i j /\ mul n A C i j = mul n A C j i /\ mul n C A i j = mul n C A j i.

(* the contract of the QR factorisation of an (m x n)-matrix A: when all columns are
   independent, R is upper triangular with the diagonal entry last in every column, and
   R'R = P'(A'A)P *)
Definition upper_factor (n : nat) (R : crs) : Prop :=
  m_valid R /\ m_num_rows R = n /\ m_num_cols R = n /\
  forall c, (c < n)%nat -> exists above d, row_entries R c = above ++ [(c, d)] /\ d <> 0 /\ forall e, In e above -> (fst e < c)%nat.
Definition permuted (perm : option (list nat)) (i : nat) : nat := match perm with Some l => nth i l 0%nat | None => i end.
Definition factors (m n : nat) (A : matrix) (q : QRResult) : Prop :=
  q_ok q = true -> (n <= q_rank q)%nat ->
  upper_factor n (q_R q) /\ (forall l, q_permutation q = Some l -> Permutation l (seq 0 n)) /\
  forall i j, (i < n)%nat -> (j < n)%nat -> information n (transposed (m_matrix (q_R q))) i j = information m A (permuted (q_permutation q) i) (permuted (q_permutation q) j).
(* the matrix handed to the factorisation: SuiteSparse takes columns *)
Definition handed (alg : Algorithm) (A : crs) : matrix := match alg with SUITE_SPARSE_QR => transposed (m_matrix A) | _ => m_matrix A end.
Definition sparse_qr (alg : Algorithm) : Prop := alg = EIGEN_SPARSE_QR \/ alg = SUITE_SPARSE_QR.

(* the contract of the thin singular value decomposition of an (m x n)-matrix *)
Definition decomposes (m n : nat) (A : matrix) (d : SVDResult) : Prop :=
  let s := singular_values d in let V := matrix_V d in
  length s = Nat.min m n /\ (forall i, (i < length s)%nat -> 0 <= nth i s 0) /\
  (forall i j, (i <= j < length s)%nat -> nth j s 0 <= nth i s 0) /\
  (forall i j, (i < length s)%nat -> (j < length s)%nat -> sumn n (fun r => V r i * V r j) = if (i =? j)%nat then 1 else 0) /\
  (forall i j, (i < n)%nat -> (j < n)%nat -> information m A i j = sumn (length s) (fun k => V i k * (nth k s 0 * nth k s 0) * V j k)).
(* J'J when only the singular values with kept k = true are left *)
Definition truncated (d : SVDResult) (kept : nat -> bool) : matrix := fun i j =>
  sumn (length (singular_values d)) (fun k => matrix_V d i k * (if kept k then nth k (singular_values d) 0 * nth k (singular_values d) 0 else 0) * matrix_V d j k).
(* the singular value number k is not too small *)
Definition large_enough (o : COptions) (d : SVDResult) (k : nat) : Prop :=
  sqrt (min_reciprocal_condition_number o) <= nth k (singular_values d) 0 / nth 0 (singular_values d) 0.

(* s answers every question about the covariance C for the listed blocks *)
Definition answers (p : CProblem) (l : list PBlock) (pairs : list (nat * nat)) (C : matrix) (s : Covariance) : Prop :=
  forall i j b c, nth_error l i = Some b -> nth_error l j = Some c -> requested pairs (pointer b) (pointer c) ->
    (exists M, GetBlock p s (pointer b) (pointer c) false = Done (Some M) /\ is_block C (first_column l i) (first_column l j) (p_tangent b) (p_tangent c) M) /\
    (exists M, GetBlock p s (pointer b) (pointer c) true = Done (Some M) /\ is_lifted C (first_column l i) (first_column l j) b c M).
(* a block that does not vary has covariance zero with every block, asked for or not *)
Definition zero_answers (p : CProblem) (s : Covariance) : Prop :=
  forall b c lift, In b (p_blocks p) -> In c (p_blocks p) -> ~ varying p b \/ ~ varying p c ->
    exists M, GetBlock p s (pointer b) (pointer c) lift = Done (Some M) /\ forall x y, M x y = 0.

(* a pair of varying blocks that was not asked for has no answer; it is not found if something
   further down was asked for *)
Definition varying_at (p : CProblem) (a : nat) : Prop := exists b, varying p b /\ pointer b = a.
Definition misses (p : CProblem) (pairs : list (nat * nat)) (s : Covariance) : Prop :=
  forall a b lift, varying_at p a -> varying_at p b -> ~ requested pairs a b ->
    (GetBlock p s a b lift = Done None \/ GetBlock p s a b lift = Undefined) /\
    (forall c d, varying_at p c -> varying_at p d -> requested pairs c d -> (Nat.min a b < Nat.min c d)%nat -> GetBlock p s a b lift = Done None).
(* the pairs are different and name blocks of the problem *)
Definition askable (p : CProblem) (pairs : list (nat * nat)) : Prop :=
  NoDup pairs /\ forall a b, In (a, b) pairs -> (exists c, In c (p_blocks p) /\ pointer c = a) /\ (exists c, In c (p_blocks p) /\ pointer c = b).
(* no pair of varying blocks was asked for *)
Definition nothing_asked (p : CProblem) (pairs : list (nat * nat)) : Prop := forall a b, varying_at p a -> varying_at p b -> ~ requested pairs a b.
