(* Specification for C54: difference quotients of a function of several blocks. *)
From Coq Require Import Reals List Arith ZArith Bool.
From Verif Require Import NumDiffModel.
Import ListNotations.
Open Scope R_scope.

(* the point with number j of block b increased by t *)
Definition moved1 (l : list R) (j : nat) (t : R) : list R := firstn j l ++ (nth j l 0 + t) :: skipn (S j) l.
Definition moved (x : Point) (b j : nat) (t : R) : Point := firstn b x ++ moved1 (nth b x []) j t :: skipn (S b) x.
Definition coordinate (x : Point) (b j : nat) : R := nth j (nth b x []) 0.
Definition valid (x : Point) (b j : nat) : Prop := (b < length x)%nat /\ (j < length (nth b x []))%nat.

(* difference quotients with step h; r0 is f x *)
Definition forward (f : Functor) (r0 : nat -> R) (x : Point) (b j : nat) (h : R) : option (nat -> R) :=
  match f (moved x b j h) with Some r => Some (fun i => (r i - r0 i) / h) | None => None end.
Definition central (f : Functor) (x : Point) (b j : nat) (h : R) : option (nat -> R) :=
  match f (moved x b j h), f (moved x b j (- h)) with Some p, Some m => Some (fun i => (p i - m i) / (2 * h)) | _, _ => None end.

(* the step for a number of value v: relative to v, but not below a smallest step *)
Definition relative (m : Method) (o : Options) : R := match m with RIDDERS => ridders_relative_initial_step_size o | _ => relative_step_size o end.
Definition smallest (m : Method) (o : Options) : R :=
  let e := sqrt (/ 2 ^ 52) in
  match m with RIDDERS => if Rle_dec e (ridders_relative_initial_step_size o) then ridders_relative_initial_step_size o else e | _ => e end.
Definition step (m : Method) (o : Options) (v : R) : R :=
  if Rle_dec (smallest m o) (Rabs v * relative m o) then Rabs v * relative m o else smallest m o.
Definition largest_double : R := 2 ^ 1024 - 2 ^ 971.
Definition euclid (n : nat) (v : nat -> R) : R := sqrt (fold_right Rplus 0 (map (fun i => v i ^ 2) (seq 0 n))).

(* Richardson extrapolation: row i has the step h0 / s^i, column k has order 2 k + 2 *)
Fixpoint tableau (s : R) (d : nat -> nat -> R) (k i r : nat) : R :=
  match k with
  | O => d i r
  | S k' => ((s * s) ^ k * tableau s d k' i r - tableau s d k' (i - 1) r) / ((s * s) ^ k - 1)
  end.
(* the error estimate of an entry: how much it differs from the two it comes from *)
Definition estimate (n : nat) (s : R) (d : nat -> nat -> R) (k i : nat) : R :=
  Rmax (euclid n (fun r => tableau s d k i r - tableau s d (k - 1) i r)) (euclid n (fun r => tableau s d k i r - tableau s d (k - 1) (i - 1) r)).
(* row i of the steps of Ridders' method *)
Definition ridders_step (o : Options) (h : R) (i : nat) : R :=
  h * ridders_step_shrink_factor o ^ Z.to_nat (max_num_ridders_extrapolations o / 2) / ridders_step_shrink_factor o ^ i.
(* the column c is the entry of the tableau with the smallest estimate among those computed:
   rows 0 to last, the last row perhaps only in part (if the estimate is below epsilon).
   The first entry is taken if all estimates exceed the largest double. *)
Definition ridders_column (o : Options) (f : Functor) (n : nat) (x : Point) (b j : nat) (h : R) (c : nat -> R) : Prop :=
  exists (d : nat -> nat -> R) (last k0 i0 : nat) (err : R), let s := ridders_step_shrink_factor o in
    (last < Z.to_nat (max_num_ridders_extrapolations o))%nat /\
    (forall i, (i <= last)%nat -> exists q, central f x b j (ridders_step o h i) = Some q /\ forall r, d i r = q r) /\
    (k0 <= i0 <= last)%nat /\ (forall r, c r = tableau s d k0 i0 r) /\
    (if k0 =? 0 then i0 = 0%nat /\ err = largest_double else err = estimate n s d k0 i0 /\ err <= largest_double) /\
    (forall i k, (i < last)%nat -> (1 <= k <= i)%nat -> err <= estimate n s d k i) /\
    (err < ridders_epsilon o \/ forall k, (1 <= k <= last)%nat -> err <= estimate n s d k last) /\
    (S last = Z.to_nat (max_num_ridders_extrapolations o) \/ err < ridders_epsilon o \/
     ((0 < last)%nat /\ 2 * err <= euclid n (fun r => tableau s d last last r - tableau s d (last - 1) (last - 1) r))).

(* a column of the jacobian *)
Definition column (m : Method) (o : Options) (f : Functor) (n : nat) (r0 : nat -> R) (x : Point) (b j : nat) (c : nat -> R) : Prop :=
  let h := step m o (coordinate x b j) in
  match m with
  | FORWARD => exists q, forward f r0 x b j h = Some q /\ forall r, c r = q r
  | CENTRAL => exists q, central f x b j h = Some q /\ forall r, c r = q r
  | RIDDERS => ridders_column o f n x b j h c
  end.
(* the column cannot be computed: f fails at a point that is needed *)
Definition column_fails (m : Method) (o : Options) (f : Functor) (r0 : nat -> R) (x : Point) (b j : nat) : Prop :=
  let h := step m o (coordinate x b j) in
  match m with
  | FORWARD => forward f r0 x b j h = None
  | CENTRAL => central f x b j h = None
  | RIDDERS => exists i, (i < Z.to_nat (max_num_ridders_extrapolations o))%nat /\ central f x b j (ridders_step o h i) = None
  end.
(* the points at which f may be called *)
Definition sampled (m : Method) (o : Options) (x : Point) (b j : nat) (p : Point) : Prop :=
  let h := step m o (coordinate x b j) in
  match m with
  | FORWARD => p = moved x b j h
  | CENTRAL => p = moved x b j h \/ p = moved x b j (- h)
  | RIDDERS => exists i, (i < Z.to_nat (max_num_ridders_extrapolations o))%nat /\ (p = moved x b j (ridders_step o h i) \/ p = moved x b j (- ridders_step o h i))
  end.
(* jac' is the jacobian of block b, row major, written over the first entries of jac *)
Definition jacobian_of (m : Method) (o : Options) (f : Functor) (n : nat) (r0 : nat -> R) (x : Point) (b : nat) (jac jac' : nat -> R) : Prop :=
  let size := length (nth b x []) in
  (forall j, (j < size)%nat -> exists c, column m o f n r0 x b j c /\ forall i, (i < n)%nat -> jac' (i * size + j)%nat = c i) /\
  forall p, (n * size <= p)%nat -> jac' p = jac p.
(* options for which the method makes sense *)
Definition sensible (m : Method) (o : Options) : Prop := m = RIDDERS -> (0 < max_num_ridders_extrapolations o)%Z /\ 1 < ridders_step_shrink_factor o.
(* the jacobian of block b is asked for, and it has a column j *)
Definition wanted (x : Point) (js : list (option (nat -> R))) (b j : nat) : Prop := (exists jac, nth_error js b = Some (Some jac)) /\ valid x b j.

(* g is component i of f as a function of the increment of one number *)
Definition along (f : Functor) (x : Point) (b j i : nat) (g : R -> R) : Prop := forall t, exists r, f (moved x b j t) = Some r /\ r i = g t.
(* the polynomial with coefficients a *)
Fixpoint polynomial (a : list R) (t : R) : R := match a with [] => 0 | c :: a' => c + t * polynomial a' t end.
(* entry (i, j) of the jacobian of block b in the outcome *)
Definition entry (out : Outcome) (x : Point) (b i j : nat) : option R :=
  match out_jacobians out with
  | Some js => match nth_error js b with Some (Some jac) => Some (jac (i * length (nth b x []) + j)%nat) | _ => None end
  | None => None
  end.
