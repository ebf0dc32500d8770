(* Specification for C70. *)
From Coq Require Import Reals List Arith Bool.
From Verif Require Import WrapModel.
Import ListNotations.
Open Scope R_scope.

(* ---- derivatives, over the coordinates listed in I (Frechet, with the sum norm) *)
Definition norm {X} (I : list X) (h : X -> R) : R := suml I (fun x => Rabs (h x)).
(* g is the gradient of f at x *)
Definition gradient {X} (I : list X) (f : (X -> R) -> R) (x g : X -> R) : Prop :=
  forall eps, 0 < eps -> exists delta, 0 < delta /\ forall h, norm I h < delta ->
    Rabs (f (fun i => x i + h i) - f x - suml I (fun i => g i * h i)) <= eps * norm I h.

(* ---- the contract of CostFunction::Evaluate *)
Definition inside (a n q : nat) : Prop := (a <= q < a + n)%nat.
Definition disjoint (a n b k : nat) : Prop := forall q, inside a n q -> inside b k q -> False.
(* the coordinates of all parameter blocks *)
Definition coordinates (szs : list nat) : list (nat * nat) := flat_map (fun b => map (fun c => (b, c)) (seq 0 (nth b szs 0%nat))) (seq 0 (length szs)).
Definition block_count (cf : CostFunction) : nat := length (sizes cf).
(* a requested Jacobian block is at A *)
Definition requested (J : option (nat -> option nat)) (b A : nat) : Prop := exists j, J = Some j /\ j b = Some A.
(* the arrays are below the stack pointer and do not overlap *)
Record placed (cf : CostFunction) (P : nat -> nat) (r : nat) (J : option (nat -> option nat)) (sp : nat) : Prop := {
  p_parameters : forall b, (b < block_count cf)%nat -> (P b + block_size cf b <= sp)%nat;
  p_residuals : (r + num_residuals cf <= sp)%nat;
  p_jacobians : forall b A, (b < block_count cf)%nat -> requested J b A -> (A + num_residuals cf * block_size cf b <= sp)%nat;
  p_pr : forall b, (b < block_count cf)%nat -> disjoint (P b) (block_size cf b) r (num_residuals cf);
  p_pj : forall b b' A, (b < block_count cf)%nat -> (b' < block_count cf)%nat -> requested J b' A -> disjoint (P b) (block_size cf b) A (num_residuals cf * block_size cf b');
  p_rj : forall b A, (b < block_count cf)%nat -> requested J b A -> disjoint r (num_residuals cf) A (num_residuals cf * block_size cf b);
  p_jj : forall b b' A A', (b < block_count cf)%nat -> (b' < block_count cf)%nat -> b <> b' -> requested J b A -> requested J b' A' ->
         disjoint A (num_residuals cf * block_size cf b) A' (num_residuals cf * block_size cf b') }.
(* the addresses that Evaluate may write *)
Definition output (cf : CostFunction) (r : nat) (J : option (nat -> option nat)) (q : nat) : Prop :=
  inside r (num_residuals cf) q \/ exists b A, (b < block_count cf)%nat /\ requested J b A /\ inside A (num_residuals cf * block_size cf b) q.
(* cf succeeds at x iff [ok x]; it has then the residuals f i x and the Jacobian D i x, and it
   writes nothing else *)
Definition implements (cf : CostFunction) (ok : (nat * nat -> R) -> bool) (f : nat -> (nat * nat -> R) -> R) (D : nat -> (nat * nat -> R) -> nat * nat -> R) : Prop :=
  forall m P r J sp x, placed cf P r J sp ->
    (forall b c, (b < block_count cf)%nat -> (c < block_size cf b)%nat -> m (P b + c)%nat = x (b, c)) ->
    let '(success, m') := Evaluate cf m P r J sp in
    success = ok x /\
    (forall q, (q < sp)%nat -> ~ output cf r J q -> m' q = m q) /\
    (success = true ->
      (forall i, (i < num_residuals cf)%nat -> m' (r + i)%nat = f i x) /\
      (forall b A i c, (b < block_count cf)%nat -> requested J b A -> (i < num_residuals cf)%nat -> (c < block_size cf b)%nat -> m' (A + i * block_size cf b + c)%nat = D i x (b, c))).
(* D is the derivative of f where cf succeeds *)
Definition differentiates (cf : CostFunction) (ok : (nat * nat -> R) -> bool) (f : nat -> (nat * nat -> R) -> R) (D : nat -> (nat * nat -> R) -> nat * nat -> R) : Prop :=
  forall i x, (i < num_residuals cf)%nat -> ok x = true -> gradient (coordinates (sizes cf)) (f i) x (D i x).

(* ---- conditioners: functions of one variable; None: no conditioner *)
Record function : Type := mkfunction { f_ok : R -> bool; f_value : R -> R; f_slope : R -> R }.
Definition implements1 (c : CostFunction) (g : function) : Prop :=
  implements c (fun x => f_ok g (x (0, 0)%nat)) (fun _ x => f_value g (x (0, 0)%nat)) (fun _ x _ => f_slope g (x (0, 0)%nat)).
Definition conditioner_of (gs : list (option function)) (i : nat) : option function := nth i gs None.
Definition conditioned_ok (n : nat) (gs : list (option function)) (ok : (nat * nat -> R) -> bool) (f : nat -> (nat * nat -> R) -> R) (x : nat * nat -> R) : bool :=
  ok x && forallb (fun i => match conditioner_of gs i with None => true | Some g => f_ok g (f i x) end) (seq 0 n).
Definition conditioned_value (gs : list (option function)) (f : nat -> (nat * nat -> R) -> R) (i : nat) (x : nat * nat -> R) : R :=
  match conditioner_of gs i with None => f i x | Some g => f_value g (f i x) end.
Definition conditioned_slope (gs : list (option function)) (f : nat -> (nat * nat -> R) -> R) (D : nat -> (nat * nat -> R) -> nat * nat -> R) (i : nat) (x : nat * nat -> R) (p : nat * nat) : R :=
  match conditioner_of gs i with None => D i x p | Some g => D i x p * f_slope g (f i x) end.
