(* Cost functions made of cost functions: internal/ceres/conditioned_cost_function.cc,
   normal_prior.cc, include/ceres/dynamic_cost_function_to_functor.h and
   cost_function_to_functor.h.

   double is modelled by R; memory is one array of doubles, a pointer is an index into it and a
   null pointer None.  Everything from the stack pointer on is free for the callee's local
   variables. *)
From Coq Require Import Reals List Arith Bool.
Import ListNotations.

Definition mem : Type := nat -> R.
Definition set (m : mem) (a : nat) (v : R) : mem := fun q => if q =? a then v else m q.
(* [a, a + n) is assigned v 0, v 1, ... *)
Definition blit (m : mem) (a n : nat) (v : nat -> R) : mem := fun q => if (a <=? q) && (q <? a + n) then v (q - a) else m q.
Fixpoint suml {A} (l : list A) (f : A -> R) : R := match l with [] => 0%R | x :: l' => (f x + suml l' f)%R end.

(* include/ceres/cost_function.h: num_residuals(), parameter_block_sizes() and Evaluate(parameters,
   residuals, jacobians), given the memory, the pointers and the stack pointer *)
Record CostFunction : Type := mkCostFunction { num_residuals : nat; sizes : list nat;
  Evaluate : mem -> (nat -> nat) -> nat -> option (nat -> option nat) -> nat -> bool * mem }.
Definition block_size (cf : CostFunction) (b : nat) : nat := nth b (sizes cf) 0.

(* ------------------------------------------------ conditioned_cost_function.cc *)
(* 110-123: row r of every requested Jacobian block *= d *)
Definition scale_row (w : CostFunction) (j : nat -> option nat) (r : nat) (d : R) (m : mem) : mem :=
  fold_left (fun m i => match j i with
    | None => m
    | Some a => blit m (a + r * block_size w i) (block_size w i) (fun k => (m (a + r * block_size w i + k)%nat * d)%R)
    end) (seq 0 (length (sizes w))) m.
(* 90-124 one residual: unconditioned_residual is at sp, conditioner_derivative at sp + 1 *)
Definition condition (w : CostFunction) (conditioners : list (option CostFunction)) (residuals : nat) (jacobians : option (nat -> option nat)) (sp : nat) (r : nat) (m : mem) : bool * mem :=
  match nth r conditioners None with
  | None => (true, m)
  | Some c =>
    let '(success, m') := Evaluate c (set m sp (m (residuals + r)%nat)) (fun _ => sp) (residuals + r)
                            (match jacobians with None => None | Some _ => Some (fun _ => Some (sp + 1)) end) (sp + 2) in
    if negb success then (false, m')
    else match jacobians with None => (true, m') | Some j => (true, scale_row w j r (m' (sp + 1)%nat) m') end
  end.
Fixpoint condition_all (w : CostFunction) (conditioners : list (option CostFunction)) (residuals : nat) (jacobians : option (nat -> option nat)) (sp : nat) (rs : list nat) (m : mem) : bool * mem :=
  match rs with
  | [] => (true, m)
  | r :: rs' => let '(success, m') := condition w conditioners residuals jacobians sp r m in
                if success then condition_all w conditioners residuals jacobians sp rs' m' else (false, m')
  end.
(* 77-127 Evaluate *)
Definition ConditionedEvaluate (w : CostFunction) (conditioners : list (option CostFunction)) (m : mem) (parameters : nat -> nat) (residuals : nat) (jacobians : option (nat -> option nat)) (sp : nat) : bool * mem :=
  let '(success, m') := Evaluate w m parameters residuals jacobians sp in
  if negb success then (false, m') else condition_all w conditioners residuals jacobians sp (seq 0 (num_residuals w)) m'.
(* 46-67 the constructor; None: a CHECK fails *)
Definition Conditioned (w : CostFunction) (conditioners : list (option CostFunction)) : option CostFunction :=
  if (num_residuals w =? length conditioners) &&
     forallb (fun c => match c with None => true | Some c => (num_residuals c =? 1) && (length (sizes c) =? 1) && (block_size c 0 =? 1) end) conditioners
  then Some (mkCostFunction (num_residuals w) (sizes w) (ConditionedEvaluate w conditioners)) else None.
(* 69-76 the destructor, and the std::unique_ptr of the wrapped function: the objects deleted.
   stl_util.h 58-70 STLDeleteUniqueContainerPointers: sort, unique, delete (null: no effect) *)
Definition ConditionedDestroy (take_ownership : bool) (wrapped : nat) (conditioners : list (option nat)) : list nat :=
  if take_ownership
  then nodup Nat.eq_dec (flat_map (fun c => match c with None => [] | Some p => [p] end) conditioners) ++ [wrapped]
  else [].

(* ------------------------------------------------------------- normal_prior.cc *)
(* 51-64; A is num_rows x num_cols *)
Definition NormalPriorEvaluate (num_rows num_cols : nat) (A : nat -> nat -> R) (b : nat -> R) (m : mem) (parameters : nat -> nat) (residuals : nat) (jacobians : option (nat -> option nat)) (sp : nat) : bool * mem :=
  let p k := m (parameters 0 + k)%nat in
  let m1 := blit m residuals num_rows (fun i => suml (seq 0 num_cols) (fun k => (A i k * (p k - b k))%R)) in
  match jacobians with
  | None => (true, m1)
  | Some j => match j 0 with None => (true, m1) | Some a => (true, blit m1 a (num_rows * num_cols) (fun q => A (q / num_cols) (q mod num_cols))) end
  end.
(* 43-49; None: a CHECK fails *)
Definition NormalPrior (num_rows num_cols b_rows : nat) (A : nat -> nat -> R) (b : nat -> R) : option CostFunction :=
  if (0 <? b_rows) && (0 <? num_rows) && (b_rows =? num_cols) then Some (mkCostFunction num_rows [b_rows] (NormalPriorEvaluate num_rows num_cols A b)) else None.

(* ------------------------------------------ dynamic_cost_function_to_functor.h *)
(* a Jet: the value and the derivatives *)
Record jet : Type := mkjet { a_ : R; v_ : nat -> R }.
Definition offset (szs : list nat) (b : nat) : nat := list_sum (firstn b szs).
(* 127-135: the parameters of all blocks one after the other; arguments: the blocks that are left *)
Fixpoint load (szs : list nat) (b : nat) (inputs : nat -> nat -> jet) (ptr : nat) (m : mem) : mem :=
  match szs with
  | [] => m
  | n :: szs' => load szs' (S b) inputs (ptr + n) (blit m ptr n (fun k => a_ (inputs b k)))
  end.
(* 111-181 operator() for Jets: None is false.  parameters, jacobians and residuals follow one
   another on the stack *)
Definition ToFunctorJets (cf : CostFunction) (m : mem) (sp : nat) (inputs : nat -> nat -> jet) : option (nat -> jet) :=
  let n := list_sum (sizes cf) in
  let nr := num_residuals cf in
  let parameters := sp in
  let jacobians := sp + n in
  let residuals := jacobians + nr * n in
  let parameter_blocks b := parameters + offset (sizes cf) b in
  let jacobian_blocks b := jacobians + nr * offset (sizes cf) b in
  let '(success, m') := Evaluate cf (load (sizes cf) 0 inputs parameters m) parameter_blocks residuals (Some (fun b => Some (jacobian_blocks b))) (residuals + nr) in
  if negb success then None
  else Some (fun i => mkjet (m' (residuals + i)%nat) (fun k =>
    suml (seq 0 (length (sizes cf))) (fun j => suml (seq 0 (block_size cf j)) (fun l =>
      (m' (jacobian_blocks j + i * block_size cf j + l)%nat * v_ (inputs j l) k)%R)))).
(* dynamic_cost_function_to_functor.cc 52-55 operator() for double: no Jacobians *)
Definition ToFunctorDoubles (cf : CostFunction) (m : mem) (parameters : nat -> nat) (residuals sp : nat) : bool * mem :=
  Evaluate cf m parameters residuals None sp.
(* cost_function_to_functor.h 110-132 the constructor: the CHECKs.  kNumResiduals: None is DYNAMIC *)
Definition StaticChecks (kNumResiduals : option nat) (Ns : list nat) (cf : CostFunction) : bool :=
  match kNumResiduals with None => true | Some n => 0 <? n end &&
  (length (sizes cf) =? length Ns) && forallb (fun p => fst p =? snd p) (combine Ns (sizes cf)) && (list_sum (sizes cf) =? list_sum Ns).
