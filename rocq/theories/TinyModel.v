(** Model of TinySolver: include/ceres/tiny_solver.h and
    include/ceres/tiny_solver_cost_function_adapter.h, in exact arithmetic
    (scalars are real numbers; NaN and rounding are not modelled).  *)
From Coq Require Import Reals List Arith Bool.
From Verif Require Import SchurModel.
Import ListNotations.
Open Scope R_scope.

Definition vec := nat -> R.
Definition mat := nat -> nat -> R.

(** The Function concept, tiny_solver.h:84-131: operator() returns success,
    residuals and the Jacobian.  Simplified: what the call leaves in the two
    output buffers depends on the point only; the same residuals are written
    whether or not a Jacobian is requested. *)
Record Function := mkF { ok : vec -> bool; f_res : vec -> vec; f_jac : vec -> mat }.

(** tiny_solver.h:169-182, enum Status. *)
Inductive Status := GRADIENT_TOO_SMALL | RELATIVE_STEP_SIZE_TOO_SMALL | COST_TOO_SMALL
                  | HIT_MAX_ITERATIONS | COST_CHANGE_TOO_SMALL.

(** tiny_solver.h:184-200, struct Options (max_num_iterations as a natural
    number: the loop condition treats a negative value like 0). *)
Record Options := mkO { max_num_iterations : nat; gradient_tolerance : R; parameter_tolerance : R;
                        function_tolerance : R; cost_threshold : R; initial_trust_region_radius : R }.

(** tiny_solver.h:202-211 and 371-376: the part of the solver's members that
    outlives an iteration: residuals_, jacobian_, jacobi_scaling_, jtj_, g_,
    cost_, summary.gradient_max_norm. *)
Record Solver := mkS { residuals : vec; jacobian : mat; jacobi_scaling : vec; jtj : mat; g : vec;
                       cost : R; gradient_max_norm : R }.

(** squaredNorm, norm and dot of Eigen vectors of n entries. *)
Definition squaredNorm (n : nat) (v : vec) : R := sumn n (fun i => v i * v i).
Definition norm (n : nat) (v : vec) : R := sqrt (squaredNorm n v).
Definition dot (n : nat) (a b : vec) : R := sumn n (fun i => a i * b i).

(** array().abs().maxCoeff() of n >= 1 entries (tiny_solver.h:238). *)
Fixpoint abs_maxCoeff (n : nat) (v : vec) : R :=
  match n with
  | O => 0
  | S O => Rabs (v 0%nat)
  | S k => Rmax (abs_maxCoeff k v) (Rabs (v k))
  end.

Definition lt (a b : R) : bool := if Rlt_dec a b then true else false.

(** std::clamp, tiny_solver.h:276. *)
Definition clamp (x lo hi : R) : R := if lt x lo then lo else if lt hi x then hi else x.

(** tiny_solver.h:213-241, Update: [first] is summary.iterations == 0; m
    residuals, n parameters.  On failure the two buffers hold what the function
    left there and nothing else changes. *)
Definition Update (m n : nat) (f : Function) (first : bool) (s : Solver) (x : vec) : bool * Solver :=
  let r := f_res f x in
  let J := f_jac f x in
  if negb (ok f x) then
    (false, mkS r J (jacobi_scaling s) (jtj s) (g s) (cost s) (gradient_max_norm s))
  else
    let r' := fun i => - r i in
    let sc := if first then (fun j => 1 / (1 + norm m (fun i => J i j))) else jacobi_scaling s in
    let J' := fun i j => J i j * sc j in
    let jtj' := fun i j => sumn m (fun k => J' k i * J' k j) in
    let g' := fun i => sumn m (fun k => J' k i * r' k) in
    (true, mkS r' J' sc jtj' g' (squaredNorm m r' / 2) (abs_maxCoeff n g')).

(** tiny_solver.h:271-277: the regularised normal matrix. *)
Definition regularized (s : Solver) (u : R) : mat :=
  fun i j => if Nat.eqb i j then jtj s i j + u * clamp (jtj s i i) (/ 10 ^ 6) (10 ^ 32) else jtj s i j.

(** Result of Solve: the solver, the point left in x_and_min, the status,
    summary.iterations, and (ghost) the trial points with the point each
    was tried from, in order, and the number of calls of the function. *)
Record Result := mkR { r_solver : Solver; r_x : vec; r_status : Status; r_iterations : nat;
                       r_trace : list (vec * vec); r_calls : nat }.

Section Loop.
Variables (m n : nat) (f : Function) (o : Options).
(** linear_solver_.compute(A), solve(b), tiny_solver.h:280-281. *)
Variable solve : mat -> vec -> vec.

(** tiny_solver.h:268-348: the iterations that remain, [k] of them; [it] is
    summary.iterations. *)
Fixpoint Loop (k it : nat) (s : Solver) (x : vec) (u v : R) (tr : list (vec * vec)) (calls : nat) : Result :=
  match k with
  | O => mkR s x HIT_MAX_ITERATIONS it tr calls
  | S k' =>
    let lm_step := solve (regularized s u) (g s) in
    let dx := fun i => jacobi_scaling s i * lm_step i in
    let ptol := parameter_tolerance o * (norm n x + parameter_tolerance o) in
    if lt (norm n dx) ptol then mkR s x RELATIVE_STEP_SIZE_TOO_SMALL it tr calls
    else
      let x_new := fun i => x i + dx i in
      let f_x_new := f_res f x_new in
      let tr' := tr ++ [(x, x_new)] in
      let cost_change := 2 * cost s - squaredNorm m f_x_new in
      let model_cost_change :=
        dot n lm_step (fun i => 2 * g s i - sumn n (fun j => jtj s i j * lm_step j)) in
      let rho := cost_change / model_cost_change in
      if lt 0 rho then
        let s' := snd (Update m n f false s x_new) in
        if lt (Rabs cost_change) (function_tolerance o) then mkR s' x_new COST_CHANGE_TOO_SMALL it tr' (calls + 2)
        else if lt (gradient_max_norm s') (gradient_tolerance o) then mkR s' x_new GRADIENT_TOO_SMALL it tr' (calls + 2)
        else if lt (cost s') (cost_threshold o) then mkR s' x_new COST_TOO_SMALL it tr' (calls + 2)
        else
          let tmp := 2 * rho - 1 in
          Loop k' (S it) s' x_new (u * Rmax (1 / 3) (1 - tmp * tmp * tmp)) 2 tr' (calls + 2)
      else
        if lt (Rabs cost_change) (function_tolerance o) then mkR s x COST_CHANGE_TOO_SMALL it tr' (calls + 1)
        else Loop k' (S it) s x (u * v) (v * 2) tr' (calls + 1)
  end.

(** tiny_solver.h:243-352, Solve: initial_cost and the result; final_cost is
    the cost in the returned solver (lines 253 and 350). *)
Definition Solve (s0 : Solver) (x : vec) : R * Result :=
  let s := snd (Update m n f true s0 x) in
  (cost s,
   if lt (gradient_max_norm s) (gradient_tolerance o) then mkR s x GRADIENT_TOO_SMALL 0 [] 1
   else if lt (cost s) (cost_threshold o) then mkR s x COST_TOO_SMALL 0 [] 1
   else Loop (max_num_iterations o - 1) 1 s x (1 / initial_trust_region_radius o) 2 [] 1).
End Loop.

(** tiny_solver.h:253, 350. *)
Definition final_cost (r : Result) : R := cost (r_solver r).
(** tiny_solver.h:354-358. *)
Definition Residuals (r : Result) : vec := fun i => - residuals (r_solver r) i.
(** tiny_solver.h:360-363. *)
Definition Jacobian (r : Result) : mat :=
  fun i j => jacobian (r_solver r) i j * / jacobi_scaling (r_solver r) j.

(** tiny_solver_cost_function_adapter.h:119-140, operator(): a CostFunction of
    one parameter block writes its Jacobian row-major into
    row_major_jacobian_; the assignment of line 137 rewrites it column-major.
    A buffer is a function from positions; [evaluate] is CostFunction::Evaluate
    (success, residuals, row-major Jacobian).  [old] is the previous content of
    the caller's Jacobian buffer. *)
Definition row_major (cols i j : nat) : nat := (i * cols + j)%nat.
Definition col_major (rows i j : nat) : nat := (j * rows + i)%nat.
Definition Adapter (rows cols : nat) (evaluate : vec -> bool * vec * vec) (old : vec) (x : vec) : bool * vec * vec :=
  let '(b, r, rm) := evaluate x in
  if negb b then (false, r, old)
  else (true, r,
        fun p => if Nat.ltb p (rows * cols)
                 then rm (row_major cols (p mod rows) (p / rows)) else old p).
