(** Model of internal/ceres/gradient_checker.cc,
    internal/ceres/gradient_checking_cost_function.cc, internal/ceres/is_close.cc
    and of the parts of internal/ceres/minimizer.cc and internal/ceres/solver.cc
    that use them.  The Problem model of C01 (ProblemModel) is reused for the
    copy of the problem.  Doubles are real numbers here: NaN, infinities and
    rounding are not modelled. *)
Require Import ZArith List Bool Reals.
From Verif Require Import ZMap Dbl ProblemModel.
Import ListNotations.

(** ** Comparing numbers *)

(** IsClose, is_close.cc:37-60: the absolute error, the relative error and the
    verdict. *)
Definition IsClose (x y precision : R) : R * R * bool :=
  let absolute := Rabs (x - y) in
  let relative :=
    if Req_EM_T x 0 then absolute
    else if Req_EM_T y 0 then absolute
    else (absolute / Rmax (Rabs x) (Rabs y))%R in
  (absolute, relative, if Rlt_dec relative (Rabs precision) then true else false).

(** ** Probing a cost function *)

Section Probe.
(** Parameter values. *)
Variable X : Type.

(** What CostFunction::Evaluate computes: residual [i], and entry [(i, j)] of
    the Jacobian of parameter block [k]. *)
Definition values := ((nat -> R) * (nat -> nat -> nat -> R))%type.

(** Manifold: AmbientSize, TangentSize and PlusJacobian, which may fail (it
    then leaves its output unspecified). *)
Record manifold := mkM { m_ambient : nat; m_tangent : nat; m_plus : X -> option (nat -> nat -> R) }.

(** A cost function as GradientChecker sees it: the number of residuals, the
    sizes of the parameter blocks, and Evaluate with ([true]) and without
    ([false]) Jacobians; [None] when it returns false. *)
Record cost := mkC { c_residuals : nat; c_sizes : list nat; c_evaluate : X -> bool -> option values }.

(** [sum_{l < n} f l], the inner product of Eigen's matrix product. *)
Fixpoint inner (n : nat) (f : nat -> R) : R :=
  match n with O => 0%R | S n' => (inner n' f + f n')%R end.

(** GradientChecker, gradient_checker.cc:118-143.  [ridders f x] is the
    numeric differentiation (DynamicNumericDiffCostFunction<CostFunction,
    RIDDERS>, property C54) of the function that maps parameters to residuals;
    it fails if one of its own evaluations fails. *)
Record checker := mkK {
  k_cost : cost;
  k_manifolds : list (option manifold);
  k_ridders : (X -> option (nat -> R)) -> X -> option (nat -> nat -> nat -> R) }.

(** The numeric cost function: the residuals are those of the user's function
    without Jacobians (dynamic_numeric_diff_cost_function.h:103-120). *)
Definition numeric (K : checker) (x : X) : option values :=
  let f := fun y => option_map fst (c_evaluate (k_cost K) y false) in
  match f x with
  | None => None
  | Some r => match k_ridders K f x with None => None | Some J => Some (r, J) end
  end.

(** Columns of the Jacobian of block [k] in the tangent space,
    gradient_checker.cc:69-80. *)
Definition columns (K : checker) (k : nat) : nat :=
  match nth k (k_manifolds K) None with
  | Some m => m_tangent m
  | None => nth k (c_sizes (k_cost K)) 0%nat
  end.

(** The conversion of the Jacobian of block [k], gradient_checker.cc:101-113.
    [Crash]: the return value of PlusJacobian is not looked at, so that
    uninitialised memory is used if it fails. *)
Definition ToLocal (K : checker) (x : X) (J : nat -> nat -> nat -> R) (k : nat) : res (nat -> nat -> R) :=
  match nth k (k_manifolds K) None with
  | None => Ok (J k)
  | Some m =>
      do _ <- check (Nat.eqb (nth k (c_sizes (k_cost K)) 0%nat) (m_ambient m));
      match m_plus m x with
      | None => Crash
      | Some P => Ok (fun i j => inner (m_ambient m) (fun l => (J k i l * P l j)%R))
      end
  end.
Fixpoint AllLocal (K : checker) (x : X) (J : nat -> nat -> nat -> R) (ks : list nat) : res (list (nat -> nat -> R)) :=
  match ks with
  | [] => Ok []
  | k :: ks' => do L <- ToLocal K x J k; do Ls <- AllLocal K x J ks'; Ok (L :: Ls)
  end.

(** EvaluateCostFunction, gradient_checker.cc:56-115; the result of the
    evaluation is an argument.  [Ok None]: it returned false. *)
Definition EvaluateCostFunction (K : checker) (x : X) (v : option values) :
    res (option (values * list (nat -> nat -> R))) :=
  do _ <- check (negb (Nat.eqb 0 (c_residuals (k_cost K))));
  match v with
  | None => Ok None
  | Some (r, J) =>
      do Ls <- AllLocal K x J (seq 0 (length (c_sizes (k_cost K))));
      Ok (Some ((r, J), Ls))
  end.

(** Messages of ProbeResults::error_log (only which they are). *)
Inductive message := UserFailed | NumericFailed | ResidualsDiffer | BadComponents (n : nat).

(** GradientChecker::ProbeResults, gradient_checker.h:72-101. *)
Record results := mkRes {
  r_return : bool;                        (* return_value *)
  r_values : option values;               (* residuals and jacobians of the user's function *)
  r_local : list (nat -> nat -> R);       (* local_jacobians *)
  r_numeric : list (nat -> nat -> R);     (* local_numeric_jacobians *)
  r_worst : R;                            (* maximum_relative_error *)
  r_log : list message }.                 (* error_log *)

(** The comparison of the residuals, gradient_checker.cc:203-217: [true] if
    all are close. *)
Fixpoint residuals_close (n : nat) (i : nat) (r r' : nat -> R) (precision : R) : bool :=
  match n with
  | O => true
  | S n' => if snd (IsClose (r i) (r' i) precision) then residuals_close n' (S i) r r' precision else false
  end.

(** The loops over the entries, gradient_checker.cc:227-279: number of bad
    entries and worst relative error so far. *)
Definition compare_entry (precision : R) (A B : nat -> nat -> R) (i : nat) (acc : nat * R) (j : nat) : nat * R :=
  let '(_, relative, ok) := IsClose (A i j) (B i j) precision in
  ((if ok then fst acc else S (fst acc)), Rmax (snd acc) relative).
Definition compare_row (precision : R) (cols : nat) (A B : nat -> nat -> R) (acc : nat * R) (i : nat) : nat * R :=
  fold_left (compare_entry precision A B i) (seq 0 cols) acc.
Definition compare_block (precision : R) (K : checker) (L L' : list (nat -> nat -> R)) (acc : nat * R) (k : nat) : nat * R :=
  fold_left (compare_row precision (columns K k) (nth k L (fun _ _ => 0%R)) (nth k L' (fun _ _ => 0%R)))
            (seq 0 (c_residuals (k_cost K))) acc.
Definition compare_all (precision : R) (K : checker) (L L' : list (nat -> nat -> R)) : nat * R :=
  fold_left (compare_block precision K L L') (seq 0 (length (c_sizes (k_cost K)))) (0%nat, 0%R).

(** GradientChecker::Probe, gradient_checker.cc:146-293. *)
Definition Probe (K : checker) (x : X) (precision : R) : res (bool * results) :=
  do u <- EvaluateCostFunction K x (c_evaluate (k_cost K) x true);
  do n <- EvaluateCostFunction K x (numeric K x);
  match u, n with
  | Some ((r, J), L), Some ((r', J'), L') =>
      if residuals_close (c_residuals (k_cost K)) 0 r r' precision then
        let '(bad, worst) := compare_all precision K L L' in
        if Nat.eqb bad 0 then Ok (true, mkRes true (Some (r, J)) L L' worst [])
        else Ok (false, mkRes true (Some (r, J)) L L' worst [BadComponents bad])
      else Ok (false, mkRes true (Some (r, J)) L L' 0 [ResidualsDiffer])
  | None, None => Ok (false, mkRes false None [] [] 0 [UserFailed; NumericFailed])
  | None, Some (_, L') => Ok (false, mkRes false None [] L' 0 [UserFailed])
  | Some (v, L), None => Ok (false, mkRes false (Some v) L [] 0 [NumericFailed])
  end.

(** What GradientCheckingCostFunction::Evaluate hands to its caller: the
    residuals and the Jacobians it wrote, by block. *)
Record written := mkW { w_residuals : nat -> R; w_jacobians : nat -> option (nat -> nat -> R) }.

(** GradientCheckingCostFunction::Evaluate,
    gradient_checking_cost_function.cc:80-121.  [jacobians]: [None] when the
    array is null, otherwise which of its pointers are not null.  The second
    component tells whether SetGradientErrorDetected was called. *)
Definition CheckedEvaluate (K : checker) (precision : R) (x : X) (jacobians : option (nat -> bool)) :
    res (option written * bool) :=
  match jacobians with
  | None =>
      Ok (option_map (fun v => mkW (fst v) (fun _ => None)) (c_evaluate (k_cost K) x false), false)
  | Some wanted =>
      do '(okay, R) <- Probe K x precision;
      if r_return R then
        match r_values R with
        | None => Crash
        | Some (r, J) =>
            Ok (Some (mkW r (fun k => if Nat.ltb k (length (c_sizes (k_cost K))) && wanted k then Some (J k) else None)),
                negb okay)
        end
      else Ok (None, false)
  end.
End Probe.
Arguments m_ambient {X} _. Arguments m_tangent {X} _. Arguments m_plus {X} _ _.
Arguments c_residuals {X} _. Arguments c_sizes {X} _. Arguments c_evaluate {X} _ _ _.
Arguments k_cost {X} _. Arguments k_manifolds {X} _. Arguments k_ridders {X} _ _ _.
Arguments mkM {X} _ _ _. Arguments mkC {X} _ _ _. Arguments mkK {X} _ _ _.
Arguments numeric {X} _ _. Arguments columns {X} _ _. Arguments ToLocal {X} _ _ _ _. Arguments AllLocal {X} _ _ _ _.
Arguments EvaluateCostFunction {X} _ _ _. Arguments Probe {X} _ _ _. Arguments CheckedEvaluate {X} _ _ _ _.
Arguments compare_block {X} _ _ _ _ _ _. Arguments compare_all {X} _ _ _ _.

(** ** The solve *)

(** TerminationType and CallbackReturnType, types.h. *)
Inductive termination := CONVERGENCE | NO_CONVERGENCE | FAILURE | USER_SUCCESS | USER_FAILURE.
Inductive status := SOLVER_CONTINUE | SOLVER_ABORT | SOLVER_TERMINATE_SUCCESSFULLY.

(** GradientCheckingIterationCallback::operator(),
    gradient_checking_cost_function.cc:136-143. *)
Definition checking_callback (detected : bool) : status := if detected then SOLVER_ABORT else SOLVER_CONTINUE.

(** Minimizer::RunCallbacks, minimizer.cc:57-89: [None] when the minimizer may
    go on. *)
Fixpoint RunCallbacks (cs : list status) : option termination :=
  match cs with
  | [] => None
  | SOLVER_CONTINUE :: cs' => RunCallbacks cs'
  | SOLVER_ABORT :: _ => Some USER_FAILURE
  | SOLVER_TERMINATE_SUCCESSFULLY :: _ => Some USER_SUCCESS
  end.

(** One iteration of a minimizer: the verdicts reported by the checked cost
    functions evaluated during it ([true]: error detected), the reason for
    which the minimizer itself stops in it (before running callbacks), and
    what the user's callbacks return.  The minimizers are abstracted to such
    sequences; every one of them ends an iteration by RunCallbacks
    (trust_region_minimizer.cc:230-240, line_search_minimizer.cc:433-450). *)
Record iteration := mkIt { it_errors : list bool; it_stop : option termination; it_callbacks : list status }.

(** The iterations run: how many, whether an error was detected, and the
    minimizer's termination type.  With check_gradients the checking callback
    comes after the user's (solver.cc:772). *)
Fixpoint Minimize (check_gradients : bool) (detected : bool) (its : list iteration) : nat * bool * termination :=
  match its with
  | [] => (0%nat, detected, NO_CONVERGENCE)
  | it :: its' =>
      let detected := detected || (check_gradients && existsb (fun b => b) (it_errors it)) in
      match it_stop it with
      | Some t => (1%nat, detected, t)
      | None =>
          match RunCallbacks (it_callbacks it ++ (if check_gradients then [checking_callback detected] else [])) with
          | Some t => (1%nat, detected, t)
          | None => let '(n, d, t) := Minimize check_gradients detected its' in (S n, d, t)
          end
      end
  end.

(** Solver::Summary::IsSolutionUsable, solver.cc. *)
Definition usable (t : termination) : bool :=
  match t with CONVERGENCE | NO_CONVERGENCE | USER_SUCCESS => true | _ => false end.

(** What Solve reports: iterations run, termination type, and whether the
    user's parameters were updated (solver.cc:664-672, 852-857). *)
Record outcome := mkOut { o_iterations : nat; o_termination : termination; o_updated : bool }.
Definition Solve (check_gradients : bool) (its : list iteration) : outcome :=
  let '(n, detected, t) := Minimize check_gradients false its in
  mkOut n (if detected then FAILURE else t) (usable t).

(** ** The copy of the problem *)
Open Scope Z_scope.

Section Copy.
Variables (cf_sizes : Z -> list Z) (mf_amb mf_tan : Z -> Z) (hash_order : list Z -> list Z).
(** Success of Manifold::PlusJacobian at the current values of the block at an
    address (checked by ParameterBlock::SetManifold). *)
Variable plus_ok : Z -> bool.

(** The options of the copy, gradient_checking_cost_function.cc:191-199: the
    defaults of Problem::Options (problem.h) but for the ownerships. *)
Definition checking_options : options := mkOpts false false true false false.

(** The bounds of one block, lines 227-236, from coordinate [i] on. *)
Fixpoint bound_ops (n : nat) (i : nat) (b : pblock) : res (list op) :=
  match n with
  | O => Ok []
  | S n' =>
      do u <- deref (pb_upper b i);
      do l <- deref (pb_lower b i);
      do os <- bound_ops n' (S i) b;
      Ok (OSetUpper (b_addr b) (Z.of_nat i) u :: OSetLower (b_addr b) (Z.of_nat i) l :: os)
  end.

(** One parameter block, lines 214-237. *)
Definition block_ops (b : pblock) : res (list op) :=
  do bs <- bound_ops (Z.to_nat (b_size b)) 0 b;
  Ok (OAddParameterManifold (b_addr b) (b_size b) (b_man b) (plus_ok (b_addr b)) ::
      (if is_constant mf_tan b then [OSetConstant (b_addr b)] else []) ++ bs).
Fixpoint blocks_ops (ps : list Z) (s : problem) : res (list op) :=
  match ps with
  | [] => Ok []
  | p :: ps' =>
      do b <- deref (zfind p (p_pheap s));
      do os <- block_ops b;
      do os' <- blocks_ops ps' s;
      Ok (os ++ os')
  end.

(** The residual blocks, lines 239-288.  [fresh] are the addresses the
    allocator returns for the new ResidualBlock and the new
    GradientCheckingCostFunction; the second result lists the wrappers with
    the cost functions they wrap and the manifolds they are given. *)
Fixpoint manifolds_of (vs : list Z) (s : problem) : res (list Z) :=
  match vs with
  | [] => Ok []
  | v :: vs' => do m <- get_manifold v s; do ms <- manifolds_of vs' s; Ok (m :: ms)
  end.
Fixpoint residual_ops (rs : list Z) (fresh : list (Z * Z)) (s : problem) : res (list op * list (Z * Z * list Z)) :=
  match rs with
  | [] => Ok ([], [])
  | r :: rs' =>
      match fresh with
      | [] => Impossible
      | (r', w) :: fresh' =>
          do rb <- deref (zfind r (p_rheap s));
          do vs <- deref (user_states (r_params rb) s);
          do ms <- manifolds_of vs s;
          do '(os, ws) <- residual_ops rs' fresh' s;
          Ok (OAddResidual r' w (r_loss rb) vs :: os, (w, r_cost rb, ms) :: ws)
      end
  end.

(** Declared block sizes: a wrapper declares those of the function it wraps
    (gradient_checking_cost_function.cc:73-76). *)
Fixpoint wrapper_sizes (ws : list (Z * Z * list Z)) (c : Z) : list Z :=
  match ws with
  | [] => cf_sizes c
  | (w, c0, _) :: ws' => if c =? w then cf_sizes c0 else wrapper_sizes ws' c
  end.

(** CreateGradientCheckingProblemImpl,
    gradient_checking_cost_function.cc:180-300: the copy and its wrappers.
    The calls are listed first and made afterwards; the original is not
    changed meanwhile, so that the order does not matter. *)
Definition CreateGradientCheckingProblem (fresh : list (Z * Z)) (s : problem) : res (problem * list (Z * Z * list Z)) :=
  do bs <- blocks_ops (p_pvec s) s;
  do '(rs, ws) <- residual_ops (p_rvec s) fresh s;
  do s' <- run (wrapper_sizes ws) mf_amb mf_tan hash_order (bs ++ rs) (new_problem checking_options);
  Ok (s', ws).
End Copy.

(** Problem::Options::evaluation_callback (problem.h) beside the options
    above; 0 is nullptr, the default, which the copy keeps
    (gradient_checking_cost_function.cc:191-199). *)
Record problem_options := mkPO { po_options : options; po_callback : Z }.
Definition checking_problem_options (original : problem_options) : problem_options := mkPO checking_options 0.
