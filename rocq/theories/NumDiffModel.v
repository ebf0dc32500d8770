(* Numeric differentiation: include/ceres/internal/numeric_diff.h,
   numeric_diff_cost_function.h, dynamic_numeric_diff_cost_function.h.

   double is modelled by R (no rounding).  The parameters are a list of blocks, each a list
   of numbers.  The functor is a function from the parameters to the residuals, None when
   it returns false.  Memory that is not initialised is an argument.  Every call of the
   functor is recorded with the parameters it saw. *)
From Coq Require Import Reals List Arith ZArith Bool.
Import ListNotations.
Open Scope R_scope.

(* types.h NumericDiffMethodType *)
Inductive Method : Type := CENTRAL | FORWARD | RIDDERS.
(* numeric_diff_options.h 42-70 *)
Record Options : Type := mkOptions { relative_step_size : R; ridders_relative_initial_step_size : R; max_num_ridders_extrapolations : Z;
  ridders_epsilon : R; ridders_step_shrink_factor : R }.
Definition default_options : Options := mkOptions (1 / 1000000) (1 / 100) 10 (1 / 1000000000000) 2.
(* numeric_limits<double>: epsilon is 2^-52, max is (2 - 2^-52) 2^1023 *)
Definition epsilon : R := / 2 ^ 52.
Definition dbl_max : R := (2 - / 2 ^ 52) * 2 ^ 1023.

Definition Point : Type := list (list R).
Definition Functor : Type := Point -> option (nat -> R).
(* the mutable parameters, and the calls so far (last first) *)
Record State : Type := mkState { parameters : Point; calls : list Point }.

Fixpoint set_nth {A} (l : list A) (n : nat) (v : A) : list A :=
  match l, n with
  | [], _ => []
  | _ :: l', O => v :: l'
  | x :: l', S n' => x :: set_nth l' n' v
  end.
(* x_plus_delta(j) = v, where x_plus_delta is block b of the parameters *)
Definition write (b j : nat) (v : R) (s : State) : State :=
  mkState (set_nth (parameters s) b (set_nth (nth b (parameters s) []) j v)) (calls s).
(* VariadicEvaluate *)
Definition call (f : Functor) (s : State) : option (nat -> R) * State := (f (parameters s), mkState (parameters s) (parameters s :: calls s)).

(* 172-231 EvaluateJacobianColumn; one_over_delta is 1 / delta, halved *)
Definition EvaluateJacobianColumn (m : Method) (f : Functor) (b j : nat) (delta : R) (x : list R) (residuals_at_eval_point : nat -> R) (s : State) : option (nat -> R) * State :=
  match call f (write b j (nth j x 0 + delta) s) with
  | (None, s1) => (None, s1)
  | (Some residuals, s1) =>
    let one_over_delta := 1 / delta in
    match m with
    | FORWARD => (Some (fun i => (residuals i - residuals_at_eval_point i) * one_over_delta), write b j (nth j x 0) s1)
    | _ => match call f (write b j (nth j x 0 - delta) s1) with
      | (None, s2) => (None, s2)
      | (Some temp_residuals, s2) => (Some (fun i => (residuals i - temp_residuals i) * (one_over_delta / 2)), write b j (nth j x 0) s2)
      end
    end
  end.

(* Eigen's norm() of the first n components *)
Fixpoint sum_sq (n : nat) (v : nat -> R) : R := match n with O => 0 | S n' => sum_sq n' v + v n' * v n' end.
Definition norm (n : nat) (v : nat -> R) : R := sqrt (sum_sq n v).
Definition rlt (a b : R) : bool := if Rlt_dec a b then true else false.
Definition rle (a b : R) : bool := if Rle_dec a b then true else false.

(* 332-363 the loop over k; the candidates are columns.  n: iterations left.  Result:
   current candidates, norm_error, residuals *)
Definition set_col (c : nat -> nat -> R) (k : nat) (v : nat -> R) : nat -> nat -> R := fun k' => if k' =? k then v else c k'.
Fixpoint Extrapolate (o : Options) (num_residuals n k : nat) (richardson_factor : R) (cur prev : nat -> nat -> R) (norm_error : R) (residuals : nat -> R) : (nat -> nat -> R) * R * (nat -> R) :=
  match n with
  | O => (cur, norm_error, residuals)
  | S n' =>
    let col : nat -> R := fun i => (richardson_factor * cur (k - 1)%nat i - prev (k - 1)%nat i) / (richardson_factor - 1) in
    let cur' := set_col cur k col in
    let factor' := richardson_factor * (ridders_step_shrink_factor o * ridders_step_shrink_factor o) in
    let candidate_error := Rmax (norm num_residuals (fun i => col i - cur (k - 1)%nat i)) (norm num_residuals (fun i => col i - prev (k - 1)%nat i)) in
    if rle candidate_error norm_error then
      if rlt candidate_error (ridders_epsilon o) then (cur', candidate_error, col)
      else Extrapolate o num_residuals n' (S k) factor' cur' prev candidate_error col
    else Extrapolate o num_residuals n' (S k) factor' cur' prev norm_error residuals
  end.
(* 304-386 the loop over i; n: iterations left *)
Fixpoint Ridders (o : Options) (f : Functor) (b j num_residuals : nat) (x : list R) (r0 : nat -> R)
    (n i : nat) (step : R) (cur prev : nat -> nat -> R) (norm_error : R) (residuals : nat -> R) (s : State) : option (nat -> R) * State :=
  match n with
  | O => (Some residuals, s)
  | S n' =>
    match EvaluateJacobianColumn RIDDERS f b j step x r0 s with
    | (None, s') => (None, s')
    | (Some c0, s') =>
      let factor := ridders_step_shrink_factor o * ridders_step_shrink_factor o in
      let '(cur', err, res) := Extrapolate o num_residuals i 1 factor (set_col cur 0 c0) prev norm_error (if i =? 0 then c0 else residuals) in
      if rlt err (ridders_epsilon o) then (Some res, s')
      else if (0 <? i) && rle (2 * err) (norm num_residuals (fun r => cur' i r - prev (i - 1)%nat r)) then (Some res, s')
      else Ridders o f b j num_residuals x r0 n' (S i) (step / ridders_step_shrink_factor o) prev cur' err res s'
    end
  end.
(* 245-388 EvaluateRiddersJacobianColumn; pow(shrink, max / 2); the three arrays are not
   initialised *)
Definition EvaluateRiddersJacobianColumn (o : Options) (f : Functor) (b j num_residuals : nat) (delta : R) (x : list R) (r0 : nat -> R)
    (junk_a junk_b : nat -> nat -> R) (junk : nat -> R) (s : State) : option (nat -> R) * State :=
  Ridders o f b j num_residuals x r0 (Z.to_nat (max_num_ridders_extrapolations o)) 0
    (delta * ridders_step_shrink_factor o ^ Z.to_nat (max_num_ridders_extrapolations o / 2)) junk_a junk_b dbl_max junk s.

(* 106-124, 134 the step for a parameter of value v *)
Definition step_size (m : Method) (o : Options) (v : R) : R :=
  Rmax (match m with RIDDERS => Rmax (sqrt epsilon) (ridders_relative_initial_step_size o) | _ => sqrt epsilon end)
       (Rabs v * match m with RIDDERS => ridders_relative_initial_step_size o | _ => relative_step_size o end).
(* 133-168 the loop over the columns; the jacobian is row major.  residuals_: the array
   that the columns are computed in (Ridders' method with no iterations leaves it) *)
Fixpoint Columns (m : Method) (o : Options) (f : Functor) (num_residuals b block_size : nat) (x : list R) (r0 : nat -> R) (junk_a junk_b : nat -> nat -> R)
    (n j : nat) (residuals_ : nat -> R) (jacobian : nat -> R) (s : State) : bool * (nat -> R) * State :=
  match n with
  | O => (true, jacobian, s)
  | S n' =>
    let delta := step_size m o (nth j x 0) in
    match match m with
          | RIDDERS => EvaluateRiddersJacobianColumn o f b j num_residuals delta x r0 junk_a junk_b residuals_ s
          | _ => EvaluateJacobianColumn m f b j delta x r0 s
          end with
    | (None, s') => (false, jacobian, s')
    | (Some c, s') =>
      Columns m o f num_residuals b block_size x r0 junk_a junk_b n' (S j) c
        (fun p => if (p mod block_size =? j) && (p / block_size <? num_residuals) then c (p / block_size)%nat else jacobian p) s'
    end
  end.
(* 63-170 EvaluateJacobianForParameterBlock; x is a copy of the block *)
Definition EvaluateJacobianForParameterBlock (m : Method) (o : Options) (f : Functor) (r0 : nat -> R) (num_residuals b : nat)
    (junk_a junk_b : nat -> nat -> R) (junk : nat -> R) (jacobian : nat -> R) (s : State) : bool * (nat -> R) * State :=
  let x := nth b (parameters s) [] in
  Columns m o f num_residuals b (length x) x r0 junk_a junk_b (length x) 0 junk jacobian s.

(* 439-470 EvaluateJacobianForParameterBlocksImpl, and the loop of
   DynamicNumericDiffCostFunction::Evaluate (dynamic_numeric_diff_cost_function.h 163-182):
   the blocks in order, those without a jacobian are skipped, stop at the first failure *)
Fixpoint Blocks (m : Method) (o : Options) (f : Functor) (r0 : nat -> R) (num_residuals : nat) (junk_a junk_b : nat -> nat -> R) (junk : nat -> R)
    (b : nat) (jacobians : list (option (nat -> R))) (s : State) : bool * list (option (nat -> R)) * State :=
  match jacobians with
  | [] => (true, [], s)
  | None :: js => let '(ok, js', s') := Blocks m o f r0 num_residuals junk_a junk_b junk (S b) js s in (ok, None :: js', s')
  | Some jac :: js =>
    match EvaluateJacobianForParameterBlock m o f r0 num_residuals b junk_a junk_b junk jac s with
    | (false, jac', s') => (false, Some jac' :: js, s')
    | (true, jac', s') => let '(ok, js', s'') := Blocks m o f r0 num_residuals junk_a junk_b junk (S b) js s' in (ok, Some jac' :: js', s'')
    end
  end.

(* what Evaluate returns and writes, and the calls of the functor (first first) *)
Record Outcome : Type := mkOutcome { status : bool; out_residuals : option (nat -> R); out_jacobians : option (list (option (nat -> R))); out_calls : list Point }.
(* numeric_diff_cost_function.h 238-281 NumericDiffCostFunction::Evaluate: the result of
   EvaluateJacobianForParameterBlocks is not used *)
Definition StaticEvaluate (m : Method) (o : Options) (f : Functor) (num_residuals : nat) (junk_a junk_b : nat -> nat -> R) (junk : nat -> R)
    (x : Point) (jacobians : option (list (option (nat -> R)))) : Outcome :=
  match f x with
  | None => mkOutcome false None jacobians [x]
  | Some r => match jacobians with
    | None => mkOutcome true (Some r) None [x]
    | Some js => let '(_, js', s) := Blocks m o f r num_residuals junk_a junk_b junk 0 js (mkState x [x]) in mkOutcome true (Some r) (Some js') (rev (calls s))
    end
  end.
(* dynamic_numeric_diff_cost_function.h 125-184; the CHECKs are not modelled *)
Definition DynamicEvaluate (m : Method) (o : Options) (f : Functor) (num_residuals : nat) (junk_a junk_b : nat -> nat -> R) (junk : nat -> R)
    (x : Point) (jacobians : option (list (option (nat -> R)))) : Outcome :=
  match f x with
  | None => mkOutcome false None jacobians [x]
  | Some r => match jacobians with
    | None => mkOutcome true (Some r) None [x]
    | Some js => let '(ok, js', s) := Blocks m o f r num_residuals junk_a junk_b junk 0 js (mkState x [x]) in mkOutcome ok (Some r) (Some js') (rev (calls s))
    end
  end.
