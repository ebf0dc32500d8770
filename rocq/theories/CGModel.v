(* Conjugate gradients: internal/ceres/conjugate_gradients_solver.h.

   double is modelled by R: there are no infinities, so the std::isinf tests are absent, and
   there is no rounding.  A vector is a function of which the first n values matter; n is the
   size of rhs.  A linear operator is RightMultiplyAndAccumulate: it takes x and y and
   returns the new y.  None: remainder by zero. *)
From Coq Require Import Reals ZArith Arith Bool.
From Verif Require Import SchurModel.
Open Scope R_scope.

Definition vec : Type := nat -> R.
(* ConjugateGradientsLinearOperator, 53-59 *)
Definition Operator : Type := vec -> vec -> vec.
(* eigen_vector_ops.h 46-101: Norm, SetZero, Axpby, Dot, Copy; the threads do not matter
   without rounding *)
Definition Dot (n : nat) (x y : vec) : R := sumn n (fun i => x i * y i).
Definition Norm (n : nat) (x : vec) : R := sqrt (Dot n x x).
Definition Zero : vec := fun _ => 0.
Definition Axpby (a : R) (x : vec) (b : R) (y : vec) : vec := fun i => a * x i + b * y i.

(* 79-87 *)
Record Options : Type := mkOptions { min_num_iterations : Z; max_num_iterations : Z; residual_reset_period : Z; r_tolerance : R; q_tolerance : R }.
Inductive Termination : Type := SUCCESS | NO_CONVERGENCE | FAILURE.
(* the message, without its numbers *)
Inductive Message : Type := RhsIsZero | InitialResidual | RhoIsZero | BetaIsZero | Indefinite | QuadraticModel | Residual | MaxIterations.
Record Summary : Type := mkSummary { termination_type : Termination; message : Message; num_iterations : Z }.

Definition is_zero (x : R) : bool := if Req_EM_T x 0 then true else false.
Definition le (x y : R) : bool := if Rle_dec x y then true else false.
Definition lt (x y : R) : bool := if Rlt_dec x y then true else false.
(* 273-275 zeta = i (Q1 - Q0) / Q1 < q_tolerance; a quotient by zero is -infinity or NaN
   when Q1 <= Q0, +infinity otherwise *)
Definition zeta_below (i : Z) (Q1 Q0 q_tolerance : R) : bool :=
  if is_zero Q1 then lt (Q1 - Q0) 0 else lt (IZR i * (Q1 - Q0) / Q1) q_tolerance.

(* 161-303 the loop, iteration i.  x: solution *)
Fixpoint Iterate (fuel : nat) (n : nat) (o : Options) (lhs : Operator) (rhs : vec) (preconditioner : Operator) (tol_r : R)
    (i : Z) (x r p : vec) (rho Q0 : R) : option (Summary * vec) :=
  match fuel with
  | O => None
  | S fuel' =>
    let z := preconditioner r Zero in
    let last_rho := rho in
    let rho := Dot n r z in
    if is_zero rho then Some (mkSummary FAILURE RhoIsZero i, x)
    else
      let beta := rho / last_rho in
      if negb (i =? 1)%Z && is_zero beta then Some (mkSummary FAILURE BetaIsZero i, x)
      else
        let p := if (i =? 1)%Z then z else Axpby 1 z beta p in
        let q := lhs p Zero in
        let pq := Dot n p q in
        if le pq 0 then Some (mkSummary NO_CONVERGENCE Indefinite i, x)
        else
          let alpha := rho / pq in
          let x := Axpby 1 x alpha p in
          if (residual_reset_period o =? 0)%Z then None
          else
            let r := if (Z.rem i (residual_reset_period o) =? 0)%Z then Axpby 1 rhs (- 1) (lhs x Zero) else Axpby 1 r (- alpha) q in
            let Q1 := - Dot n x (Axpby 1 rhs 1 r) in
            if zeta_below i Q1 Q0 (q_tolerance o) && (min_num_iterations o <=? i)%Z then Some (mkSummary SUCCESS QuadraticModel i, x)
            else if le (Norm n r) tol_r && (min_num_iterations o <=? i)%Z then Some (mkSummary SUCCESS Residual i, x)
            else if (max_num_iterations o <=? i)%Z then Some (mkSummary NO_CONVERGENCE MaxIterations i, x)
            else Iterate fuel' n o lhs rhs preconditioner tol_r (i + 1) x r p rho Q1
  end.

(* 108-306 ConjugateGradientsSolver; junk: what the scratch vector p holds.  The loop is
   left at iteration max_num_iterations at the latest, which bounds the fuel. *)
Definition ConjugateGradientsSolver (n : nat) (o : Options) (lhs : Operator) (rhs : vec) (preconditioner : Operator) (junk : vec) (solution : vec) : option (Summary * vec) :=
  let norm_rhs := Norm n rhs in
  if is_zero norm_rhs then Some (mkSummary SUCCESS RhsIsZero 0, Zero)
  else
    let tol_r := r_tolerance o * norm_rhs in
    let r := Axpby 1 rhs (- 1) (lhs solution Zero) in
    if (min_num_iterations o =? 0)%Z && le (Norm n r) tol_r then Some (mkSummary SUCCESS InitialResidual 0, solution)
    else
      let Q0 := - Dot n solution (Axpby 1 rhs 1 r) in
      Iterate (S (Z.to_nat (max_num_iterations o))) n o lhs rhs preconditioner tol_r 1 solution r junk 1 Q0.
