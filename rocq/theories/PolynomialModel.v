(** Polynomials of the line search and of the subspace dogleg, over the reals.
    Source: internal/ceres/polynomial.h 48-66, internal/ceres/polynomial.cc 120-392.
    A polynomial is its list of coefficients, highest power first.
    Simplified: doubles are reals; a quotient with divisor zero (NaN or infinite
    in the code) is None, and comparisons with it are false as for NaN; the
    eigenvalue solver (241) and the LU solver (368-371) are arguments ([eig], [solve]),
    and the exponent chosen when balancing (82-87) is an arbitrary function
    ([exponent]), the balancing loop runs for at most [fuel] rounds. *)
Require Import Reals List Lra ZArith.
Import ListNotations.
Open Scope R_scope.

Definition poly := list R.

(** polynomial.h:60-66 EvaluatePolynomial *)
Definition eval (p : poly) (x : R) : R := fold_left (fun v c => v * x + c) p 0.

(** polynomial.cc:121-127 RemoveLeadingZeros *)
Fixpoint remove_leading_zeros (p : poly) : poly :=
  match p with
  | c :: ((_ :: _) as q) => if Req_EM_T c 0 then remove_leading_zeros q else p
  | _ => p
  end.

(** a / b *)
Definition quot (a b : R) : option R := if Req_EM_T b 0 then None else Some (a / b).

(** a root: real and imaginary part *)
Definition root := (option R * option R)%type.

(** polynomial.cc:129-141 *)
Definition linear_roots (a b : R) : list root := [ (quot (- b) a, Some 0) ].

(** polynomial.cc:143-184 *)
Definition quadratic_roots (a b c : R) : list root :=
  let D := b * b - 4 * a * c in
  let sqrt_D := sqrt (Rabs D) in
  if Rle_dec 0 D then
    if Rle_dec 0 b then
      [ (quot (- b - sqrt_D) (2 * a), Some 0); (quot (2 * c) (- b - sqrt_D), Some 0) ]
    else
      [ (quot (2 * c) (- b + sqrt_D), Some 0); (quot (- b + sqrt_D) (2 * a), Some 0) ]
  else [ (quot (- b) (2 * a), quot sqrt_D (2 * a)); (quot (- b) (2 * a), quot (- sqrt_D) (2 * a)) ].

(** ** The companion matrix *)
Definition mat := nat -> nat -> R.

(** polynomial.cc:107-118 BuildCompanionMatrix *)
Definition companion_matrix (p : poly) : mat := fun i j =>
  let degree := (length p - 1)%nat in
  if Nat.eqb j (degree - 1) then - nth (degree - i) p 0
  else if Nat.eqb i (j + 1) then 1 else 0.

(** lpNorm<1> of a column and a row *)
Fixpoint col_norm (m : mat) (j n : nat) : R :=
  match n with O => 0 | S k => col_norm m j k + Rabs (m k j) end.
Fixpoint row_norm (m : mat) (i n : nat) : R :=
  match n with O => 0 | S k => row_norm m i k + Rabs (m i k) end.

(** polynomial.cc:92-93: row i times 2^-e, then column i times 2^e *)
Definition scale_pair (m : mat) (i : nat) (e : Z) : mat := fun r c =>
  let v := if Nat.eqb r i then m r c * powerRZ 2 (- e) else m r c in
  if Nat.eqb c i then v * powerRZ 2 e else v.

Section Roots.
Variable exponent : R -> R -> Z.
Variable fuel : nat.
Variable eig : nat -> mat -> option (list root).

(** polynomial.cc:73-97, the body of the for loop: matrix and scaling_has_changed *)
Definition balance_step (degree i : nat) (s : mat * bool) : mat * bool :=
  let (m, changed) := s in
  let cn := col_norm m i degree in
  if Req_EM_T cn 0 then (m, changed)
  else
    let rn := row_norm m i degree in
    let e := exponent rn cn in
    if Z.eq_dec e 0 then (m, changed)
    else if Rlt_dec (cn * powerRZ 2 e + rn * powerRZ 2 (- e)) (9 / 10 * (cn + rn))
    then (scale_pair m i e, true) else (m, changed).
(** polynomial.cc:73-97, the for loop over i < n *)
Fixpoint balance_pass (degree n : nat) (s : mat * bool) : mat * bool :=
  match n with O => s | S k => balance_step degree k (balance_pass degree k s) end.
(** polynomial.cc:70-98, the do loop *)
Fixpoint balance_loop (degree f : nat) (m : mat) : mat :=
  match f with
  | O => m
  | S f' => let (m', changed) := balance_pass degree degree (m, false) in
            if changed then balance_loop degree f' m' else m'
  end.
(** polynomial.cc:52-103 BalanceCompanionMatrix *)
Definition balance (degree : nat) (m : mat) : mat :=
  let off := fun i j => if Nat.eqb i j then 0 else m i j in
  let b := balance_loop degree fuel off in
  fun i j => if Nat.eqb i j then m i j else b i j.

(** polynomial.cc:229-255 *)
Definition companion_roots (p : poly) : option (list root) :=
  let leading_term := nth 0 p 0 in
  let q := map (fun c => c / leading_term) p in
  let degree := (length p - 1)%nat in
  eig degree (balance degree (companion_matrix q)).

(** polynomial.cc:187-256; None = false *)
Definition find_polynomial_roots (polynomial_in : poly) : option (list root) :=
  match polynomial_in with
  | [] => None
  | _ =>
      match remove_leading_zeros polynomial_in with
      | [] | [_] => Some []
      | [a; b] => Some (linear_roots a b)
      | [a; b; c] => Some (quadratic_roots a b c)
      | p => companion_roots p
      end
  end.

(** polynomial.cc:269-274, the loop; the coefficients from index i on, of a polynomial
    whose coefficient i belongs to the power [length p - 1] *)
Fixpoint diff_loop (p : poly) : poly :=
  match p with
  | [] | [_] => []
  | c :: q => INR (length q) * c :: diff_loop q
  end.
(** polynomial.cc:258-275 DifferentiatePolynomial; (the CHECK: p nonempty) *)
Definition differentiate (p : poly) : poly :=
  match p with [] | [_] => [0] | _ => diff_loop p end.

(** polynomial.cc:317-328, the loop over the roots *)
Fixpoint try_roots (p : poly) (x_min x_max : R) (l : list root) (best : R * R) : R * R :=
  match l with
  | [] => best
  | (None, _) :: l' => try_roots p x_min x_max l' best
  | (Some r, _) :: l' =>
      if Rlt_dec r x_min then try_roots p x_min x_max l' best
      else if Rlt_dec x_max r then try_roots p x_min x_max l' best
      else if Rlt_dec (eval p r) (snd best) then try_roots p x_min x_max l' (r, eval p r)
      else try_roots p x_min x_max l' best
  end.

(** polynomial.cc:277-329 MinimizePolynomial: (optimal_x, optimal_value) *)
Definition minimize_polynomial (p : poly) (x_min x_max : R) : R * R :=
  let mid := (x_min + x_max) / 2 in
  let b0 := (mid, eval p mid) in
  let b1 := if Rlt_dec (eval p x_min) (snd b0) then (x_min, eval p x_min) else b0 in
  let b2 := if Rlt_dec (eval p x_max) (snd b1) then (x_max, eval p x_max) else b1 in
  if (length p <=? 2)%nat then b2
  else match find_polynomial_roots (differentiate p) with
       | None => b2
       | Some l => try_roots p x_min x_max l b2
       end.

(** function_sample.h, the fields the interpolation reads: None = not valid *)
Record sample := mkSample { s_x : R; s_value : option R; s_gradient : option R }.

(** polynomial.cc:334-341 *)
Fixpoint num_constraints (l : list sample) : nat :=
  match l with
  | [] => 0
  | s :: r => (match s_value s with Some _ => 1 | None => 0 end) +
              (match s_gradient s with Some _ => 1 | None => 0 end) + num_constraints r
  end.
(** polynomial.cc:352-354, a row: pow(x, degree - j) for j = 0 .. degree *)
Fixpoint value_row (x : R) (n : nat) : list R :=
  match n with O => [] | S d => x ^ d :: value_row x d end.
(** polynomial.cc:360-362: (degree - j) pow(x, degree - j - 1) for j < degree, and 0 *)
Fixpoint gradient_row (x : R) (n : nat) : list R :=
  match n with
  | O => []
  | S m => match m with O => [0] | S d => INR m * x ^ d :: gradient_row x m end
  end.
(** polynomial.cc:348-366: the rows of lhs and rhs *)
Fixpoint equations (n : nat) (l : list sample) : list (list R * R) :=
  match l with
  | [] => []
  | s :: r =>
      (match s_value s with Some v => [ (value_row (s_x s) n, v) ] | None => [] end) ++
      (match s_gradient s with Some g => [ (gradient_row (s_x s) n, g) ] | None => [] end) ++
      equations n r
  end.

Variable solve : list (list R * R) -> poly.

(** polynomial.cc:331-372 *)
Definition interpolating_polynomial (l : list sample) : poly := solve (equations (num_constraints l) l).

(** polynomial.cc:381-391 *)
Fixpoint try_samples (p : poly) (x_min x_max : R) (l : list sample) (best : R * R) : R * R :=
  match l with
  | [] => best
  | s :: l' =>
      if Rlt_dec (s_x s) x_min then try_samples p x_min x_max l' best
      else if Rlt_dec x_max (s_x s) then try_samples p x_min x_max l' best
      else if Rlt_dec (eval p (s_x s)) (snd best) then try_samples p x_min x_max l' (s_x s, eval p (s_x s))
      else try_samples p x_min x_max l' best
  end.
(** polynomial.cc:374-392 *)
Definition minimize_interpolating (l : list sample) (x_min x_max : R) : R * R :=
  let p := interpolating_polynomial l in
  try_samples p x_min x_max l (minimize_polynomial p x_min x_max).
End Roots.
