(** The step computed by the dogleg strategy, over the real numbers.
    Source: internal/ceres/dogleg_strategy.cc 176-255 (traditional dogleg) and
    266-515 (subspace dogleg); the Levenberg-Marquardt step of
    levenberg_marquardt_strategy.cc 112-133.
    Simplified: doubles are real numbers here (no rounding, no NaN); the Jacobian
    is a dense list of rows; the linear solver is exact; the root finder
    is an arbitrary function; the orthonormal basis of the two dimensional
    subspace is left out (the subspace step is kept in its coordinates, which have
    the same norm). *)
Require Import Reals List Lra.
Import ListNotations.
Open Scope R_scope.

(** dense vectors (Eigen) *)
Definition vec := list R.
Fixpoint dot (u v : vec) : R :=
  match u, v with a :: u', b :: v' => a * b + dot u' v' | _, _ => 0 end.
Definition norm (u : vec) : R := sqrt (dot u u).
Definition scale (c : R) (u : vec) : vec := map (fun a => c * a) u.
Fixpoint vadd (u v : vec) : vec :=
  match u, v with a :: u', b :: v' => (a + b) :: vadd u' v' | _, _ => [] end.
(** u.array() / v.array() and u.array() * v.array() *)
Fixpoint vdiv (u v : vec) : vec :=
  match u, v with a :: u', b :: v' => (a / b) :: vdiv u' v' | _, _ => [] end.
Fixpoint vmul (u v : vec) : vec :=
  match u, v with a :: u', b :: v' => (a * b) :: vmul u' v' | _, _ => [] end.
(** RightMultiplyAndAccumulate into a zero vector *)
Definition mulv (J : list vec) (x : vec) : vec := map (fun r => dot r x) J.

(** dogleg_strategy.cc:185-194 ComputeCauchyPoint: alpha_ for the scaled
    gradient g; [J] is the Jacobian with columns divided by the diagonal. *)
Definition cauchy_alpha (J : list vec) (g : vec) : R := dot g g / dot (mulv J g) (mulv J g).

(** dogleg_strategy.cc:229-250: the interpolation coefficient of case 3. *)
Definition dogleg_beta (radius alpha : R) (g gn : vec) : R :=
  let b_dot_a := - alpha * dot g gn in
  let a_sq := (alpha * norm g) * (alpha * norm g) in
  let bma_sq := a_sq - 2 * b_dot_a + norm gn * norm gn in
  let c := b_dot_a - a_sq in
  let d := sqrt (c * c + bma_sq * (radius * radius - a_sq)) in
  if Rle_dec c 0 then (d - c) / bma_sq else (radius * radius - a_sq) / (d + c).

(** dogleg_strategy.cc:201-255 ComputeTraditionalDoglegStep, before the final
    division by the diagonal. *)
Definition dogleg_scaled (radius alpha : R) (g gn : vec) : vec :=
  if Rle_dec (norm gn) radius then gn
  else if Rge_dec (norm g * alpha) radius then scale (- (radius / norm g)) g
  else
    let beta := dogleg_beta radius alpha g gn in
    vadd (scale (- alpha * (1 - beta)) g) (scale beta gn).

(** the step handed to the minimizer (lines 211, 223, 252) *)
Definition dogleg_step (radius alpha : R) (g gn diag : vec) : vec :=
  vdiv (dogleg_scaled radius alpha g gn) diag.

(** ** the subspace variant: two dimensional problem *)
(** subspace_B_ (symmetric, from Jb * Jb^T, line 714) and subspace_g_ *)
Record sub2 := mkSub { B00 : R; B01 : R; B11 : R; g0 : R; g1 : R }.
Definition v2 := (R * R)%type.
Definition dot2 (u v : v2) : R := fst u * fst v + snd u * snd v.
Definition norm2 (u : v2) : R := sqrt (dot2 u u).
Definition scale2 (c : R) (u : v2) : v2 := (c * fst u, c * snd u).
Definition detB (p : sub2) : R := B00 p * B11 p - B01 p * B01 p.
Definition trB (p : sub2) : R := B00 p + B11 p.
Definition gvec (p : sub2) : v2 := (g0 p, g1 p).
Definition mulB (p : sub2) (x : v2) : v2 :=
  (B00 p * fst x + B01 p * snd x, B01 p * fst x + B11 p * snd x).
(** B_adj * v, lines 423-427 *)
Definition mul_adj (p : sub2) (x : v2) : v2 :=
  (B11 p * fst x - B01 p * snd x, - B01 p * fst x + B00 p * snd x).

(** dogleg_strategy.cc:419-438 MakePolynomialForBoundaryConstrainedProblem:
    coefficients, highest power first, and the value of the polynomial
    (EvaluatePolynomial, polynomial.h:60-66). *)
Definition boundary_poly (r : R) (p : sub2) : list R :=
  let r2 := r * r in
  [ r2;
    2 * r2 * trB p;
    r2 * (trB p * trB p + 2 * detB p) - dot2 (gvec p) (gvec p);
    -2 * (dot2 (gvec p) (mul_adj p (gvec p)) - r2 * detB p * trB p);
    r2 * detB p * detB p - dot2 (mul_adj p (gvec p)) (mul_adj p (gvec p)) ].
Definition eval_poly (c : list R) (y : R) : R := fold_left (fun v a => v * y + a) c 0.

(** dogleg_strategy.cc:448-452 ComputeSubspaceStepFromRoot: -(B + y I)^-1 g.
    The LU solve of a singular matrix (NaN or infinities) is not covered: theorems
    ask for det(B + y I) <> 0. *)
Definition detBy (p : sub2) (y : R) : R := (B00 p + y) * (B11 p + y) - B01 p * B01 p.
Definition step_from_root (p : sub2) (y : R) : v2 :=
  ( - (((B11 p + y) * g0 p - B01 p * g1 p) / detBy p y),
    - ((- B01 p * g0 p + (B00 p + y) * g1 p) / detBy p y)).

(** dogleg_strategy.cc:456-458 EvaluateSubspaceModel. *)
Definition sub_model (p : sub2) (x : v2) : R := (1 / 2) * dot2 x (mulB p x) + dot2 (gvec p) x.

(** dogleg_strategy.cc:495-514, the loop over the roots: best value so far (None =
    DBL_MAX, nothing found) and the point stored with it. *)
Fixpoint best_root (r : R) (p : sub2) (roots : list R) (best : option (R * v2)) : option (R * v2) :=
  match roots with
  | [] => best
  | y :: l =>
      let x := step_from_root p y in
      if Rlt_dec 0 (norm2 x) then
        let f := sub_model p (scale2 (r / norm2 x) x) in
        match best with
        | None => best_root r p l (Some (f, x))
        | Some (m, _) => if Rlt_dec f m then best_root r p l (Some (f, x)) else best_root r p l best
        end
      else best_root r p l best
  end.

(** dogleg_strategy.cc:266-366 ComputeSubspaceDoglegStep with a two dimensional
    subspace and the Gauss-Newton step outside the trust region, in subspace
    coordinates.  None = fall back to the traditional step (319-327, 344-358). *)
Definition subspace_step (r : R) (p : sub2) (roots : list R) : option v2 :=
  match best_root r p roots None with
  | None => None
  | Some (_, x) =>
      let h := (fst (mulB p x) + g0 p, snd (mulB p x) + g1 p) in
      if Rlt_dec (- dot2 x h / (norm2 x * norm2 h)) (99 / 100) then None else Some x
  end.
