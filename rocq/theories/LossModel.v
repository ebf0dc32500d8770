(** Loss functions, over the real numbers.
    Source: include/ceres/loss_function.h 100-330 and
    internal/ceres/loss_function.cc 46-178.
    Simplified: doubles are real numbers; the operations sqrt, log, exp, cosh,
    atan2 are the mathematical ones; std::max with DBL_MIN is kept.  A user defined
    loss is an arbitrary function ([Custom]). *)
Require Import Reals List Lra.
Open Scope R_scope.

(** rho[3] *)
Record rho3 := mkRho { rho0 : R; rho1 : R; rho2 : R }.

(** std::numeric_limits<double>::min() *)
Definition DBL_MINR : R := / 2 ^ 1022.

(** the C library's atan2(y, x) *)
Definition atan2 (y x : R) : R :=
  if Rlt_dec 0 x then atan (y / x)
  else if Rlt_dec x 0 then (if Rle_dec 0 y then atan (y / x) + PI else atan (y / x) - PI)
  else if Rlt_dec 0 y then PI / 2 else if Rlt_dec y 0 then - (PI / 2) else 0.

(** loss_function.cc:46-50 *)
Definition trivial_loss (s : R) : rho3 := mkRho s 1 0.

(** loss_function.cc:52-66, loss_function.h:168 (b = a * a) *)
Definition huber_loss (a s : R) : rho3 :=
  let b := a * a in
  if Rlt_dec b s then
    let r := sqrt s in
    let r1 := Rmax DBL_MINR (a / r) in
    mkRho (2 * a * r - b) r1 (- r1 / (2 * s))
  else mkRho s 1 0.

(** loss_function.cc:68-75, loss_function.h:184 (b = a * a, c = 1 / b) *)
Definition soft_l_one_loss (a s : R) : rho3 :=
  let b := a * a in let c := 1 / b in
  let sum := 1 + s * c in
  let tmp := sqrt sum in
  let r1 := Rmax DBL_MINR (1 / tmp) in
  mkRho (2 * b * (tmp - 1)) r1 (- (c * r1) / (2 * sum)).

(** loss_function.cc:77-84, loss_function.h:201 *)
Definition cauchy_loss (a s : R) : rho3 :=
  let b := a * a in let c := 1 / b in
  let sum := 1 + s * c in
  let inv := 1 / sum in
  mkRho (b * ln sum) (Rmax DBL_MINR inv) (- c * (inv * inv)).

(** loss_function.cc:86-93, loss_function.h:222 (b = 1 / (a * a)) *)
Definition arctan_loss (a s : R) : rho3 :=
  let b := 1 / (a * a) in
  let sum := 1 + s * s * b in
  let inv := 1 / sum in
  mkRho (a * atan2 s a) (Rmax DBL_MINR inv) (-2 * s * b * (inv * inv)).

(** loss_function.cc:95-120; the CHECKs of the constructor are the condition
    [loss_ok] *)
Definition tolerant_loss (a b s : R) : rho3 :=
  let c := b * ln (1 + exp (- a / b)) in
  let x := (s - a) / b in
  if Rlt_dec (367 / 10) x then mkRho (s - a - c) 1 0
  else
    let e_x := exp x in
    mkRho (b * ln (1 + e_x) - c) (Rmax DBL_MINR (e_x / (1 + e_x))) (1 / 2 / (b * (1 + cosh x))).

(** loss_function.cc:122-136, loss_function.h:287 (a_squared = a * a) *)
Definition tukey_loss (a s : R) : rho3 :=
  let a2 := a * a in
  if Rle_dec s a2 then
    let value := 1 - s / a2 in
    let value_sq := value * value in
    mkRho (a2 / 3 * (1 - value_sq * value)) value_sq (-2 / a2 * value)
  else mkRho (a2 / 3) 0 0.

(** Loss function objects.  [Scaled None a] is ScaledLoss with a null rho. *)
Inductive loss :=
  | Trivial
  | Huber (a : R)
  | SoftLOne (a : R)
  | Cauchy (a : R)
  | Arctan (a : R)
  | Tolerant (a b : R)
  | Tukey (a : R)
  | Custom (f : R -> rho3)
  | Composed (f g : loss)
  | Scaled (rho : option loss) (a : R).

(** LossFunction::Evaluate: the virtual dispatch, with loss_function.cc:156-178 for
    ComposedLoss and ScaledLoss *)
Fixpoint loss_eval (l : loss) (s : R) : rho3 :=
  match l with
  | Trivial => trivial_loss s
  | Huber a => huber_loss a s
  | SoftLOne a => soft_l_one_loss a s
  | Cauchy a => cauchy_loss a s
  | Arctan a => arctan_loss a s
  | Tolerant a b => tolerant_loss a b s
  | Tukey a => tukey_loss a s
  | Custom f => f s
  | Composed f g =>
      let rg := loss_eval g s in
      let rf := loss_eval f (rho0 rg) in
      mkRho (rho0 rf) (rho1 rf * rho1 rg) (rho2 rf * rho1 rg * rho1 rg + rho1 rf * rho2 rg)
  | Scaled None a => mkRho (a * s) a 0
  | Scaled (Some r) a =>
      let rr := loss_eval r s in mkRho (rho0 rr * a) (rho1 rr * a) (rho2 rr * a)
  end.

(** ** Corrector *)
(** corrector.h: sqrt_rho1_, residual_scaling_, alpha_sq_norm_ *)
Record corrector := mkCorr { sqrt_rho1 : R; residual_scaling : R; alpha_sq_norm : R }.

(** corrector.cc:41-110; None = a CHECK fails *)
Definition corrector_new (sq_norm : R) (rho : rho3) : option corrector :=
  if Rlt_dec sq_norm 0 then None
  else
    let sr := sqrt (rho1 rho) in
    if Req_EM_T sq_norm 0 then Some (mkCorr sr sr 0)
    else if Rle_dec (rho2 rho) 0 then Some (mkCorr sr sr 0)
    else if Rlt_dec 0 (rho1 rho) then
      let D := 1 + 2 * sq_norm * rho2 rho / rho1 rho in
      let alpha := 1 - sqrt D in
      Some (mkCorr sr (sr / (1 - alpha)) (alpha / sq_norm))
    else None.

(** arrays of doubles *)
Definition arr := nat -> R.
Definition upd (a : arr) (i : nat) (v : R) : arr := fun j => if Nat.eqb j i then v else a j.

(** corrector.cc:112-116 *)
Fixpoint correct_residuals_upto (c : corrector) (n : nat) (r : arr) : arr :=
  match n with
  | O => r
  | S k => let r' := correct_residuals_upto c k r in upd r' k (r' k * residual_scaling c)
  end.
Definition correct_residuals (c : corrector) (num_rows : nat) (r : arr) : arr :=
  correct_residuals_upto c num_rows r.

(** corrector.cc:144-147, the first inner loop *)
Fixpoint r_transpose_j (num_cols col n : nat) (res jac : arr) : R :=
  match n with
  | O => 0
  | S k => r_transpose_j num_cols col k res jac + jac (k * num_cols + col)%nat * res k
  end.
(** corrector.cc:149-153, the second inner loop *)
Fixpoint correct_column (c : corrector) (num_cols col n : nat) (rtj : R) (res jac : arr) : arr :=
  match n with
  | O => jac
  | S k =>
      let j := correct_column c num_cols col k rtj res jac in
      let i := (k * num_cols + col)%nat in
      upd j i (sqrt_rho1 c * (j i - alpha_sq_norm c * res k * rtj))
  end.
(** corrector.cc:143-154, the loop over columns *)
Fixpoint correct_columns (c : corrector) (num_rows num_cols n : nat) (res jac : arr) : arr :=
  match n with
  | O => jac
  | S k =>
      let j := correct_columns c num_rows num_cols k res jac in
      correct_column c num_cols k num_rows (r_transpose_j num_cols k num_rows res j) res j
  end.
(** corrector.cc:126-129, num_rows * num_cols entries scaled *)
Fixpoint scale_upto (f : R) (n : nat) (a : arr) : arr :=
  match n with O => a | S k => let b := scale_upto f k a in upd b k (b k * f) end.
(** corrector.cc:118-155 CorrectJacobian *)
Definition correct_jacobian (c : corrector) (num_rows num_cols : nat) (res jac : arr) : arr :=
  if Req_EM_T (alpha_sq_norm c) 0 then scale_upto (sqrt_rho1 c) (num_rows * num_cols) jac
  else correct_columns c num_rows num_cols num_cols res jac.
