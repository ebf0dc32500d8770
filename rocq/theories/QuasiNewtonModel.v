(** Search directions of the line search minimizer: steepest descent, nonlinear conjugate
    gradients, L-BFGS and BFGS.
    Source: internal/ceres/low_rank_inverse_hessian.cc 73-177,
    internal/ceres/line_search_direction.cc 44-337.

    Real arithmetic; a vector is a function of the index, of which the first [n] (num_parameters)
    entries count.  Not modelled: log messages, the warning about large BFGS problems. *)
Require Import List Reals Bool Arith.
Import ListNotations.
Open Scope R_scope.

Definition vec := nat -> R.
Definition vadd (a b : vec) : vec := fun i => a i + b i.
Definition vsub (a b : vec) : vec := fun i => a i - b i.
Definition vscale (c : R) (a : vec) : vec := fun i => c * a i.
Definition vneg (a : vec) : vec := fun i => - a i.
(** Eigen's a.dot(b) over the first n entries *)
Fixpoint dot (n : nat) (a b : vec) : R :=
  match n with O => 0 | S k => dot k a b + a k * b k end.

(** low_rank_inverse_hessian.cc:73 and line_search_direction.cc:209: 1e-14 *)
Definition secant_tolerance : R := / 10 ^ 14.

(** ** LowRankInverseHessian *)
(** low_rank_inverse_hessian.h:92-103 members; a column of the two histories and its entry of
    delta_x_dot_delta_gradient_ are one slot *)
Record low_rank := mkLR {
  lr_n : nat; lr_max : nat; lr_scaling : bool; lr_scale : R;
  lr_indices : list nat;
  lr_dx : nat -> vec; lr_dg : nat -> vec; lr_dot : nat -> R }.

Definition set {A} (f : nat -> A) (k : nat) (a : A) : nat -> A := fun i => if i =? k then a else f i.

(** low_rank_inverse_hessian.cc:75-85 constructor; the histories are allocated but not written: any contents *)
Definition lr_new (n max : nat) (scaling : bool) (junk : nat -> vec * vec * R) : low_rank :=
  mkLR n max scaling 1 [] (fun i => fst (fst (junk i))) (fun i => snd (fst (junk i))) (fun i => snd (junk i)).

(** low_rank_inverse_hessian.cc:87-117 Update: result and new state; None = front() of an empty list or a
    column outside the history (undefined behaviour) *)
Definition lr_update (h : low_rank) (dx dg : vec) : option (bool * low_rank) :=
  let d := dot (lr_n h) dx dg in
  if Rle_dec d secant_tolerance then Some (false, h)
  else
    let next := length (lr_indices h) in
    let slot :=
      if next =? lr_max h then
        match lr_indices h with [] => None | front :: rest => Some (front, rest) end
      else Some (next, lr_indices h) in
    match slot with
    | None => None
    | Some (next, rest) =>
        if next <? lr_max h then
          Some (true, mkLR (lr_n h) (lr_max h) (lr_scaling h) (d / dot (lr_n h) dg dg) (rest ++ [next])
                           (set (lr_dx h) next dx) (set (lr_dg h) next dg) (set (lr_dot h) next d))
        else None
    end.

(** low_rank_inverse_hessian.cc:130-135, the first loop, over indices_ backwards: search direction and
    alpha; None = alpha indexed outside its num_corrections entries *)
Fixpoint lr_loop1 (h : low_rank) (idx : list nat) (dir : vec) (alpha : nat -> R) : option (vec * (nat -> R)) :=
  match idx with
  | [] => Some (dir, alpha)
  | i :: r =>
      if i <? length (lr_indices h) then
        let a := dot (lr_n h) (lr_dx h i) dir / lr_dot h i in
        lr_loop1 h r (vsub dir (vscale a (lr_dg h i))) (set alpha i a)
      else None
  end.
(** low_rank_inverse_hessian.cc:171-175, the second loop *)
Fixpoint lr_loop2 (h : low_rank) (idx : list nat) (dir : vec) (alpha : nat -> R) : vec :=
  match idx with
  | [] => dir
  | i :: r =>
      let b := dot (lr_n h) (lr_dg h i) dir / lr_dot h i in
      lr_loop2 h r (vadd dir (vscale (alpha i - b) (lr_dx h i))) alpha
  end.
(** low_rank_inverse_hessian.cc:119-176 RightMultiplyAndAccumulate; [junk] is the uninitialized alpha *)
Definition lr_multiply (h : low_rank) (junk : nat -> R) (g : vec) : option vec :=
  match lr_loop1 h (rev (lr_indices h)) g junk with
  | None => None
  | Some (dir, alpha) =>
      let dir := if lr_scaling h then vscale (lr_scale h) dir else dir in
      Some (lr_loop2 h (lr_indices h) dir alpha)
  end.

(** ** the directions *)
(** line_search_minimizer.h:55-72 State, the members the directions read *)
Record ls_state := mkLS { s_gradient : vec; s_gsq : R; s_direction : vec; s_step : R }.

(** line_search_direction.cc:44-52 SteepestDescent *)
Definition steepest_descent (current : ls_state) : vec := vneg (s_gradient current).

(** types.h NonlinearConjugateGradientType *)
Inductive ncg_type := FLETCHER_REEVES | POLAK_RIBIERE | HESTENES_STIEFEL.
(** line_search_direction.cc:54-98 NonlinearConjugateGradient::NextDirection *)
Definition ncg_beta (n : nat) (t : ncg_type) (previous current : ls_state) : R :=
  let change := vsub (s_gradient current) (s_gradient previous) in
  match t with
  | FLETCHER_REEVES => s_gsq current / s_gsq previous
  | POLAK_RIBIERE => dot n (s_gradient current) change / s_gsq previous
  | HESTENES_STIEFEL => dot n (s_gradient current) change / dot n (s_direction previous) change
  end.
Definition ncg_next (n : nat) (t : ncg_type) (tol : R) (previous current : ls_state) : vec :=
  let d := vadd (vneg (s_gradient current)) (vscale (ncg_beta n t previous current) (s_direction previous)) in
  if Rlt_dec (- tol) (dot n (s_gradient current) d) then vneg (s_gradient current) else d.

(** line_search_direction.cc:100-142 LBFGS; None = the CHECK fails or undefined behaviour *)
Record lbfgs := mkLB { lb_h : low_rank; lb_pd : bool }.
Definition lbfgs_next (o : lbfgs) (junk : nat -> R) (previous current : ls_state) : option (lbfgs * vec * bool) :=
  if lb_pd o then
    match lr_update (lb_h o) (vscale (s_step previous) (s_direction previous))
                    (vsub (s_gradient current) (s_gradient previous)) with
    | None => None
    | Some (_, h) =>
        match lr_multiply h junk (s_gradient current) with
        | None => None
        | Some w =>
            let d := vscale (-1) w in
            if Rle_dec 0 (dot (lr_n h) d (s_gradient current)) then Some (mkLB h false, d, false)
            else Some (mkLB h true, d, true)
        end
    end
  else None.

(** line_search_direction.cc:144-337 BFGS.  The matrix has only its lower triangle maintained. *)
Definition mat := nat -> nat -> R.
(** selfadjointView<Eigen::Lower>() *)
Definition self_adjoint (A : mat) : mat := fun i j => if (j <=? i)%nat then A i j else A j i.
(** A * v *)
Definition mat_vec (n : nat) (A : mat) (v : vec) : vec := fun i => dot n (A i) v.
(** v' * A *)
Definition vec_mat (n : nat) (v : vec) (A : mat) : vec := fun j => dot n v (fun i => A i j).

Record bfgs := mkBF { bf_n : nat; bf_scaling : bool; bf_h : mat; bf_init : bool; bf_pd : bool }.
(** line_search_direction.cc:146-165 constructor: the identity *)
Definition bfgs_new (n : nat) (scaling : bool) : bfgs :=
  mkBF n scaling (fun i j => if i =? j then 1 else 0) false true.

(** line_search_direction.cc:286-318: the update of the lower triangle *)
Definition bfgs_update (n : nat) (H : mat) (dx dg : vec) (dxdg : R) : mat :=
  let rho := 1 / dxdg in
  let S := self_adjoint H in
  let row := vec_mat n dg S in
  let A := fun i j => dx i * row j in
  let scale := 1 + dot n (vec_mat n (vscale rho dg) S) dg in
  let B := fun i j => if (j <=? i)%nat then scale * (dx i * dx j) else 0 in
  fun i j => if (j <=? i)%nat then H i j + rho * (B i j - A i j - A j i) else H i j.

(** line_search_direction.cc:167-330 NextDirection *)
Definition bfgs_next (o : bfgs) (previous current : ls_state) : option (bfgs * vec * bool) :=
  let n := bf_n o in
  if bf_pd o then
    let dx := vscale (s_step previous) (s_direction previous) in
    let dg := vsub (s_gradient current) (s_gradient previous) in
    let dxdg := dot n dx dg in
    let '(H, init) :=
      if Rle_dec dxdg secant_tolerance then (bf_h o, bf_init o)
      else
        let H0 := if negb (bf_init o) && bf_scaling o
                  then (fun i j => bf_h o i j * (dxdg / dot n dg dg)) else bf_h o in
        (bfgs_update n H0 dx dg dxdg, true) in
    let d := mat_vec n (self_adjoint H) (vscale (-1) (s_gradient current)) in
    if Rle_dec 0 (dot n d (s_gradient current)) then Some (mkBF n (bf_scaling o) H init false, d, false)
    else Some (mkBF n (bf_scaling o) H init true, d, true)
  else None.
