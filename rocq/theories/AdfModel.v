(* Objective functions, manifolds and TinySolver functions built from functors:
   include/ceres/autodiff_first_order_function.h:147-174, numeric_diff_first_order_function.h:177-226,
   autodiff_manifold.h:147-245, tiny_solver_autodiff_function.h:108-162, tiny_solver_cost_function_adapter.h:101-152.
   Templated functors are those of AutoDiffModel.v (expressions of their outputs, all outputs written); functors that are
   differentiated numerically are arbitrary functions.  Ownership of the functor is not modelled. *)
From Coq Require Import Reals List ZArith Bool.
From Verif Require Import JetModel AutoDiffModel.
From Verif Require NumDiffModel.
Import ListNotations.

(* a buffer: v(0), ..., v(n-1) are written to dst[at(0)], ..., dst[at(n-1)] in order *)
Definition write_all (n : nat) (at_ : nat -> nat) (v : nat -> num) (dst : nat -> num) : nat -> num :=
  fold_left (fun dst i => upd dst (at_ i) (v i)) (seq 0 n) dst.

(* what Evaluate returns; on false the outputs are not specified *)
Inductive evaluated : Type :=
| EvalFalse
| EvalTrue (value : list num) (derivative : jacobian).

(* autodiff_first_order_function.h:155-160 (and tiny_solver_autodiff_function.h:117-121): the jets of the parameters; [old]
   is what the array holds before *)
Definition seeded (N : nat) (parameters : nat -> num) (old : nat -> jet) : nat -> jet :=
  fold_left (fun x i => upd x i (mkjet (parameters i) (upd (fun _ => nz) i n1))) (seq 0 N) old.

(* autodiff_first_order_function.h:147-174; [old]: the uninitialized array of jets; gradient = None: a null pointer *)
Definition AutoDiffFirstOrderFunction_Evaluate (cpp20 : bool) (f : functor) (N : nat) (old : nat -> jet)
    (parameters : nat -> num) (gradient : jacobian) : evaluated :=
  match gradient with
  | None => match run_doubles f parameters with None => EvalFalse | Some r => EvalTrue r None end
  | Some g =>
      match run_jets cpp20 f (seeded N parameters old) with
      | None => EvalFalse
      | Some out => EvalTrue (map ja out) (Some (write_all N (fun i => i) (jv (nth 0 out jet_default)) g))
      end
  end.

(* tiny_solver_autodiff_function.h:108-142; [old]: what earlier calls left in jet_parameters_ *)
Definition TinySolverAutoDiffFunction_call (cpp20 : bool) (f : functor) (N : nat) (old : nat -> jet)
    (parameters : nat -> num) (jacobian : jacobian) : evaluated :=
  match jacobian with
  | None => match run_doubles f parameters with None => EvalFalse | Some r => EvalTrue r None end
  | Some j =>
      match run_jets cpp20 f (seeded N parameters old) with
      | None => EvalFalse
      | Some out =>
          let M := length out in
          (* jacobian_matrix.row(r) = jet_residuals_[r].v, the matrix is column major *)
          EvalTrue (map ja out)
            (Some (fold_left (fun j r => write_all N (fun c => c * M + r) (jv (nth r out jet_default)) j) (seq 0 M) j))
      end
  end.

(* autodiff_manifold.h:202-221: the parameters are x and zero_delta *)
Definition PlusJacobian (cpp20 : bool) (plus : functor) (A T : nat) (x : nat -> num) (jacobian : nat -> num) : option (nat -> num) :=
  match AutoDifferentiate cpp20 plus [A; T] (fun i => if Nat.ltb i A then x i else nz) [None; Some jacobian] with
  | ReturnsTrue _ js => nth 1 js None
  | _ => None
  end.
(* 223-242: the parameters are x and x *)
Definition MinusJacobian (cpp20 : bool) (minus : functor) (A : nat) (x : nat -> num) (jacobian : nat -> num) : option (nat -> num) :=
  match AutoDifferentiate cpp20 minus [A; A] (fun i => if Nat.ltb i A then x i else x (i - A)) [Some jacobian; None] with
  | ReturnsTrue _ js => nth 0 js None
  | _ => None
  end.

(* ---------------- numeric_diff_first_order_function.h ---------------- *)
Record numeric_outcome : Type := mkNO { n_status : bool; n_cost : option R; n_gradient : option (nat -> R); n_calls : list (list R) }.
(* FirstOrderFunctorAdapter (internal/variadic_evaluate.h:102-113): the functor as a function with one residual of one block *)
Definition objective (f : list R -> option R) : NumDiffModel.Functor :=
  fun p => match f (nth 0 p []) with Some c => Some (fun _ => c) | None => None end.
(* 177-226; [dynamic]: kNumParameters == DYNAMIC.  junk: uninitialized arrays *)
Definition NumericDiffFirstOrderFunction_Evaluate (dynamic : bool) (m : NumDiffModel.Method) (o : NumDiffModel.Options) (f : list R -> option R)
    (junk_a junk_b : nat -> nat -> R) (junk : nat -> R) (x : list R) (gradient : option (nat -> R)) : numeric_outcome :=
  match f x with
  | None => mkNO false None gradient [x]
  | Some c =>
      match gradient with
      | None => mkNO true (Some c) None [x]
      | Some g =>
          let s0 := NumDiffModel.mkState [x] [[x]] in
          if dynamic then
            match NumDiffModel.EvaluateJacobianForParameterBlock m o (objective f) (fun _ => c) 1 0 junk_a junk_b junk g s0 with
            | (ok, g', s) => mkNO ok (Some c) (Some g') (map (fun p => nth 0 p []) (rev (NumDiffModel.calls s)))
            end
          else
            match NumDiffModel.Blocks m o (objective f) (fun _ => c) 1 junk_a junk_b junk 0 [Some g] s0 with
            | (ok, js, s) => mkNO ok (Some c) (nth 0 js None) (map (fun p => nth 0 p []) (rev (NumDiffModel.calls s)))
            end
      end
  end.

(* ---------------- tiny_solver_cost_function_adapter.h ---------------- *)
(* a cost function: sizes, and Evaluate (the point, whether the Jacobian is asked for): residuals and row major Jacobian *)
Record cost_function : Type := mkCF {
  cf_num_residuals : nat; cf_block_sizes : list nat;
  cf_evaluate : (nat -> num) -> bool -> option ((nat -> num) * (nat -> num)) }.
(* the template parameters: None is Eigen::Dynamic *)
(* 101-119: the rows and columns of row_major_jacobian_; None: a CHECK fails *)
Definition Adapter (kNumResiduals kNumParameters : option nat) (cf : cost_function) : option (nat * nat) :=
  match cf_block_sizes cf with
  | [size] =>
      match kNumResiduals, kNumParameters with
      | Some r, Some p => Some (r, p)
      | Some r, None => if Nat.eqb (cf_num_residuals cf) r then Some (cf_num_residuals cf, size) else None
      | None, Some p => if Nat.eqb size p then Some (cf_num_residuals cf, size) else None
      | None, None => Some (cf_num_residuals cf, size)
      end
  | _ => None
  end.
Inductive adapted : Type :=
| OutOfBounds                      (* writes beyond row_major_jacobian_ *)
| AdFalse
| AdTrue (residuals : nat -> num) (jacobian : jacobian).
(* 121-143; [dims]: of row_major_jacobian_ *)
Definition Adapter_call (dims : nat * nat) (cf : cost_function) (parameters : nat -> num) (jacobian : jacobian) : adapted :=
  match jacobian with
  | None => match cf_evaluate cf parameters false with None => AdFalse | Some (r, _) => AdTrue r None end
  | Some j =>
      match cf_evaluate cf parameters true with
      | None => AdFalse
      | Some (r, row_major) =>
          if Nat.ltb (fst dims * snd dims) (cf_num_residuals cf * hd 0 (cf_block_sizes cf)) then OutOfBounds
          else AdTrue r (Some (fold_left (fun j i => write_all (snd dims) (fun c => c * fst dims + i) (fun c => row_major (i * snd dims + c)) j)
                                         (seq 0 (fst dims)) j))
      end
  end.
