(* AutoDiffCostFunction and DynamicAutoDiffCostFunction:
   include/ceres/internal/autodiff.h:183-312, autodiff_cost_function.h:226-243,
   dynamic_autodiff_cost_function.h:128-291.

   The functor is a template over the scalar type: it is given as the expressions
   (JetModel.v) of its residuals, and comparisons that make it return false.  It
   writes every residual, so that the initial value of the output Jets
   (autodiff.h:285-288) does not matter.  Arrays are functions from the index;
   a parameter index is the index in the concatenation of all blocks.  An array
   index out of range is None. *)

From Coq Require Import Reals List ZArith Bool.
From Flocq Require Import Core.
From Verif Require Import JetModel.
Import ListNotations.

(* ---------------- the functor ---------------- *)

Record functor : Type := mkfunctor {
  f_guards : list (cmp * expr * expr);   (* the functor returns true if all hold *)
  f_out : list expr                      (* the residuals *)
}.

(* the functor for T = Jet *)
Definition run_jets (cpp20 : bool) (f : functor) (env : nat -> jet) : option (list jet) :=
  if forallb (fun g => match g with (c, a, b) => jcmp c (jeval cpp20 env a) (jeval cpp20 env b) end)
             (f_guards f)
  then Some (map (jeval cpp20 env) (f_out f)) else None.

(* the functor for T = double: the same operations of <cmath> *)
Definition nfmax (x y : num) : num :=
  match x, y with
  | None, _ => y | _, None => x
  | Some a, Some b => Some (Rmax a b)
  end.
Definition nfmin (x y : num) : num :=
  match x, y with
  | None, _ => y | _, None => x
  | Some a, Some b => Some (Rmin a b)
  end.
Definition nfdim : num -> num -> num := lift2 (fun a b => Rmax (a - b) 0).

Definition nun (o : un) (x : num) : num :=
  match o with
  | UPos => x | UNeg => nopp x | UAbs => nabs x | ULog => nlog x
  | ULog10 => nlog10 x | ULog1p => nlog1p x | UExp => nexp x | UExpm1 => nexpm1 x
  | USqrt => nsqrt x | UCos => ncos x | UAcos => nacos x | USin => nsin x
  | UAsin => nasin x | UTan => ntan x | UAtan => natan x | USinh => nsinh x
  | UCosh => ncosh x | UTanh => ntanh x | UFloor => nfloor x | UCeil => nceil x
  | UCbrt => ncbrt x | UExp2 => nexp2 x | ULog2 => nlog2 x | UErf => nerf x
  | UErfc => nerfc x | UNorm => nmul x x
  | UAddS s => nadd x (Some s) | USAdd s => nadd (Some s) x
  | USubS s => nsub x (Some s) | USSub s => nsub (Some s) x
  | UMulS s => nmul x (Some s) | USMul s => nmul (Some s) x
  | UDivS s => ndiv x (Some s) | USDiv s => ndiv (Some s) x
  | UPowS s => npow x (Some s) | USPow s => npow (Some s) x
  end.
Definition nbin (o : bin) (x y : num) : num :=
  match o with
  | BAdd => nadd x y | BSub => nsub x y | BMul => nmul x y | BDiv => ndiv x y
  | BHypot => nhypot x y | BFmax => nfmax x y | BFmin => nfmin x y
  | BFdim => nfdim x y | BCopysign => ncopysign x y | BAtan2 => natan2 x y
  | BPow => npow x y | BMidpoint => nmidpoint x y
  end.
Definition ntri (o : tri) (x y z : num) : num :=
  match o with THypot => nhypot3 x y z | TFma => nfma x y z | TLerp => nlerp x y z end.
Fixpoint neval (x : nat -> num) (e : expr) : num :=
  match e with
  | Var i => x i
  | Const r => Some r
  | Un o e => nun o (neval x e)
  | Bin o e1 e2 => nbin o (neval x e1) (neval x e2)
  | Tri o e1 e2 e3 => ntri o (neval x e1) (neval x e2) (neval x e3)
  | If c a b e1 e2 => if ncmp c (neval x a) (neval x b) then neval x e1 else neval x e2
  end.
Definition run_doubles (f : functor) (x : nat -> num) : option (list num) :=
  if forallb (fun g => match g with (c, a, b) => ncmp c (neval x a) (neval x b) end) (f_guards f)
  then Some (map (neval x) (f_out f)) else None.

(* ---------------- arrays ---------------- *)

Definition upd {A} (m : nat -> A) (i : nat) (v : A) : nat -> A :=
  fun j => if Nat.eqb j i then v else m j.

(* the buffer of one block's Jacobian, row major; None is a null pointer *)
Definition jacobian : Type := option (nat -> num).

(* What Evaluate does: aborts, or returns false, or returns true with the residuals
   and the contents of the Jacobian buffers. *)
Inductive outcome : Type :=
| Aborts
| ReturnsFalse
| ReturnsTrue (residuals : list num) (jacobians : list jacobian).

(* ---------------- autodiff.h ---------------- *)

(* 183-189: dst[i] = JetT(src[i], i + Offset), with dst = x + Offset *)
Definition Make1stOrderPerturbation (N offset : nat) (parameters : nat -> num) (x : nat -> jet)
  : nat -> jet :=
  fold_left (fun x i => upd x (offset + i) (jvar (parameters (offset + i)) (i + offset))) (seq 0 N) x.
(* 197-206, offsets by exclusive scan of the sizes *)
Fixpoint Make1stOrderPerturbations (Ns : list nat) (offset : nat) (parameters : nat -> num)
  (x : nat -> jet) : nat -> jet :=
  match Ns with
  | [] => x
  | n :: rest =>
      Make1stOrderPerturbations rest (offset + n) parameters
        (Make1stOrderPerturbation n offset parameters x)
  end.
(* 220-227: row i of the block gets v[N0 .. N0 + N) of output i *)
Definition Take1stOrderPart (N0 N M : nat) (src : nat -> jet) (dst : nat -> num) : nat -> num :=
  fold_left (fun dst i => fold_left (fun dst j => upd dst (N * i + j) (jv (src i) (N0 + j))) (seq 0 N) dst)
            (seq 0 M) dst.
(* 235-246 *)
Fixpoint Take1stOrderParts (Ns : list nat) (offset M : nat) (output : nat -> jet) (jacobians : list jacobian)
  : list jacobian :=
  match Ns, jacobians with
  | n :: rest, j :: js =>
      match j with
      | Some dst => Some (Take1stOrderPart offset n M output dst)
      | None => None
      end :: Take1stOrderParts rest (offset + n) M output js
  | _, _ => jacobians
  end.

(* 252-312 *)
Definition AutoDifferentiate (cpp20 : bool) (f : functor) (Ns : list nat) (parameters : nat -> num)
  (jacobians : list jacobian) : outcome :=
  let x := Make1stOrderPerturbations Ns 0 parameters (fun _ => jet_default) in
  match run_jets cpp20 f x with
  | None => ReturnsFalse
  | Some residuals =>
      let output := fun i => nth i residuals jet_default in
      ReturnsTrue (map ja residuals) (Take1stOrderParts Ns 0 (length residuals) output jacobians)
  end.

(* autodiff_cost_function.h:226-243; the jacobians argument may be null *)
Definition Evaluate (cpp20 : bool) (f : functor) (Ns : list nat) (parameters : nat -> num)
  (jacobians : option (list jacobian)) : outcome :=
  match jacobians with
  | None =>
      match run_doubles f parameters with
      | None => ReturnsFalse | Some r => ReturnsTrue r []
      end
  | Some js => AutoDifferentiate cpp20 f Ns parameters js
  end.

(* ---------------- dynamic_autodiff_cost_function.h ---------------- *)

(* The two nested loops over blocks and their entries, as one list: parameter index
   order; each entry has the block, the index in the block, and whether the block's
   Jacobian is wanted. *)
Record slot : Type := mkslot { s_block : nat; s_index : nat; s_active : bool }.
Fixpoint slots (block : nat) (sizes : list nat) (jacobians : list jacobian) : list slot :=
  match sizes, jacobians with
  | n :: rest, j :: js =>
      map (fun i => mkslot block i (match j with Some _ => true | None => false end)) (seq 0 n)
      ++ slots (S block) rest js
  | _, _ => []
  end.

(* 174-193: the start of each derivative section, and the number of active parameters *)
Fixpoint discover (sizes : list nat) (jacobians : list jacobian) (cursor : nat) (in_section : bool)
  (starts : list nat) (active : nat) : list nat * nat * nat :=
  match sizes, jacobians with
  | n :: rest, j :: js =>
      match j with
      | Some _ =>
          discover rest js (cursor + n) true
            (if in_section then starts else starts ++ [cursor]) (active + n)
      | None => discover rest js (cursor + n) false starts active
      end
  | _, _ => (starts, cursor, active)
  end.

(* current_derivative_section, current_derivative_section_cursor, active_parameter_count *)
Record pass_state : Type := mkps { ps_section : nat; ps_cursor : nat; ps_count : nat }.

(* 230-248: zero every infinitesimal part, and seed up to Stride parameters *)
Fixpoint seed_loop (stride : nat) (starts : list nat) (parameters : nat -> num)
  (l : list slot) (parameter_cursor : nat) (st : pass_state) (x : nat -> jet)
  : option (pass_state * (nat -> jet)) :=
  match l with
  | [] => Some (st, x)
  | s :: rest =>
      let x0 := upd x parameter_cursor (mkjet (parameters parameter_cursor) vz) in
      if Nat.ltb (ps_count st) stride then
        match nth_error starts (ps_section st) with
        | None => None
        | Some start =>
            if Nat.leb (start + ps_cursor st) parameter_cursor then
              if s_active s then
                seed_loop stride starts parameters rest (S parameter_cursor)
                  (mkps (ps_section st) (S (ps_cursor st)) (S (ps_count st)))
                  (upd x parameter_cursor
                     (mkjet (parameters parameter_cursor)
                            (fun k => if Nat.eqb k (ps_count st) then n1 else nz)))
              else
                seed_loop stride starts parameters rest (S parameter_cursor)
                  (mkps (S (ps_section st)) 0 (ps_count st)) x0
            else seed_loop stride starts parameters rest (S parameter_cursor) st x0
        end
      else seed_loop stride starts parameters rest (S parameter_cursor) st x0
  end.

(* 268-271: one column of one block *)
Definition copy_column (M size j : nat) (output : nat -> jet) (k : nat) (dst : nat -> num) : nat -> num :=
  fold_left (fun dst r => upd dst (r * size + j) (jv (output r) k)) (seq 0 M) dst.
Fixpoint on_block (i : nat) (g : (nat -> num) -> nat -> num) (js : list jacobian) : list jacobian :=
  match js, i with
  | [], _ => []
  | j :: rest, O => match j with Some d => Some (g d) | None => None end :: rest
  | j :: rest, S i => j :: on_block i g rest
  end.

(* 260-280: the same loop, copying the derivatives *)
Fixpoint copy_loop (stride : nat) (starts : list nat) (sizes : list nat) (M : nat) (output : nat -> jet)
  (l : list slot) (parameter_cursor : nat) (st : pass_state) (jacobians : list jacobian)
  : option (pass_state * list jacobian) :=
  match l with
  | [] => Some (st, jacobians)
  | s :: rest =>
      if Nat.ltb (ps_count st) stride then
        match nth_error starts (ps_section st) with
        | None => None
        | Some start =>
            if Nat.leb (start + ps_cursor st) parameter_cursor then
              if s_active s then
                copy_loop stride starts sizes M output rest (S parameter_cursor)
                  (mkps (ps_section st) (S (ps_cursor st)) (S (ps_count st)))
                  (on_block (s_block s)
                     (copy_column M (nth (s_block s) sizes 0%nat) (s_index s) output (ps_count st)) jacobians)
              else
                copy_loop stride starts sizes M output rest (S parameter_cursor)
                  (mkps (S (ps_section st)) 0 (ps_count st)) jacobians
            else copy_loop stride starts sizes M output rest (S parameter_cursor) st jacobians
        end
      else copy_loop stride starts sizes M output rest (S parameter_cursor) st jacobians
  end.

(* 220-289 the passes; [last] are the residuals of the previous pass *)
Fixpoint passes (cpp20 : bool) (f : functor) (stride : nat) (starts sizes : list nat)
  (parameters : nat -> num) (l : list slot) (n : nat) (section cursor : nat) (x : nat -> jet)
  (residuals : list num) (jacobians : list jacobian) : outcome :=
  match n with
  | O => ReturnsTrue residuals jacobians
  | S n' =>
      match seed_loop stride starts parameters l 0 (mkps section cursor 0) x with
      | None => Aborts
      | Some (_, x') =>
          match run_jets cpp20 f x' with
          | None => ReturnsFalse
          | Some out =>
              match copy_loop stride starts sizes (length out) (fun i => nth i out jet_default) l 0
                      (mkps section cursor 0) jacobians with
              | None => Aborts
              | Some (st, js) =>
                  passes cpp20 f stride starts sizes parameters l n' (ps_section st) (ps_cursor st) x'
                    (if Nat.eqb n' 0 then map ja out else residuals) js
              end
          end
      end
  end.

(* 214-215: ceil(num_active_parameters / static_cast<float>(Stride)), computed in
   float: round to nearest even, 24 bits *)
Definition f32 (x : R) : R := round radix2 (FLT_exp (-149) 24) ZnearestE x.
Definition num_strides (active stride : nat) : nat :=
  Z.to_nat (Zceil (f32 (f32 (INR active) / f32 (INR stride)))).

(* 128-291; an array index out of range is [Aborts] as well *)
Definition DynamicEvaluate (cpp20 : bool) (stride : nat) (f : functor) (sizes : list nat)
  (parameters : nat -> num) (jacobians : option (list jacobian)) : outcome :=
  if Nat.eqb (length (f_out f)) 0 then Aborts      (* CHECK_GT(num_residuals(), 0) *)
  else
    let plain :=
      match run_doubles f parameters with
      | None => ReturnsFalse
      | Some r => ReturnsTrue r (match jacobians with Some js => js | None => [] end)
      end in
    match jacobians with
    | None => plain
    | Some js =>
        match discover sizes js 0 false [] 0 with
        | (starts, total, active) =>
            if Nat.eqb active 0 then plain
            else
              passes cpp20 f stride (starts ++ [total]) sizes parameters (slots 0 sizes js)
                (num_strides active stride) 0 0
                (fun p => mkjet (parameters p) vz) [] js
        end
    end.
