(* What "exact derivative" means for programs over Jets (jet.h).

   [val e x] is the real function that the program [e] computes from the
   parameters [x]; [regular e x] says that every operation on the executed path is
   applied at a point where the real function is differentiable (both sides of
   executed comparisons are different, so that the branch taken is the same
   nearby).  [gradient_at] is the total derivative: along every differentiable
   curve through the point, the function changes at the rate given by the
   gradient.  Nothing here refers to Jets. *)

From Coq Require Import Reals List ZArith Bool.
From Coquelicot Require Import Coquelicot.
From Verif Require Import JetModel.
Import ListNotations.
Local Open Scope R_scope.

(* ---------------- values ---------------- *)

Definition integer (x : R) : Prop := exists z : Z, x = IZR z.

(* the error function *)
Definition erf (x : R) : R := RInt (fun t => 2 / sqrt PI * exp (- t ^ 2)) 0 x.

(* x^y for x > 0, for x = 0 and y >= 0, and for x < 0 and y an integer *)
Definition real_pow (x y : R) : R :=
  if Rlt_dec 0 x then exp (y * ln x)
  else if Req_EM_T x 0 then (if Req_EM_T y 0 then 1 else 0)
  else powerRZ x (Int_part y).

Definition uval (o : un) (x : R) : R :=
  match o with
  | UPos => x | UNeg => - x | UAbs => Rabs x | ULog => ln x
  | ULog10 => ln x / ln 10 | ULog1p => ln (1 + x) | UExp => exp x | UExpm1 => exp x - 1
  | USqrt => sqrt x | UCos => cos x | UAcos => acos x | USin => sin x
  | UAsin => asin x | UTan => tan x | UAtan => atan x | USinh => sinh x
  | UCosh => cosh x | UTanh => tanh x
  | UFloor => IZR (Int_part x) | UCeil => - IZR (Int_part (- x))
  | UCbrt => rcbrt x | UExp2 => exp (x * ln 2) | ULog2 => ln x / ln 2
  | UErf => erf x | UErfc => 1 - erf x | UNorm => x ^ 2
  | UAddS s => x + s | USAdd s => s + x | USubS s => x - s | USSub s => s - x
  | UMulS s => x * s | USMul s => s * x | UDivS s => x / s | USDiv s => s / x
  | UPowS s => real_pow x s | USPow s => real_pow s x
  end.
Definition bval (o : bin) (x y : R) : R :=
  match o with
  | BAdd => x + y | BSub => x - y | BMul => x * y | BDiv => x / y
  | BHypot => sqrt (x ^ 2 + y ^ 2) | BFmax => Rmax x y | BFmin => Rmin x y
  | BFdim => Rmax (x - y) 0
  | BCopysign => if Rlt_dec y 0 then - Rabs x else Rabs x
  | BAtan2 => ratan2 x y | BPow => real_pow x y | BMidpoint => (x + y) / 2
  end.
Definition tval (o : tri) (x y z : R) : R :=
  match o with
  | THypot => sqrt (x ^ 2 + y ^ 2 + z ^ 2) | TFma => x * y + z | TLerp => x + z * (y - x)
  end.
Definition holds (c : cmp) (x y : R) : Prop :=
  match c with
  | CLt => x < y | CLe => x <= y | CGt => x > y | CGe => x >= y | CEq => x = y | CNe => x <> y
  end.
Definition holds_dec (c : cmp) (x y : R) : {holds c x y} + {~ holds c x y} :=
  match c with
  | CLt => Rlt_dec x y | CLe => Rle_dec x y | CGt => Rgt_dec x y | CGe => Rge_dec x y
  | CEq => Req_EM_T x y
  | CNe => match Req_EM_T x y with
           | left E => right (fun N => N E) | right N => left N
           end
  end.

Fixpoint val (e : expr) (x : nat -> R) : R :=
  match e with
  | Var i => x i
  | Const r => r
  | Un o e => uval o (val e x)
  | Bin o e1 e2 => bval o (val e1 x) (val e2 x)
  | Tri o e1 e2 e3 => tval o (val e1 x) (val e2 x) (val e3 x)
  | If c a b e1 e2 => if holds_dec c (val a x) (val b x) then val e1 x else val e2 x
  end.

(* ---------------- where the operations are differentiable ---------------- *)

Definition udom (o : un) (x : R) : Prop :=
  match o with
  | UAbs => x <> 0 | ULog => 0 < x | ULog10 => 0 < x | ULog2 => 0 < x | ULog1p => -1 < x
  | USqrt => 0 < x | UAcos => -1 < x < 1 | UAsin => -1 < x < 1 | UTan => cos x <> 0
  | UFloor => ~ integer x | UCeil => ~ integer x | UCbrt => x <> 0
  | UDivS s => s <> 0 | USDiv _ => x <> 0
  | UPowS s => 0 < x \/ (x < 0 /\ integer s) \/ (x = 0 /\ integer s /\ 1 <= s)
  | USPow s => 0 < s \/ (s = 0 /\ 0 < x)
  | _ => True
  end.
Definition bdom (o : bin) (x y : R) : Prop :=
  match o with
  | BDiv => y <> 0
  | BHypot => ~ (x = 0 /\ y = 0)
  | BFmax => x <> y | BFmin => x <> y | BFdim => x <> y
  | BCopysign => x <> 0 /\ y <> 0
  | BAtan2 => ~ (x = 0 /\ y <= 0)     (* the arguments are (y, x) *)
  | BPow => 0 < x
  | _ => True
  end.
Definition tdom (o : tri) (x y z : R) : Prop :=
  match o with THypot => ~ (x = 0 /\ y = 0 /\ z = 0) | _ => True end.

(* the program does not use the parameters *)
Fixpoint var_free (e : expr) : Prop :=
  match e with
  | Var _ => False | Const _ => True
  | Un _ e => var_free e
  | Bin _ e1 e2 => var_free e1 /\ var_free e2
  | Tri _ e1 e2 e3 => var_free e1 /\ var_free e2 /\ var_free e3
  | If _ a b e1 e2 => var_free a /\ var_free b /\ var_free e1 /\ var_free e2
  end.
(* the program uses the first N parameters only *)
Fixpoint uses_below (N : nat) (e : expr) : Prop :=
  match e with
  | Var i => (i < N)%nat | Const _ => True
  | Un _ e => uses_below N e
  | Bin _ e1 e2 => uses_below N e1 /\ uses_below N e2
  | Tri _ e1 e2 e3 => uses_below N e1 /\ uses_below N e2 /\ uses_below N e3
  | If _ a b e1 e2 => uses_below N a /\ uses_below N b /\ uses_below N e1 /\ uses_below N e2
  end.

Fixpoint regular (e : expr) (x : nat -> R) : Prop :=
  match e with
  | Var _ => True
  | Const _ => True
  | Un o e =>
      regular e x /\
      (udom o (val e x) \/
       (* a negative number to the power of a constant integer *)
       match o with USPow s => s < 0 /\ var_free e /\ integer (val e x) | _ => False end)
  | Bin o e1 e2 =>
      regular e1 x /\ regular e2 x /\
      (bdom o (val e1 x) (val e2 x) \/
       (* a base that is not positive to the power of a constant integer *)
       match o with
       | BPow => var_free e2 /\ integer (val e2 x) /\
                 (val e1 x < 0 \/ (val e1 x = 0 /\ 1 <= val e2 x))
       | _ => False
       end)
  | Tri o e1 e2 e3 =>
      regular e1 x /\ regular e2 x /\ regular e3 x /\ tdom o (val e1 x) (val e2 x) (val e3 x)
  | If c a b e1 e2 =>
      regular a x /\ regular b x /\ val a x <> val b x /\
      (if holds_dec c (val a x) (val b x) then regular e1 x else regular e2 x)
  end.

(* ---------------- the derivative ---------------- *)

Fixpoint dot (N : nat) (g d : nat -> R) : R :=
  match N with O => 0 | S n => dot n g d + g n * d n end.

Definition gradient_at (N : nat) (f : (nat -> R) -> R) (x g : nat -> R) : Prop :=
  forall (curve : R -> nat -> R) (t : R) (d : nat -> R),
    (forall i, (i < N)%nat -> curve t i = x i /\ is_derive (fun s => curve s i) t (d i)) ->
    is_derive (fun s => f (curve s)) t (dot N g d).

(* the i-th partial derivative *)
Definition replace_arg (x : nat -> R) (i : nat) (t : R) : nat -> R :=
  fun j => if Nat.eqb j i then t else x j.
Definition partial_at (f : (nat -> R) -> R) (x : nat -> R) (i : nat) (l : R) : Prop :=
  is_derive (fun t => f (replace_arg x i t)) (x i) l.
