(* Automatic differentiation with Jets: include/ceres/jet.h.

   The scalar type T of Jet<T, N> is double in the code.  Here it is [num]: a real
   number, or NaN.  Simplifications: arithmetic is exact (no rounding), and an
   operation whose result would be infinite (1 / 0, log(0), pow(0, -1)) gives NaN;
   signed zeros are not distinguished, copysign treats 0 as +0.  A Jet of a Jet is
   not modelled, nor are the Bessel functions (jet.h:872-973), operator<<, the
   numeric_limits and the Eigen traits.  The compound assignments
   (jet.h:243-283) are *this = *this op y and add nothing.

   The infinitesimal part is a function from the index; only the indices below N
   exist in the code. *)

From Coq Require Import Reals List ZArith Bool.
From Coquelicot Require Import Coquelicot.
Import ListNotations.
Local Open Scope R_scope.

(* ---------------- the scalar type ---------------- *)

Definition num : Type := option R.

Definition lift1 (f : R -> R) (x : num) : num :=
  match x with Some a => Some (f a) | None => None end.
Definition lift2 (f : R -> R -> R) (x y : num) : num :=
  match x, y with Some a, Some b => Some (f a b) | _, _ => None end.

(* the operators of double *)
Definition nopp : num -> num := lift1 Ropp.
Definition nadd : num -> num -> num := lift2 Rplus.
Definition nsub : num -> num -> num := lift2 Rminus.
Definition nmul : num -> num -> num := lift2 Rmult.
Definition ndiv (x y : num) : num :=
  match x, y with
  | Some a, Some b => if Req_EM_T b 0 then None else Some (a / b)
  | _, _ => None
  end.
Definition nz : num := Some 0.
Definition n1 : num := Some 1.

(* comparisons: false when an operand is NaN, except != *)
Inductive cmp : Type := CLt | CLe | CGt | CGe | CEq | CNe.
Definition ncmp (c : cmp) (x y : num) : bool :=
  match x, y with
  | Some a, Some b =>
      match c with
      | CLt => if Rlt_dec a b then true else false
      | CLe => if Rle_dec a b then true else false
      | CGt => if Rlt_dec b a then true else false
      | CGe => if Rle_dec b a then true else false
      | CEq => if Req_EM_T a b then true else false
      | CNe => if Req_EM_T a b then false else true
      end
  | _, _ => match c with CNe => true | _ => false end
  end.
Definition nisnan (x : num) : bool := match x with None => true | Some _ => false end.
Definition niszero (x : num) : bool := ncmp CEq x nz.   (* fpclassify(x) == FP_ZERO *)

(* the functions of <cmath> that jet.h calls on the scalar part *)
Definition nabs : num -> num := lift1 Rabs.
Definition ncopysign : num -> num -> num :=
  lift2 (fun x y => if Rlt_dec y 0 then - Rabs x else Rabs x).
Definition nlog (x : num) : num :=
  match x with Some a => if Rlt_dec 0 a then Some (ln a) else None | None => None end.
Definition nlog10 (x : num) : num :=
  match x with Some a => if Rlt_dec 0 a then Some (ln a / ln 10) else None | None => None end.
Definition nlog2 (x : num) : num :=
  match x with Some a => if Rlt_dec 0 a then Some (ln a / ln 2) else None | None => None end.
Definition nlog1p (x : num) : num :=
  match x with Some a => if Rlt_dec (-1) a then Some (ln (1 + a)) else None | None => None end.
Definition nexp : num -> num := lift1 exp.
Definition nexpm1 : num -> num := lift1 (fun a => exp a - 1).
Definition nexp2 : num -> num := lift1 (fun a => exp (a * ln 2)).
Definition nsqrt (x : num) : num :=
  match x with Some a => if Rle_dec 0 a then Some (sqrt a) else None | None => None end.
Definition ncos : num -> num := lift1 cos.
Definition nsin : num -> num := lift1 sin.
Definition ntan (x : num) : num := ndiv (nsin x) (ncos x).
Definition nacos (x : num) : num :=
  match x with
  | Some a => if Rle_dec (-1) a then if Rle_dec a 1 then Some (acos a) else None else None
  | None => None
  end.
Definition nasin (x : num) : num :=
  match x with
  | Some a => if Rle_dec (-1) a then if Rle_dec a 1 then Some (asin a) else None else None
  | None => None
  end.
Definition natan : num -> num := lift1 atan.
Definition nsinh : num -> num := lift1 sinh.
Definition ncosh : num -> num := lift1 cosh.
Definition ntanh : num -> num := lift1 (fun a => sinh a / cosh a).
Definition nfloor : num -> num := lift1 (fun a => IZR (Int_part a)).
Definition nceil : num -> num := lift1 (fun a => - IZR (Int_part (- a))).
(* the real cube root, odd *)
Definition rcbrt (a : R) : R :=
  if Rlt_dec 0 a then exp (ln a / 3) else if Rlt_dec a 0 then - exp (ln (- a) / 3) else 0.
Definition ncbrt : num -> num := lift1 rcbrt.
Definition nhypot : num -> num -> num := lift2 (fun x y => sqrt (x * x + y * y)).
Definition nhypot3 (x y z : num) : num :=
  match x, y, z with
  | Some a, Some b, Some c => Some (sqrt (a * a + b * b + c * c))
  | _, _, _ => None
  end.
Definition nfma (x y z : num) : num := nadd (nmul x y) z.
(* erf(x) = 2 / sqrt(pi) * integral of exp(-t^2) from 0 to x *)
Definition rerf (x : R) : R := 2 / sqrt PI * RInt (fun t => exp (- (t * t))) 0 x.
Definition nerf : num -> num := lift1 rerf.
Definition nerfc : num -> num := lift1 (fun x => 1 - rerf x).
(* the angle of the point (x, y), in (-pi, pi] *)
Definition ratan2 (y x : R) : R :=
  if Rlt_dec 0 x then atan (y / x)
  else if Rlt_dec x 0 then
    (if Rle_dec 0 y then atan (y / x) + PI else atan (y / x) - PI)
  else if Rlt_dec 0 y then PI / 2
  else if Rlt_dec y 0 then - (PI / 2) else 0.
Definition natan2 : num -> num -> num := lift2 ratan2.
(* pow: defined for a positive base, for a zero base and an exponent that is not
   negative (pow(0, 0) = 1), and for a negative base and an integer exponent *)
Definition npow (x y : num) : num :=
  match x, y with
  | Some a, Some b =>
      if Rlt_dec 0 a then Some (Rpower a b)
      else if Req_EM_T a 0 then
        (if Rlt_dec 0 b then Some 0 else if Req_EM_T b 0 then Some 1 else None)
      else if Req_EM_T b (IZR (Int_part b)) then Some (powerRZ a (Int_part b)) else None
  | _, _ => None
  end.
Definition nmidpoint : num -> num -> num := lift2 (fun a b => (a + b) / 2).
Definition nlerp (a b t : num) : num := nadd a (nmul t (nsub b a)).

(* ---------------- jet.h:211-293 the type ---------------- *)

Record jet : Type := mkjet { ja : num; jv : nat -> num }.

Definition vz : nat -> num := fun _ => nz.
Definition vadd (u v : nat -> num) : nat -> num := fun i => nadd (u i) (v i).
Definition vsub (u v : nat -> num) : nat -> num := fun i => nsub (u i) (v i).
Definition vopp (v : nat -> num) : nat -> num := fun i => nopp (v i).
Definition vscale (s : num) (v : nat -> num) : nat -> num := fun i => nmul s (v i).
Definition vmul (v : nat -> num) (s : num) : nat -> num := fun i => nmul (v i) s.

(* jet.h:219-222 Jet(), 225-228 Jet(value), 231-235 Jet(value, k) *)
Definition jet_default : jet := mkjet nz vz.
Definition jconst (a : num) : jet := mkjet a vz.
Definition jvar (a : num) (k : nat) : jet := mkjet a (fun i => if Nat.eqb i k then n1 else nz).

(* ---------------- jet.h:297-392 operators ---------------- *)

Definition jpos (f : jet) : jet := f.                                        (* 298 *)
Definition jneg (f : jet) : jet := mkjet (nopp (ja f)) (vopp (jv f)).         (* 307 *)
Definition jadd (f g : jet) : jet := mkjet (nadd (ja f) (ja g)) (vadd (jv f) (jv g)).   (* 313 *)
Definition jadds (f : jet) (s : num) : jet := mkjet (nadd (ja f) s) (jv f).   (* 319 *)
Definition jsadd (s : num) (f : jet) : jet := mkjet (nadd (ja f) s) (jv f).   (* 325 *)
Definition jsub (f g : jet) : jet := mkjet (nsub (ja f) (ja g)) (vsub (jv f) (jv g)).   (* 331 *)
Definition jsubs (f : jet) (s : num) : jet := mkjet (nsub (ja f) s) (jv f).   (* 337 *)
Definition jssub (s : num) (f : jet) : jet := mkjet (nsub s (ja f)) (vopp (jv f)).      (* 343 *)
(* 349 *)
Definition jmul (f g : jet) : jet :=
  mkjet (nmul (ja f) (ja g)) (vadd (vscale (ja f) (jv g)) (vmul (jv f) (ja g))).
Definition jmuls (f : jet) (s : num) : jet := mkjet (nmul (ja f) s) (vmul (jv f) s).    (* 355 *)
Definition jsmul (s : num) (f : jet) : jet := mkjet (nmul (ja f) s) (vmul (jv f) s).    (* 361 *)
(* 367-378 *)
Definition jdiv (f g : jet) : jet :=
  let g_a_inverse := ndiv n1 (ja g) in
  let f_a_by_g_a := nmul (ja f) g_a_inverse in
  mkjet f_a_by_g_a (vmul (vsub (jv f) (vscale f_a_by_g_a (jv g))) g_a_inverse).
(* 382-385 *)
Definition jsdiv (s : num) (g : jet) : jet :=
  let minus_s_g_a_inverse2 := ndiv (nopp s) (nmul (ja g) (ja g)) in
  mkjet (ndiv s (ja g)) (vmul (jv g) minus_s_g_a_inverse2).
(* 389-392 *)
Definition jdivs (f : jet) (s : num) : jet :=
  let s_inverse := ndiv n1 s in
  mkjet (nmul (ja f) s_inverse) (vmul (jv f) s_inverse).

(* jet.h:402-417 comparison operators (and 1020-1087): scalar parts only *)
Definition jcmp (c : cmp) (f g : jet) : bool := ncmp c (ja f) (ja g).
Definition jisnan (f : jet) : bool := nisnan (ja f).                          (* 1007 *)
Definition jislessgreater (f g : jet) : bool := jcmp CLt f g || jcmp CGt f g. (* 1061 *)

(* ---------------- jet.h:525-767 functions ---------------- *)

(* 527-529 *)
Definition jabs (f : jet) : jet := mkjet (nabs (ja f)) (vscale (ncopysign n1 (ja f)) (jv f)).
(* 553-567; the infinite d gives NaN components here *)
Definition jcopysign (f g : jet) : jet :=
  let d := if niszero (ja g) then None else nz in
  let sa := ncopysign n1 (ja f) in
  let sb := ncopysign n1 (ja g) in
  mkjet (ncopysign (ja f) (ja g))
        (vadd (vscale (nmul sa sb) (jv f)) (vscale (nmul (nabs (ja f)) d) (jv g))).
(* 569-572 *)
Definition jlog (f : jet) : jet :=
  let a_inverse := ndiv n1 (ja f) in mkjet (nlog (ja f)) (vmul (jv f) a_inverse).
(* 576-580 *)
Definition jlog10 (f : jet) : jet :=
  let a_inverse := ndiv n1 (nmul (ja f) (nlog (Some 10))) in
  mkjet (nlog10 (ja f)) (vmul (jv f) a_inverse).
(* 584-587 *)
Definition jlog1p (f : jet) : jet :=
  let a_inverse := ndiv n1 (nadd n1 (ja f)) in mkjet (nlog1p (ja f)) (vmul (jv f) a_inverse).
(* 591-594 *)
Definition jexp (f : jet) : jet := let tmp := nexp (ja f) in mkjet tmp (vscale tmp (jv f)).
(* 598-602 *)
Definition jexpm1 (f : jet) : jet :=
  let tmp := nexpm1 (ja f) in
  let expa := nadd tmp n1 in
  mkjet tmp (vscale expa (jv f)).
(* 606-610 *)
Definition jsqrt (f : jet) : jet :=
  let tmp := nsqrt (ja f) in
  let two_a_inverse := ndiv n1 (nmul (Some 2) tmp) in
  mkjet tmp (vmul (jv f) two_a_inverse).
(* 614-616 *)
Definition jcos (f : jet) : jet := mkjet (ncos (ja f)) (vscale (nopp (nsin (ja f))) (jv f)).
(* 620-623 *)
Definition jacos (f : jet) : jet :=
  let tmp := ndiv (nopp n1) (nsqrt (nsub n1 (nmul (ja f) (ja f)))) in
  mkjet (nacos (ja f)) (vscale tmp (jv f)).
(* 627-629 *)
Definition jsin (f : jet) : jet := mkjet (nsin (ja f)) (vscale (ncos (ja f)) (jv f)).
(* 633-636 *)
Definition jasin (f : jet) : jet :=
  let tmp := ndiv n1 (nsqrt (nsub n1 (nmul (ja f) (ja f)))) in
  mkjet (nasin (ja f)) (vscale tmp (jv f)).
(* 640-644 *)
Definition jtan (f : jet) : jet :=
  let tan_a := ntan (ja f) in
  let tmp := nadd n1 (nmul tan_a tan_a) in
  mkjet tan_a (vscale tmp (jv f)).
(* 648-651 *)
Definition jatan (f : jet) : jet :=
  let tmp := ndiv n1 (nadd n1 (nmul (ja f) (ja f))) in
  mkjet (natan (ja f)) (vscale tmp (jv f)).
(* 655-657 *)
Definition jsinh (f : jet) : jet := mkjet (nsinh (ja f)) (vscale (ncosh (ja f)) (jv f)).
(* 661-663 *)
Definition jcosh (f : jet) : jet := mkjet (ncosh (ja f)) (vscale (nsinh (ja f)) (jv f)).
(* 667-671 *)
Definition jtanh (f : jet) : jet :=
  let tanh_a := ntanh (ja f) in
  let tmp := nsub n1 (nmul tanh_a tanh_a) in
  mkjet tanh_a (vscale tmp (jv f)).
(* 678-680, 687-689 *)
Definition jfloor (f : jet) : jet := jconst (nfloor (ja f)).
Definition jceil (f : jet) : jet := jconst (nceil (ja f)).
(* 695-698 *)
Definition jcbrt (f : jet) : jet :=
  let derivative := ndiv n1 (nmul (Some 3) (ncbrt (nmul (ja f) (ja f)))) in
  mkjet (ncbrt (ja f)) (vmul (jv f) derivative).
(* 702-706 *)
Definition jexp2 (f : jet) : jet :=
  let tmp := nexp2 (ja f) in
  let derivative := nmul tmp (nlog (Some 2)) in
  mkjet tmp (vmul (jv f) derivative).
(* 710-713 *)
Definition jlog2 (f : jet) : jet :=
  let derivative := ndiv n1 (nmul (ja f) (nlog (Some 2))) in
  mkjet (nlog2 (ja f)) (vmul (jv f) derivative).
(* 720-728 *)
Definition jhypot (x y : jet) : jet :=
  let tmp := nhypot (ja x) (ja y) in
  mkjet tmp (vadd (vscale (ndiv (ja x) tmp) (jv x)) (vscale (ndiv (ja y) tmp) (jv y))).
(* 735-748 *)
Definition jhypot3 (x y z : jet) : jet :=
  let tmp := nhypot3 (ja x) (ja y) (ja z) in
  mkjet tmp (vadd (vadd (vscale (ndiv (ja x) tmp) (jv x)) (vscale (ndiv (ja y) tmp) (jv y)))
                  (vscale (ndiv (ja z) tmp) (jv z))).
(* 752-759 *)
Definition jfma (x y z : jet) : jet :=
  mkjet (nfma (ja x) (ja y) (ja z)) (vadd (vadd (vscale (ja y) (jv x)) (vscale (ja x) (jv y))) (jv z)).

(* 1169-1178 midpoint *)
Definition jmidpoint (a b : jet) : jet :=
  mkjet (nmidpoint (ja a) (ja b)) (fun i => nmidpoint (jv a i) (jv b i)).
(* 795-808 fmax; a scalar operand is converted to a Jet first.  [cpp20] is
   CERES_HAS_CPP20 *)
Definition javerage (cpp20 : bool) (x y : jet) : jet :=
  if cpp20 then jmidpoint x y else jmuls (jadd x y) (Some (/ 2)).
Definition jfmax (cpp20 : bool) (x y : jet) : jet :=
  if jisnan x || jisnan y || jislessgreater x y then
    (if jisnan x || jcmp CLt x y then y else x)
  else javerage cpp20 x y.
(* 818-831 fmin *)
Definition jfmin (cpp20 : bool) (x y : jet) : jet :=
  if jisnan x || jisnan y || jislessgreater x y then
    (if jisnan x || jcmp CGt x y then y else x)
  else javerage cpp20 x y.
(* 841-847 fdim; quiet_NaN of a Jet is Jet(NaN), jet.h:1403-1405 *)
Definition jfdim (f g : jet) : jet :=
  if jisnan f || jisnan g then jconst None
  else if jcmp CGt f g then jsub f g else jet_default.
(* 853-862 erf *)
Definition jerf (x : jet) : jet :=
  mkjet (nerf (ja x))
        (vmul (vmul (jv x) (nexp (nmul (nopp (ja x)) (ja x)))) (ndiv n1 (nsqrt (natan n1)))).
(* 867-871 erfc *)
Definition jerfc (x : jet) : jet :=
  mkjet (nerfc (ja x))
        (vmul (vmul (vopp (jv x)) (nexp (nmul (nopp (ja x)) (ja x)))) (ndiv n1 (nsqrt (natan n1)))).

(* ---------------- jet.h:1151-1327 ---------------- *)

(* 1151-1156 lerp *)
Definition jlerp (a b t : jet) : jet :=
  mkjet (nlerp (ja a) (ja b) (ja t))
        (vadd (vadd (vscale (nsub n1 (ja t)) (jv a)) (vscale (ja t) (jv b)))
              (vscale (nsub (ja b) (ja a)) (jv t))).
(* 1185-1194 atan2 *)
Definition jatan2 (g f : jet) : jet :=
  let tmp := ndiv n1 (nadd (nmul (ja f) (ja f)) (nmul (ja g) (ja g))) in
  mkjet (natan2 (ja g) (ja f))
        (vscale tmp (vadd (vscale (nopp (ja g)) (jv f)) (vscale (ja f) (jv g)))).
(* 1207-1209 norm *)
Definition jnorm (f : jet) : jet :=
  mkjet (nmul (ja f) (ja f)) (vscale (nmul (Some 2) (ja f)) (jv f)).
(* 1214-1217 pow(Jet, double) *)
Definition jpows (f : jet) (g : num) : jet :=
  let tmp := nmul g (npow (ja f) (nsub g n1)) in
  mkjet (npow (ja f) g) (vscale tmp (jv f)).
(* NaN in the components where g.v is not zero: 1242-1247, 1310-1315 *)
Definition nan_where (g : nat -> num) (v : nat -> num) : nat -> num :=
  fun i => if niszero (g i) then v i else None.
(* 1231-1256 pow(double, Jet) *)
Definition jspow (f : num) (g : jet) : jet :=
  if niszero f && ncmp CGt (ja g) nz then jconst nz
  else if ncmp CLt f nz && ncmp CEq (ja g) (nfloor (ja g)) then
    mkjet (npow f (ja g)) (nan_where (jv g) vz)
  else
    let tmp := npow f (ja g) in
    mkjet tmp (vscale (nmul (nlog f) tmp) (jv g)).
(* 1293-1327 pow(Jet, Jet) *)
Definition jpow (f g : jet) : jet :=
  if niszero (ja f) && ncmp CGe (ja g) n1 then
    (if ncmp CGt (ja g) n1 then jconst nz else f)
  else if ncmp CLt (ja f) nz && ncmp CEq (ja g) (nfloor (ja g)) then
    let tmp := nmul (ja g) (npow (ja f) (nsub (ja g) n1)) in
    mkjet (npow (ja f) (ja g)) (nan_where (jv g) (vscale tmp (jv f)))
  else
    let tmp1 := npow (ja f) (ja g) in
    let tmp2 := nmul (ja g) (npow (ja f) (nsub (ja g) n1)) in
    let tmp3 := nmul tmp1 (nlog (ja f)) in
    mkjet tmp1 (vadd (vscale tmp2 (jv f)) (vscale tmp3 (jv g))).

(* ---------------- programs over Jets ---------------- *)

(* A cost functor is a template over the scalar type.  What it computes for one
   output is an expression over its parameters: operator and function calls, and
   branches on comparisons.  (Loops unroll into such expressions.) *)
Inductive un : Type :=
| UPos | UNeg | UAbs | ULog | ULog10 | ULog1p | UExp | UExpm1 | USqrt
| UCos | UAcos | USin | UAsin | UTan | UAtan | USinh | UCosh | UTanh
| UFloor | UCeil | UCbrt | UExp2 | ULog2 | UErf | UErfc | UNorm
| UAddS (s : R) | USAdd (s : R) | USubS (s : R) | USSub (s : R)
| UMulS (s : R) | USMul (s : R) | UDivS (s : R) | USDiv (s : R)
| UPowS (s : R) | USPow (s : R).
Inductive bin : Type :=
| BAdd | BSub | BMul | BDiv | BHypot | BFmax | BFmin | BFdim | BCopysign
| BAtan2 | BPow | BMidpoint.
Inductive tri : Type := THypot | TFma | TLerp.

Inductive expr : Type :=
| Var (i : nat)
| Const (r : R)
| Un (o : un) (e : expr)
| Bin (o : bin) (e1 e2 : expr)
| Tri (o : tri) (e1 e2 e3 : expr)
| If (c : cmp) (x y : expr) (e1 e2 : expr).

Definition jun (o : un) (f : jet) : jet :=
  match o with
  | UPos => jpos f | UNeg => jneg f | UAbs => jabs f | ULog => jlog f
  | ULog10 => jlog10 f | ULog1p => jlog1p f | UExp => jexp f | UExpm1 => jexpm1 f
  | USqrt => jsqrt f | UCos => jcos f | UAcos => jacos f | USin => jsin f
  | UAsin => jasin f | UTan => jtan f | UAtan => jatan f | USinh => jsinh f
  | UCosh => jcosh f | UTanh => jtanh f | UFloor => jfloor f | UCeil => jceil f
  | UCbrt => jcbrt f | UExp2 => jexp2 f | ULog2 => jlog2 f | UErf => jerf f
  | UErfc => jerfc f | UNorm => jnorm f
  | UAddS s => jadds f (Some s) | USAdd s => jsadd (Some s) f
  | USubS s => jsubs f (Some s) | USSub s => jssub (Some s) f
  | UMulS s => jmuls f (Some s) | USMul s => jsmul (Some s) f
  | UDivS s => jdivs f (Some s) | USDiv s => jsdiv (Some s) f
  | UPowS s => jpows f (Some s) | USPow s => jspow (Some s) f
  end.
Definition jbin (cpp20 : bool) (o : bin) (f g : jet) : jet :=
  match o with
  | BAdd => jadd f g | BSub => jsub f g | BMul => jmul f g | BDiv => jdiv f g
  | BHypot => jhypot f g | BFmax => jfmax cpp20 f g | BFmin => jfmin cpp20 f g
  | BFdim => jfdim f g | BCopysign => jcopysign f g | BAtan2 => jatan2 f g
  | BPow => jpow f g | BMidpoint => jmidpoint f g
  end.
Definition jtri (o : tri) (f g h : jet) : jet :=
  match o with THypot => jhypot3 f g h | TFma => jfma f g h | TLerp => jlerp f g h end.

Fixpoint jeval (cpp20 : bool) (env : nat -> jet) (e : expr) : jet :=
  match e with
  | Var i => env i
  | Const r => jconst (Some r)
  | Un o e => jun o (jeval cpp20 env e)
  | Bin o e1 e2 => jbin cpp20 o (jeval cpp20 env e1) (jeval cpp20 env e2)
  | Tri o e1 e2 e3 => jtri o (jeval cpp20 env e1) (jeval cpp20 env e2) (jeval cpp20 env e3)
  | If c x y e1 e2 =>
      if jcmp c (jeval cpp20 env x) (jeval cpp20 env y)
      then jeval cpp20 env e1 else jeval cpp20 env e2
  end.
