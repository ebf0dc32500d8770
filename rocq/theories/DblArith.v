(** IEEE binary64 arithmetic with rounding to nearest, ties to even, on the
    exact values of Dbl.v ([Fin z] is z * 2^-1074; +0 and -0 are identified).
    Used for every place of /repo where the model follows double arithmetic
    operation by operation.  Not modelled: the sign of zero.  Its only effect on
    a result is the sign of x / 0, which is taken as if the divisor were +0. *)
Require Import ZArith Lia Bool.
From Verif Require Import Dbl.
Open Scope Z_scope.

(** n / d rounded to an integer, to nearest, ties to even; n >= 0, d > 0. *)
Definition rne (n d : Z) : Z :=
  let q := n / d in
  let r := n mod d in
  if 2 * r <? d then q else if d <? 2 * r then q + 1 else if Z.even q then q else q + 1.

(** exponent of the last place of a value whose integer part is [q] units *)
Definition ulp_exp (q : Z) : Z := Z.max 0 (Z.log2 q - 52).

Definition MAXU : Z := (2 ^ 53 - 1) * 2 ^ (971 + 1074).

(** (n / d, n mod d), cancelling common powers of two first: the numbers here
    have thousands of bits, nearly all of them trailing zeros
    ([fdiv_eucl_eq] in DblArithProofs.v) *)
Fixpoint pdiv_eucl (n d : positive) : Z * Z :=
  match n, d with
  | xO n', xO d' => let (q, r) := pdiv_eucl n' d' in (q, 2 * r)
  | _, _ => Z.pos_div_eucl n (Zpos d)
  end.
Definition fdiv_eucl (n d : Z) : Z * Z :=
  match n, d with
  | Zpos a, Zpos b => pdiv_eucl a b
  | _, _ => (n / d, n mod d)
  end.
(** rne, computed with it *)
Definition frne (n d : Z) : Z :=
  let (q, r) := fdiv_eucl n d in
  if 2 * r <? d then q else if d <? 2 * r then q + 1 else if Z.even q then q else q + 1.

(** the non negative value n/d (in units of 2^-1074) rounded to binary64:
    with e = ulp_exp (n / d), the value rne n (d * 2 ^ e) * 2 ^ e unless it
    overflows ([rnd_pos_rv] in DblArithProofs.v) *)
Definition rnd_pos (n d : Z) : dbl :=
  let e := ulp_exp (fst (fdiv_eucl n d)) in
  let v := Z.shiftl (frne n (Z.shiftl d e)) e in
  if MAXU <? v then PInf else Fin v.

Definition dneg (a : dbl) : dbl :=
  match a with NaN => NaN | NInf => PInf | PInf => NInf | Fin z => Fin (- z) end.

(** n/d rounded to binary64, any sign; d > 0 *)
Definition rnd (n d : Z) : dbl :=
  if 0 <=? n then rnd_pos n d else dneg (rnd_pos (- n) d).

(** a + b *)
Definition dadd (a b : dbl) : dbl :=
  match a, b with
  | NaN, _ | _, NaN => NaN
  | PInf, NInf | NInf, PInf => NaN
  | PInf, _ | _, PInf => PInf
  | NInf, _ | _, NInf => NInf
  | Fin x, Fin y => rnd (x + y) 1
  end.

(** a - b *)
Definition dsub (a b : dbl) : dbl := dadd a (dneg b).

(** number of units in 1.0 *)
Definition ONEU : Z := 2 ^ 1074.

Definition inf_of_sign (s : Z) : dbl :=
  match s with Z0 => NaN | Zpos _ => PInf | Zneg _ => NInf end.

(** a * b *)
Definition dmul (a b : dbl) : dbl :=
  match a, b with
  | NaN, _ | _, NaN => NaN
  | PInf, PInf | NInf, NInf => PInf
  | PInf, NInf | NInf, PInf => NInf
  | PInf, Fin y => inf_of_sign y
  | NInf, Fin y => inf_of_sign (- y)
  | Fin x, PInf => inf_of_sign x
  | Fin x, NInf => inf_of_sign (- x)
  | Fin x, Fin y => rnd (x * y) ONEU
  end.

(** a / b *)
Definition ddiv (a b : dbl) : dbl :=
  match a, b with
  | NaN, _ | _, NaN => NaN
  | PInf, PInf | NInf, NInf | PInf, NInf | NInf, PInf => NaN
  | PInf, Fin y => if y <? 0 then NInf else PInf
  | NInf, Fin y => if y <? 0 then PInf else NInf
  | Fin _, PInf | Fin _, NInf => Fin 0
  | Fin x, Fin y =>
      if y =? 0 then inf_of_sign x
      else if 0 <? y then rnd (x * ONEU) y else rnd (- x * ONEU) (- y)
  end.

(** fabs(a) *)
Definition dabs (a : dbl) : dbl :=
  match a with NaN => NaN | NInf => PInf | PInf => PInf | Fin z => Fin (Z.abs z) end.

(** std::max(a, b) = (a < b) ? b : a *)
Definition dmax (a b : dbl) : dbl := if dlt a b then b else a.
(** std::min(a, b) = (b < a) ? b : a *)
Definition dmin (a b : dbl) : dbl := if dlt b a then b else a.

(** the double nearest to the rational n/d *)
Definition dq (n : Z) (d : positive) : dbl := rnd (n * ONEU) (Zpos d).
(** the integer n as a double *)
Definition dz (n : Z) : dbl := dq n 1.
