(** What the strategy theorems say, without the strategies' definitions. *)
Require Import List ZArith Bool.
From Verif Require Import Dbl DblArith.
Import ListNotations.
Open Scope Z_scope.

(** What the theorems need of std::pow(x, 3): monotone, exact at -1, 0 and 1. *)
Record pow3_ok (pow3 : dbl -> dbl) : Prop := mkPow3 {
  p3_mono : forall x y, dle x y = true -> dle (pow3 x) (pow3 y) = true;
  p3_m1 : pow3 (dz (-1)) = dz (-1);
  p3_0 : pow3 (Fin 0) = Fin 0;
  p3_1 : pow3 (dz 1) = dz 1 }.

(** x^3 correctly rounded: one function that qualifies. *)
Definition cube (a : dbl) : dbl :=
  match a with Fin x => rnd (x * x * x) (ONEU * ONEU) | _ => a end.

(** 0 <= a <= m, and a is a number. *)
Definition within (m a : dbl) : Prop := dle (Fin 0) a = true /\ dle a m = true.

(** the integer exponent 1 + 2 + ... + k *)
Definition tri (k : nat) : Z := Z.of_nat (k * (k + 1) / 2).
