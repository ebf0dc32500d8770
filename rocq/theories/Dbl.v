(** IEEE double values, for code that only stores and compares them.
    Every finite double is an integer multiple of 2^-1074, so a finite value is
    represented exactly by that integer; +0 and -0 are identified. *)
Require Import ZArith Lia Bool.
Open Scope Z_scope.

Inductive dbl := NaN | NInf | Fin (units : Z) | PInf.

(** std::numeric_limits<double>::max() = (2^53 - 1) * 2^971. *)
Definition DBL_MAX : dbl := Fin ((2 ^ 53 - 1) * 2 ^ (971 + 1074)).
(** -std::numeric_limits<double>::max() *)
Definition DBL_LOWEST : dbl := Fin (- ((2 ^ 53 - 1) * 2 ^ (971 + 1074))).

(** IEEE [a < b]: false if either is NaN. *)
Definition dlt (a b : dbl) : bool :=
  match a, b with
  | NaN, _ => false
  | _, NaN => false
  | NInf, NInf => false
  | NInf, _ => true
  | Fin x, Fin y => x <? y
  | Fin _, PInf => true
  | Fin _, NInf => false
  | PInf, _ => false
  end.

(** IEEE [a <= b]. *)
Definition dle (a b : dbl) : bool :=
  match a, b with
  | NaN, _ => false
  | _, NaN => false
  | NInf, _ => true
  | Fin x, Fin y => x <=? y
  | Fin _, PInf => true
  | Fin _, NInf => false
  | PInf, PInf => true
  | PInf, _ => false
  end.

(** A value the type double can hold: finite values are at most DBL_MAX. *)
Definition is_dbl (a : dbl) : Prop :=
  match a with Fin z => Z.abs z <= (2 ^ 53 - 1) * 2 ^ (971 + 1074) | _ => True end.

Lemma dlt_false_le : forall a b, a <> NaN -> b <> NaN -> dlt a b = false -> dle b a = true.
Proof. intros [| | |] [| | |]; simpl; try congruence; intros; try reflexivity. lia. Qed.

Lemma dle_refl : forall a, a <> NaN -> dle a a = true.
Proof. intros [| | |]; simpl; try congruence. lia. Qed.

Lemma dlt_le : forall a b, dlt a b = true -> dle a b = true.
Proof. intros [| | |] [| | |]; simpl; try congruence; auto. lia. Qed.

Lemma dle_trans : forall a b c, dle a b = true -> dle b c = true -> dle a c = true.
Proof. intros [| | |] [| | |] [| | |]; simpl; try congruence; auto. lia. Qed.
