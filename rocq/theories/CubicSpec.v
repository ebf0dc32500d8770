(* Specification of C50: interpolation on a grid. *)
From Coq Require Import Reals List ZArith.
From Verif Require Import CubicModel.
Import ListNotations.
Open Scope R_scope.

(* the function on the integers that is stored in an array with the samples for
   b, ..., b + n - 1, every sample of d components: interleaved (sample after sample) or
   stacked (component after component) *)
Definition samples (b : Z) (n : nat) : list Z := map (fun k => (b + Z.of_nat k)%Z) (seq 0 n).
Definition interleaved (F : Z -> Z -> R) (b : Z) (n d : nat) : list R :=
  flat_map (fun s => map (fun i => F s i) (samples 0 d)) (samples b n).
Definition stacked (F : Z -> Z -> R) (b : Z) (n d : nat) : list R :=
  flat_map (fun i => map (fun s => F s i) (samples b n)) (samples 0 d).
(* the same in two dimensions: the points of the grid in row or column order *)
Definition points (row_order : bool) (rb : Z) (nr : nat) (cb : Z) (nc : nat) : list (Z * Z) :=
  if row_order then flat_map (fun r => map (fun c => (r, c)) (samples cb nc)) (samples rb nr)
  else flat_map (fun c => map (fun r => (r, c)) (samples rb nr)) (samples cb nc).
Definition interleaved2D (F : Z -> Z -> Z -> R) (ps : list (Z * Z)) (d : nat) : list R :=
  flat_map (fun p => map (fun i => F (fst p) (snd p) i) (samples 0 d)) ps.
Definition stacked2D (F : Z -> Z -> Z -> R) (ps : list (Z * Z)) (d : nat) : list R :=
  flat_map (fun i => map (fun p => F (fst p) (snd p) i) ps) (samples 0 d).
(* the nearest of b, ..., e - 1 *)
Definition nearest (b e n m : Z) : Prop := (b <= m < e /\ forall k, b <= k < e -> Z.abs (m - n) <= Z.abs (k - n))%Z.

(* arguments around which four (and, for the derivative, five) grid points have indices
   that fit in an int *)
Definition representable (x : R) : Prop := IZR INT_MIN + 1 <= x < IZR INT_MAX - 1.
Definition inside (x : R) : Prop := IZR INT_MIN + 1 < x < IZR INT_MAX - 1.

Definition value1 (o : option (R * R)) : R := match o with Some (f, _) => f | None => 0 end.
Definition slope1 (o : option (R * R)) : R := match o with Some (_, d) => d | None => 0 end.
Definition value2 (o : option (R * R * R)) : R := match o with Some (f, _, _) => f | None => 0 end.
Definition slope_r (o : option (R * R * R)) : R := match o with Some (_, d, _) => d | None => 0 end.
Definition slope_c (o : option (R * R * R)) : R := match o with Some (_, _, d) => d | None => 0 end.
