(* Cubic and bicubic interpolation: include/ceres/cubic_interpolation.h.

   double is modelled by R.  The values on the grid are vectors; every operation acts on
   each component separately, so the model is that of one component.  Both the value
   and the derivatives are always computed (passing nullptr skips a store).
   None: undefined behaviour or a failed CHECK. *)

From Coq Require Import Reals List ZArith Bool.
Import ListNotations.
Open Scope R_scope.

(* 69-95 CubicHermiteSpline: f and dfdx *)
Definition CubicHermiteSpline (p0 p1 p2 p3 x : R) : R * R :=
  let a := 0.5 * (- p0 + 3.0 * p1 - 3.0 * p2 + p3) in
  let b := 0.5 * (2.0 * p0 - 5.0 * p1 + 4.0 * p2 - p3) in
  let c := 0.5 * (- p0 + p2) in
  let d := p1 in
  (d + x * (c + x * (b + x * a)), c + x * (2.0 * b + 3.0 * a * x)).

Definition INT_MIN : Z := (-2147483648)%Z.
Definition INT_MAX : Z := 2147483647%Z.
(* const int n = std::floor(x) (undefined when it does not fit), and n + k *)
Definition to_int (z : Z) : option Z := if (Z.leb INT_MIN z && Z.leb z INT_MAX)%bool then Some z else None.
Definition floor_int (x : R) : option Z := to_int (Int_part x).
Definition add_int (n k : Z) : option Z := to_int (n + k).

Definition bind {A B} (o : option A) (f : A -> option B) : option B := match o with Some a => f a | None => None end.
Notation "'do' x <- o ; e" := (bind o (fun x => e)) (at level 200, x name, o at level 100, e at level 200).

(* 138-146 CubicInterpolator::Evaluate: f, dfdx *)
Definition Evaluate1D (grid : Z -> option R) (x : R) : option (R * R) :=
  do n <- floor_int x;
  do n0 <- add_int n (-1);
  do p0 <- grid n0;
  do p1 <- grid n;
  do n2 <- add_int n 1;
  do p2 <- grid n2;
  do n3 <- add_int n 2;
  do p3 <- grid n3;
  Some (CubicHermiteSpline p0 p1 p2 p3 (x - IZR n)).
(* 153-161, the overload for Jets: a and v (a function of the derivative's index) *)
Definition Evaluate1DJet (grid : Z -> option R) (xa : R) (xv : nat -> R) : option (R * (nat -> R)) :=
  do fd <- Evaluate1D grid xa;
  Some (fst fd, fun j => snd fd * xv j).

(* std::clamp *)
Definition clamp (v lo hi : Z) : Z := if Z.ltb v lo then lo else if Z.ltb hi v then hi else v.
(* data_[k] *)
Definition read (data : list R) (k : Z) : option R := if Z.ltb k 0 then None else nth_error data (Z.to_nat k).
(* 188-220 Grid1D; the products are computed without overflow checks *)
Record Grid1D : Type := mkgrid1 { data1 : list R; begin1 : Z; end1 : Z; dim1 : Z; interleaved1 : bool }.
Definition MakeGrid1D (data : list R) (b e dim : Z) (inter : bool) : option Grid1D :=
  if Z.ltb b e then Some (mkgrid1 data b e dim inter) else None.
Definition GetValue1D (g : Grid1D) (n i : Z) : option R :=
  let num_values := (end1 g - begin1 g)%Z in
  let idx := (clamp n (begin1 g) (end1 g - 1) - begin1 g)%Z in
  if interleaved1 g then read (data1 g) (dim1 g * idx + i)%Z
  else read (data1 g) (i * num_values + idx)%Z.

(* 273-334 BiCubicInterpolator::Evaluate: one row *)
Definition InterpolateRow (grid : Z -> Z -> option R) (row col : Z) (c : R) : option (R * R) :=
  do n0 <- add_int col (-1);
  do p0 <- grid row n0;
  do p1 <- grid row col;
  do n2 <- add_int col 1;
  do p2 <- grid row n2;
  do n3 <- add_int col 2;
  do p3 <- grid row n3;
  Some (CubicHermiteSpline p0 p1 p2 p3 (c - IZR col)).
(* f, dfdr, dfdc *)
Definition Evaluate2D (grid : Z -> Z -> option R) (r c : R) : option (R * R * R) :=
  do row <- floor_int r;
  do col <- floor_int c;
  do r0 <- add_int row (-1);
  do f0 <- InterpolateRow grid r0 col c;
  do f1 <- InterpolateRow grid row col c;
  do r2 <- add_int row 1;
  do f2 <- InterpolateRow grid r2 col c;
  do r3 <- add_int row 2;
  do f3 <- InterpolateRow grid r3 col c;
  let '(f, dfdr) := CubicHermiteSpline (fst f0) (fst f1) (fst f2) (fst f3) (r - IZR row) in
  let '(dfdc, _) := CubicHermiteSpline (snd f0) (snd f1) (snd f2) (snd f3) (r - IZR row) in
  Some (f, dfdr, dfdc).
(* 343-353, the overload for Jets *)
Definition Evaluate2DJet (grid : Z -> Z -> option R) (ra : R) (rv : nat -> R) (ca : R) (cv : nat -> R) : option (R * (nat -> R)) :=
  do fd <- Evaluate2D grid ra ca;
  let '(f, dfdr, dfdc) := fd in Some (f, fun j => dfdr * rv j + dfdc * cv j).

(* 381-436 Grid2D *)
Record Grid2D : Type := mkgrid2 { data2 : list R; row_begin : Z; row_end : Z; col_begin : Z; col_end : Z;
  dim2 : Z; row_major : bool; interleaved2 : bool }.
Definition MakeGrid2D (data : list R) (rb re cb ce dim : Z) (rm inter : bool) : option Grid2D :=
  if (Z.leb 1 dim && Z.ltb rb re && Z.ltb cb ce)%bool then Some (mkgrid2 data rb re cb ce dim rm inter) else None.
Definition GetValue2D (g : Grid2D) (r c i : Z) : option R :=
  let num_rows := (row_end g - row_begin g)%Z in
  let num_cols := (col_end g - col_begin g)%Z in
  let num_values := (num_rows * num_cols)%Z in
  let row_idx := (clamp r (row_begin g) (row_end g - 1) - row_begin g)%Z in
  let col_idx := (clamp c (col_begin g) (col_end g - 1) - col_begin g)%Z in
  let n := if row_major g then (num_cols * row_idx + col_idx)%Z else (num_rows * col_idx + row_idx)%Z in
  if interleaved2 g then read (data2 g) (dim2 g * n + i)%Z
  else read (data2 g) (i * num_values + n)%Z.
