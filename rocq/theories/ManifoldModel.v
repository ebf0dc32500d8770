(* Manifolds: include/ceres/manifold.h, internal/ceres/manifold.cc,
   include/ceres/{sphere,line,product}_manifold.h,
   include/ceres/internal/{sphere_manifold_functions,householder_vector}.h.

   double is modelled by R.  An array is a function of the index (a pointer into the
   middle of an array: the shifted function), a row-major matrix a function of row and
   column; entries outside the stated sizes have no meaning.  None: false is returned.
   Writing to an output that is also an input is not modelled. *)

From Coq Require Import Reals List Arith Bool ZArith.
From Verif Require Import RotationModel.
Import ListNotations.
Open Scope R_scope.

Fixpoint sumn (n : nat) (f : nat -> R) : R :=
  match n with O => 0 | S k => sumn k f + f k end.
(* Eigen: x.dot(y), x.squaredNorm(), x.norm() for vectors of n entries *)
Definition dot (n : nat) (x y : arr) : R := sumn n (fun i => x i * y i).
Definition norm (n : nat) (x : arr) : R := sqrt (dot n x x).
(* p + offset *)
Definition shift (off : nat) (p : arr) : arr := fun i => p (off + i)%nat.
(* n values stored at p + offset *)
Definition blit (off n : nat) (src p : arr) : arr :=
  fun i => if (Nat.leb off i && Nat.ltb i (off + n))%bool then src (i - off)%nat else p i.
Definition identity : mat := fun r c => if Nat.eqb r c then 1 else 0.

(* manifold.h:148-221 *)
Record manifold : Type := mkmanifold {
  AmbientSize : nat;
  TangentSize : nat;
  Plus : arr -> arr -> option arr;
  PlusJacobian : arr -> option mat;
  Minus : arr -> arr -> option arr;
  MinusJacobian : arr -> option mat;
  (* ambient_matrix of any number of rows *)
  RightMultiplyByPlusJacobian : arr -> mat -> option mat
}.

(* manifold.cc:134-152, the default *)
Definition DefaultRightMultiply (ambient tangent : nat) (plus_jacobian : arr -> option mat) (x : arr) (ambient_matrix : mat) : option mat :=
  if Nat.eqb tangent 0 then Some (fun _ _ => 0)
  else match plus_jacobian x with
       | None => None
       | Some j => Some (fun r c => sumn ambient (fun k => ambient_matrix r k * j k c))
       end.

(* manifold.h:240-305 *)
Definition EuclideanManifold (size : nat) : manifold :=
  mkmanifold size size
    (fun x delta => Some (fun i => x i + delta i))
    (fun _ => Some identity)
    (fun y x => Some (fun i => y i - x i))
    (fun _ => Some identity)
    (fun _ m => Some m).

(* manifold.cc:186-199 SubsetManifold::Plus: the loop, j is the index into delta *)
Fixpoint subset_plus (mask : list bool) (i j : nat) (x delta out : arr) : arr :=
  match mask with
  | [] => out
  | true :: rest => subset_plus rest (S i) j x delta (upd out i (x i))
  | false :: rest => subset_plus rest (S i) (S j) x delta (upd out i (x i + delta j))
  end.
(* 201-218 *)
Fixpoint subset_plus_jacobian (mask : list bool) (r c : nat) (m : mat) : mat :=
  match mask with
  | [] => m
  | true :: rest => subset_plus_jacobian rest (S r) c m
  | false :: rest => subset_plus_jacobian rest (S r) (S c)
      (fun r' c' => if (Nat.eqb r' r && Nat.eqb c' c)%bool then 1 else m r' c')
  end.
(* 220-241: the inner loop for the row r *)
Fixpoint subset_right (mask : list bool) (idx c : nat) (row out : arr) : arr :=
  match mask with
  | [] => out
  | true :: rest => subset_right rest (S idx) c row out
  | false :: rest => subset_right rest (S idx) (S c) row (upd out c (row idx))
  end.
(* 243-258 *)
Fixpoint subset_minus (mask : list bool) (i j : nat) (y x out : arr) : arr :=
  match mask with
  | [] => out
  | true :: rest => subset_minus rest (S i) j y x out
  | false :: rest => subset_minus rest (S i) (S j) y x (upd out j (y i - x i))
  end.
(* 260-272 *)
Fixpoint subset_minus_jacobian (mask : list bool) (c r : nat) (m : mat) : mat :=
  match mask with
  | [] => m
  | true :: rest => subset_minus_jacobian rest (S c) r m
  | false :: rest => subset_minus_jacobian rest (S c) (S r)
      (fun r' c' => if (Nat.eqb r' r && Nat.eqb c' c)%bool then 1 else m r' c')
  end.
(* 154-180, the constructor; None: a CHECK fails.  The checks on the sorted copy are
   written as checks on the vector itself. *)
Definition subset_checks (size : nat) (constant : list Z) : bool :=
  forallb (fun c => Z.leb 0 c && Z.ltb c (Z.of_nat size))%bool constant &&
  (fix nodup l := match l with [] => true | c :: r => negb (existsb (Z.eqb c) r) && nodup r end) constant.
Definition constancy_mask (size : nat) (constant : list Z) : list bool :=
  map (fun i => existsb (Z.eqb (Z.of_nat i)) constant) (seq 0 size).
Definition SubsetManifold (size : nat) (constant : list Z) : option manifold :=
  if negb (subset_checks size constant) then None
  else
    let mask := constancy_mask size constant in
    let tangent := (size - length constant)%nat in
    Some (mkmanifold size tangent
      (fun x delta => Some (subset_plus mask 0 0 x delta zeros))
      (fun _ => Some (if Nat.eqb tangent 0 then (fun _ _ => 0) else subset_plus_jacobian mask 0 0 (fun _ _ => 0)))
      (fun y x => Some (if Nat.eqb tangent 0 then zeros else subset_minus mask 0 0 y x zeros))
      (fun _ => Some (subset_minus_jacobian mask 0 0 (fun _ _ => 0)))
      (fun _ m => Some (if Nat.eqb tangent 0 then (fun _ _ => 0) else fun r => subset_right mask 0 0 (m r) zeros))).

(* manifold.cc:43-65 QuaternionPlusImpl *)
Definition QuaternionPlusImpl (o : order) (x delta : arr) : arr :=
  let norm_delta := hypot3 (delta 0%nat) (delta 1%nat) (delta 2%nat) in
  if Req_EM_T norm_delta 0 then x
  else
    let sin_delta_by_delta := sin norm_delta / norm_delta in
    let q_delta := MakeQuaternion o (cos norm_delta) (sin_delta_by_delta * delta 0%nat)
                     (sin_delta_by_delta * delta 1%nat) (sin_delta_by_delta * delta 2%nat) in
    QuaternionProduct o q_delta x.
(* a matrix with four rows (W, X, Y, Z at the positions kW, ... of the order) *)
Definition rows4 (o : order) (w x y z : arr) : mat :=
  fun r c => if Nat.eqb r (kW o) then w c else if Nat.eqb r (kX o) then x c
             else if Nat.eqb r (kY o) then y c else if Nat.eqb r (kZ o) then z c else 0.
(* 67-84 *)
Definition QuaternionPlusJacobianImpl (o : order) (x : arr) : mat :=
  rows4 o (arr3 (- x (kX o)) (- x (kY o)) (- x (kZ o)))
          (arr3 (x (kW o)) (x (kZ o)) (- x (kY o)))
          (arr3 (- x (kZ o)) (x (kW o)) (x (kX o)))
          (arr3 (x (kY o)) (- x (kX o)) (x (kW o))).
(* 86-112 *)
Definition QuaternionMinusImpl (o : order) (y x : arr) : arr :=
  let x_conj := QuaternionConjugate o x in
  let a := QuaternionProduct o y x_conj in
  let u_norm := hypot3 (a (kX o)) (a (kY o)) (a (kZ o)) in
  if Req_EM_T u_norm 0 then zeros
  else
    let theta := atan2 u_norm (a (kW o)) in
    arr3 (theta * a (kX o) / u_norm) (theta * a (kY o) / u_norm) (theta * a (kZ o) / u_norm).
(* 114-131 *)
Definition QuaternionMinusJacobianImpl (o : order) (x : arr) : mat :=
  fun r => match r with
    | 0%nat => MakeQuaternion o (- x (kX o)) (x (kW o)) (- x (kZ o)) (x (kY o))
    | 1%nat => MakeQuaternion o (- x (kY o)) (x (kZ o)) (x (kW o)) (- x (kX o))
    | 2%nat => MakeQuaternion o (- x (kZ o)) (- x (kY o)) (x (kX o)) (x (kW o))
    | _ => zeros
    end.
(* 274-330 QuaternionManifold, EigenQuaternionManifold *)
Definition QuaternionManifold (o : order) : manifold :=
  mkmanifold 4 3
    (fun x delta => Some (QuaternionPlusImpl o x delta))
    (fun x => Some (QuaternionPlusJacobianImpl o x))
    (fun y x => Some (QuaternionMinusImpl o y x))
    (fun x => Some (QuaternionMinusJacobianImpl o x))
    (DefaultRightMultiply 4 3 (fun x => Some (QuaternionPlusJacobianImpl o x))).

(* householder_vector.h:46-79 ComputeHouseholderVector: v and beta *)
Definition epsilon : R := / 4503599627370496.   (* numeric_limits<double>::epsilon() = 2^-52 *)
Definition ComputeHouseholderVector (n : nat) (x : arr) : arr * R :=
  let sigma := dot (n - 1) x x in
  let x_pivot := x (n - 1)%nat in
  if Rle_dec sigma epsilon then
    (upd x (n - 1)%nat 1, if Rlt_dec x_pivot 0 then 2 else 0)
  else
    let mu := sqrt (x_pivot * x_pivot + sigma) in
    let v_pivot := if Rle_dec x_pivot 0 then x_pivot - mu else - sigma / (x_pivot + mu) in
    let beta := 2 * v_pivot * v_pivot / (sigma + v_pivot * v_pivot) in
    (fun i => if Nat.ltb i (n - 1) then x i / v_pivot else 1, beta).
(* 81-87 *)
Definition ApplyHouseholderVector (n : nat) (y v : arr) (beta : R) : arr :=
  fun i => y i - v i * (beta * dot n v y).

(* sphere_manifold_functions.h:65-83; y << a (k entries), last *)
Definition append (k : nat) (a : arr) (last : R) : arr := fun i => if Nat.ltb i k then a i else last.
Definition ComputeSphereManifoldPlus (n : nat) (v : arr) (beta : R) (x delta : arr) (norm_delta : R) : arr :=
  let sin_delta_by_delta := sin norm_delta / norm_delta in
  let y := append (n - 1) (fun i => sin_delta_by_delta * delta i) (cos norm_delta) in
  fun i => norm n x * ApplyHouseholderVector n y v beta i.
(* 85-109 *)
Definition ComputeSphereManifoldPlusJacobian (n : nat) (x : arr) : mat :=
  let '(v, beta) := ComputeHouseholderVector n x in
  fun r c => (- beta * v c * v r + (if Nat.eqb r c then 1 else 0)) * norm n x.
(* 111-136 *)
Definition ComputeSphereManifoldMinus (n : nat) (v : arr) (beta : R) (x y : arr) : arr :=
  let tangent_size := (n - 1)%nat in
  let hy := fun i => ApplyHouseholderVector n y v beta i / norm n x in
  let y_last := hy tangent_size in
  let hy_norm := norm tangent_size hy in
  if Req_EM_T hy_norm 0 then
    upd zeros (tangent_size - 1)%nat (if Rle_dec 0 y_last then 0 else PI)
  else fun i => atan2 hy_norm y_last / hy_norm * hy i.
(* 138-165 *)
Definition ComputeSphereManifoldMinusJacobian (n : nat) (x : arr) : mat :=
  let '(v, beta) := ComputeHouseholderVector n x in
  fun r c => (- beta * v r * v c + (if Nat.eqb r c then 1 else 0)) / norm n x.

(* sphere_manifold.h:144-232; the constructor requires a size of at least 2 *)
Definition SphereManifold (size : nat) : option manifold :=
  if Nat.leb size 1 then None
  else Some (mkmanifold size (size - 1)
    (fun x delta =>
       let norm_delta := norm (size - 1) delta in
       if Req_EM_T norm_delta 0 then Some x
       else let '(v, beta) := ComputeHouseholderVector size x in
            Some (ComputeSphereManifoldPlus size v beta x delta norm_delta))
    (fun x => Some (ComputeSphereManifoldPlusJacobian size x))
    (fun y x => let '(v, beta) := ComputeHouseholderVector size x in
                Some (ComputeSphereManifoldMinus size v beta x y))
    (fun x => Some (ComputeSphereManifoldMinusJacobian size x))
    (DefaultRightMultiply size (size - 1) (fun x => Some (ComputeSphereManifoldPlusJacobian size x)))).

(* line_manifold.h:140-225 Plus *)
Definition line_plus (size : nat) (x delta : arr) : arr :=
  let o := x in
  let d := shift size x in
  let delta_o := delta in
  let delta_d := shift (size - 1) delta in
  let norm_delta_d := norm (size - 1) delta_d in
  let '(v, beta) := ComputeHouseholderVector size d in
  let d_plus_delta :=
    if Req_EM_T norm_delta_d 0 then d else ComputeSphereManifoldPlus size v beta d delta_d norm_delta_d in
  (* 174-181: returns early, with o unchanged, when both parts of delta are zero;
     delta_o.isZero(0.0) is written as norm = 0 *)
  let o_plus_delta :=
    if Req_EM_T norm_delta_d 0 then
      if Req_EM_T (norm (size - 1) delta_o) 0 then o
      else fun i => o i + ApplyHouseholderVector size (append (size - 1) delta_o 0) v beta i
    else fun i => o i + ApplyHouseholderVector size (append (size - 1) delta_o 0) v beta i in
  blit size size d_plus_delta (blit 0 size o_plus_delta zeros).
(* 227-250 *)
Definition line_plus_jacobian (size : nat) (x : arr) : mat :=
  let d := shift size x in
  let jacobian_d := ComputeSphereManifoldPlusJacobian size d in
  let jacobian_o := jacobian_d in
  fun r c =>
    if (Nat.ltb r size && Nat.ltb c (size - 1))%bool then jacobian_d r c
    else if (Nat.leb size r && Nat.leb (size - 1) c)%bool then jacobian_o (r - size)%nat (c - (size - 1))%nat
    else 0.
(* 252-283 *)
Definition line_minus (size : nat) (y x : arr) : arr :=
  let y_o := y in let y_d := shift size y in
  let x_o := x in let x_d := shift size x in
  let '(v, beta) := ComputeHouseholderVector size x_d in
  let y_minus_x_d := ComputeSphereManifoldMinus size v beta x_d y_d in
  let delta_o := fun i => y_o i - x_o i in
  let h_delta_o := ApplyHouseholderVector size delta_o v beta in
  blit 0 (size - 1) h_delta_o (blit (size - 1) (size - 1) y_minus_x_d zeros).
(* 285-309 *)
Definition line_minus_jacobian (size : nat) (x : arr) : mat :=
  let d := shift size x in
  let jacobian_d := ComputeSphereManifoldMinusJacobian size d in
  let jacobian_o := jacobian_d in
  fun r c =>
    if (Nat.ltb r (size - 1) && Nat.ltb c size)%bool then jacobian_d r c
    else if (Nat.leb (size - 1) r && Nat.leb size c)%bool then jacobian_o (r - (size - 1))%nat (c - size)%nat
    else 0.
(* 76-138, the constructor requires a size of at least 2 *)
Definition LineManifold (size : nat) : option manifold :=
  if Nat.leb size 1 then None
  else Some (mkmanifold (2 * size) (2 * (size - 1))
    (fun x delta => Some (line_plus size x delta))
    (fun x => Some (line_plus_jacobian size x))
    (fun y x => Some (line_minus size y x))
    (fun x => Some (line_minus_jacobian size x))
    (DefaultRightMultiply (2 * size) (2 * (size - 1)) (fun x => Some (line_plus_jacobian size x)))).

(* product_manifold.h: a list of manifolds.  ambient_offsets_ and tangent_offsets_
   (ExclusiveScan, 258-263) are the running sums; the folds over && (143-248) stop at
   the first failure. *)
Fixpoint product_plus (ms : list manifold) (ao to : nat) (x delta out : arr) : option arr :=
  match ms with
  | [] => Some out
  | m :: rest =>
      match Plus m (shift ao x) (shift to delta) with
      | None => None
      | Some z => product_plus rest (ao + AmbientSize m) (to + TangentSize m) x delta (blit ao (AmbientSize m) z out)
      end
  end.
Fixpoint product_minus (ms : list manifold) (ao to : nat) (y x out : arr) : option arr :=
  match ms with
  | [] => Some out
  | m :: rest =>
      match Minus m (shift ao y) (shift ao x) with
      | None => None
      | Some z => product_minus rest (ao + AmbientSize m) (to + TangentSize m) y x (blit to (TangentSize m) z out)
      end
  end.
(* jacobian.block(r0, c0, rows, cols) = b *)
Definition set_block (r0 c0 rows cols : nat) (b m : mat) : mat :=
  fun r c => if (Nat.leb r0 r && Nat.ltb r (r0 + rows) && Nat.leb c0 c && Nat.ltb c (c0 + cols))%bool
             then b (r - r0)%nat (c - c0)%nat else m r c.
Fixpoint product_plus_jacobian (ms : list manifold) (ao to : nat) (x : arr) (j : mat) : option mat :=
  match ms with
  | [] => Some j
  | m :: rest =>
      match PlusJacobian m (shift ao x) with
      | None => None
      | Some b => product_plus_jacobian rest (ao + AmbientSize m) (to + TangentSize m) x
                    (set_block ao to (AmbientSize m) (TangentSize m) b j)
      end
  end.
Fixpoint product_minus_jacobian (ms : list manifold) (ao to : nat) (x : arr) (j : mat) : option mat :=
  match ms with
  | [] => Some j
  | m :: rest =>
      match MinusJacobian m (shift ao x) with
      | None => None
      | Some b => product_minus_jacobian rest (ao + AmbientSize m) (to + TangentSize m) x
                    (set_block to ao (TangentSize m) (AmbientSize m) b j)
      end
  end.
Definition ProductManifold (ms : list manifold) : manifold :=
  let ambient := fold_left (fun n m => n + AmbientSize m)%nat ms 0%nat in
  let tangent := fold_left (fun n m => n + TangentSize m)%nat ms 0%nat in
  let plus_jacobian := fun x => product_plus_jacobian ms 0 0 x (fun _ _ => 0) in
  mkmanifold ambient tangent
    (fun x delta => product_plus ms 0 0 x delta zeros)
    plus_jacobian
    (fun y x => product_minus ms 0 0 y x zeros)
    (fun x => product_minus_jacobian ms 0 0 x (fun _ _ => 0))
    (DefaultRightMultiply ambient tangent plus_jacobian).
