(** Model of internal/ceres/small_blas.h and small_blas_generic.h.

    The scalars are an arbitrary type with uninterpreted operations, so that
    the results hold for every arithmetic, rounding included (each multiply-add
    as two operations).  Arrays are lists; reading or writing outside an array
    is the outcome [None].  Pointers are indices into their array; forming a
    pointer is not checked, only using it. *)
From Coq Require Import List Arith ZArith Bool.
Import ListNotations.

(** for (int k = 0; k < n; ++k) body, stopping at a failure. *)
Fixpoint for_ {S : Type} (n : nat) (body : nat -> S -> option S) (s : S) : option S :=
  match n with
  | O => Some s
  | Datatypes.S m => match for_ m body s with Some s' => body m s' | None => None end
  end.

(** Writing one array element. *)
Fixpoint put {T : Type} (l : list T) (i : nat) (v : T) : option (list T) :=
  match l, i with
  | [], _ => None
  | _ :: t, O => Some (v :: t)
  | h :: t, Datatypes.S j => match put t j v with Some t' => Some (h :: t') | None => None end
  end.

(** n & (~(span - 1)) with span = 4, small_blas.h:194, 217. *)
Definition round4 (n : nat) : nat := (4 * (n / 4))%nat.

(** The value of a dimension: the template argument unless it is
    Eigen::Dynamic ([None]), small_blas.h:75-78. *)
Definition dim (k : option nat) (num : nat) : nat := match k with Some v => v | None => num end.

Section Scalar.
Variable T : Type.
Variables (zero : T) (add sub mul : T -> T -> T).

(** CERES_GEMM_STORE_SINGLE, small_blas.h:96-103. *)
Definition store (op : Z) (c : list T) (index : nat) (value : T) : option (list T) :=
  match nth_error c index with
  | None => None
  | Some old => put c index (if (0 <? op)%Z then add old value else if (op <? 0)%Z then sub old value else value)
  end.

(** CERES_GEMM_STORE_PAIR, small_blas.h:105-115. *)
Definition store2 (op : Z) (c : list T) (index : nat) (v1 v2 : T) : option (list T) :=
  match store op c index v1 with Some c' => store op c' (index + 1) v2 | None => None end.

(** CERES_GEMM_OPT_STORE_MAT1X4, small_blas_generic.h:49-66. *)
Definition vec4 : Type := (T * T * T * T)%type.
Definition store4 (op : Z) (c : list T) (index : nat) (v : vec4) : option (list T) :=
  let '(v0, v1, v2, v3) := v in
  match store op c index v0 with
  | Some c' => match store op c' (index + 1) v1 with
               | Some c'' => match store op c'' (index + 2) v2 with
                             | Some c3 => store op c3 (index + 3) v3
                             | None => None end
               | None => None end
  | None => None end.

Definition zero4 : vec4 := (zero, zero, zero, zero).

(** cvec4[i] += ... , four products at once. *)
Definition axpy4 (c : vec4) (p0 p1 p2 p3 : T) : vec4 :=
  let '(c0, c1, c2, c3) := c in (add c0 p0, add c1 p1, add c2 p2, add c3 p3).

(** The body of a loop executed four times in a row (the unrolled loops). *)
Definition four {S : Type} (step : S -> option S) (s : S) : option S :=
  match step s with
  | Some s1 => match step s1 with
               | Some s2 => match step s2 with Some s3 => step s3 | None => None end
               | None => None end
  | None => None end.

(** small_blas_generic.h:43-47 and the two loops of each kernel: col_m / 4
    unrolled rounds, then col_a - col_m single ones. *)
Definition unrolled {S : Type} (col_a : nat) (step : S -> option S) (s : S) : option S :=
  let col_r := (col_a mod 4)%nat in
  let col_m := (col_a - col_r)%nat in
  match for_ (col_m / 4) (fun _ => four step) s with
  | Some s' => for_ (col_a - col_m) (fun _ => step) s'
  | None => None
  end.

(** CERES_GEMM_OPT_MMM_MAT1X4_MUL, small_blas_generic.h:99-108: state is
    (k, bi, cvec4); a, b are positions in A and B. *)
Definition MMM_mul (A B : list T) (a b col_stride_b : nat) (s : nat * nat * vec4) : option (nat * nat * vec4) :=
  let '(k, bi, c) := s in
  let pb := (b + bi)%nat in
  match nth_error A (a + k), nth_error B pb, nth_error B (pb + 1), nth_error B (pb + 2), nth_error B (pb + 3) with
  | Some av, Some b0, Some b1, Some b2, Some b3 =>
      Some ((k + 1)%nat, (bi + col_stride_b)%nat, axpy4 c (mul av b0) (mul av b1) (mul av b2) (mul av b3))
  | _, _, _, _, _ => None
  end.

(** small_blas_generic.h:88-124, MMM_mat1x4. *)
Definition MMM_mat1x4 (col_a : nat) (A : list T) (a : nat) (B : list T) (b col_stride_b : nat)
                      (C : list T) (c : nat) (op : Z) : option (list T) :=
  match unrolled col_a (MMM_mul A B a b col_stride_b) (0%nat, 0%nat, zero4) with
  | Some (_, _, v) => store4 op C c v
  | None => None
  end.

(** CERES_GEMM_OPT_MTM_MAT1X4_MUL, small_blas_generic.h:168-177: state is
    (ai, bi, cvec4). *)
Definition MTM_mul (A B : list T) (a col_stride_a b col_stride_b : nat) (s : nat * nat * vec4) : option (nat * nat * vec4) :=
  let '(ai, bi, c) := s in
  let pb := (b + bi)%nat in
  match nth_error A (a + ai), nth_error B pb, nth_error B (pb + 1), nth_error B (pb + 2), nth_error B (pb + 3) with
  | Some av, Some b0, Some b1, Some b2, Some b3 =>
      Some ((ai + col_stride_a)%nat, (bi + col_stride_b)%nat, axpy4 c (mul av b0) (mul av b1) (mul av b2) (mul av b3))
  | _, _, _, _, _ => None
  end.

(** small_blas_generic.h:156-193, MTM_mat1x4. *)
Definition MTM_mat1x4 (col_a : nat) (A : list T) (a col_stride_a : nat) (B : list T) (b col_stride_b : nat)
                      (C : list T) (c : nat) (op : Z) : option (list T) :=
  match unrolled col_a (MTM_mul A B a col_stride_a b col_stride_b) (0%nat, 0%nat, zero4) with
  | Some (_, _, v) => store4 op C c v
  | None => None
  end.

(** CERES_GEMM_OPT_MVM_MAT4X1_MUL, small_blas_generic.h:224-231: state is
    (pa, pb, cvec4). *)
Definition MVM_mul (A b : list T) (col_stride_a : nat) (s : nat * nat * vec4) : option (nat * nat * vec4) :=
  let '(pa, pb, c) := s in
  match nth_error b pb, nth_error A pa, nth_error A (pa + col_stride_a), nth_error A (pa + col_stride_a * 2),
        nth_error A (pa + col_stride_a * 3) with
  | Some bv, Some a0, Some a1, Some a2, Some a3 =>
      Some ((pa + 1)%nat, (pb + 1)%nat, axpy4 c (mul a0 bv) (mul a1 bv) (mul a2 bv) (mul a3 bv))
  | _, _, _, _, _ => None
  end.

(** small_blas_generic.h:214-248, MVM_mat4x1. *)
Definition MVM_mat4x1 (col_a : nat) (A : list T) (a col_stride_a : nat) (b : list T)
                      (c : list T) (index : nat) (op : Z) : option (list T) :=
  match unrolled col_a (MVM_mul A b col_stride_a) (a, 0%nat, zero4) with
  | Some (_, _, v) => store4 op c index v
  | None => None
  end.

(** CERES_GEMM_OPT_MTV_MAT4X1_MUL, small_blas_generic.h:286-293. *)
Definition MTV_mul (A b : list T) (col_stride_a : nat) (s : nat * nat * vec4) : option (nat * nat * vec4) :=
  let '(pa, pb, c) := s in
  match nth_error b pb, nth_error A pa, nth_error A (pa + 1), nth_error A (pa + 2), nth_error A (pa + 3) with
  | Some bv, Some a0, Some a1, Some a2, Some a3 =>
      Some ((pa + col_stride_a)%nat, (pb + 1)%nat, axpy4 c (mul a0 bv) (mul a1 bv) (mul a2 bv) (mul a3 bv))
  | _, _, _, _, _ => None
  end.

(** small_blas_generic.h:277-310, MTV_mat4x1. *)
Definition MTV_mat4x1 (col_a : nat) (A : list T) (a col_stride_a : nat) (b : list T)
                      (c : list T) (index : nat) (op : Z) : option (list T) :=
  match unrolled col_a (MTV_mul A b col_stride_a) (a, 0%nat, zero4) with
  | Some (_, _, v) => store4 op c index v
  | None => None
  end.

(** The loop of the odd row or column: tmp += A[pa] * B[pb], with the
    given increments of pa and pb (small_blas.h:180-182, 279-283, 381-383,
    465-468). *)
Definition dot1 (A B : list T) (n pa da pb db : nat) : option T :=
  match for_ n (fun _ '(pa, pb, tmp) =>
      match nth_error A pa, nth_error B pb with
      | Some a, Some b => Some ((pa + da)%nat, (pb + db)%nat, add tmp (mul a b))
      | _, _ => None
      end) (pa, pb, zero) with
  | Some (_, _, tmp) => Some tmp
  | None => None
  end.

(** The loop of the pair of columns: the second product reads A at pa + a2
    and B at pb + b2 (small_blas.h:199-203, 303-309, 398-402, 483-490). *)
Definition dot2 (A B : list T) (n pa da a2 pb db b2 : nat) : option (T * T) :=
  match for_ n (fun _ '(pa, pb, t1, t2) =>
      match nth_error A pa, nth_error B pb, nth_error A (pa + a2), nth_error B (pb + b2) with
      | Some a, Some b, Some a', Some b' =>
          Some ((pa + da)%nat, (pb + db)%nat, add t1 (mul a b), add t2 (mul a' b'))
      | _, _, _, _ => None
      end) (pa, pb, zero, zero) with
  | Some (_, _, t1, t2) => Some (t1, t2)
  | None => None
  end.

(** The common frame of the four routines: the lanes 0..nc-1 in an odd one, a
    pair and quads (small_blas.h:170-227). *)
Definition lanes (nc : nat) (odd pair : nat -> list T -> option (list T)) (quads : list T -> option (list T))
                 (C : list T) : option (list T) :=
  match (if Nat.odd nc then odd (nc - 1)%nat C else Some C) with
  | None => None
  | Some C1 =>
    if Nat.odd nc && Nat.eqb nc 1 then Some C1
    else match (if Nat.testbit nc 1 then pair (round4 nc) C1 else Some C1) with
         | None => None
         | Some C2 => if Nat.testbit nc 1 && Nat.ltb nc 4 then Some C2 else quads C2
         end
  end.

(** small_blas.h:161-228, MatrixMatrixMultiplyNaive. *)
Definition MatrixMatrixMultiplyNaive (kRowA kColA kRowB kColB : option nat) (op : Z)
    (A : list T) (num_row_a num_col_a : nat) (B : list T) (num_row_b num_col_b : nat)
    (C : list T) (start_row_c start_col_c row_stride_c col_stride_c : nat) : option (list T) :=
  let NUM_ROW_A := dim kRowA num_row_a in
  let NUM_COL_A := dim kColA num_col_a in
  let NUM_COL_B := dim kColB num_col_b in
  let NUM_ROW_C := NUM_ROW_A in
  let NUM_COL_C := NUM_COL_B in
  let at_ row col := ((row + start_row_c) * col_stride_c + start_col_c + col)%nat in
  lanes NUM_COL_C
    (fun col C => for_ NUM_ROW_C (fun row C =>
       match dot1 A B NUM_COL_A (row * NUM_COL_A) 1 col NUM_COL_B with
       | Some tmp => store op C (at_ row col) tmp | None => None end) C)
    (fun col C => for_ NUM_ROW_C (fun row C =>
       match dot2 A B NUM_COL_A (row * NUM_COL_A) 1 0 col NUM_COL_B 1 with
       | Some (t1, t2) => store2 op C (at_ row col) t1 t2 | None => None end) C)
    (fun C => for_ (round4 NUM_COL_C / 4) (fun q C => for_ NUM_ROW_C (fun row C =>
       MMM_mat1x4 NUM_COL_A A (row * NUM_COL_A) B (q * 4) NUM_COL_B C (at_ row (q * 4)%nat) op) C) C)
    C.

(** small_blas.h:264-335, MatrixTransposeMatrixMultiplyNaive. *)
Definition MatrixTransposeMatrixMultiplyNaive (kRowA kColA kRowB kColB : option nat) (op : Z)
    (A : list T) (num_row_a num_col_a : nat) (B : list T) (num_row_b num_col_b : nat)
    (C : list T) (start_row_c start_col_c row_stride_c col_stride_c : nat) : option (list T) :=
  let NUM_ROW_A := dim kRowA num_row_a in
  let NUM_COL_A := dim kColA num_col_a in
  let NUM_COL_B := dim kColB num_col_b in
  let NUM_ROW_C := NUM_COL_A in
  let NUM_COL_C := NUM_COL_B in
  let at_ row col := ((row + start_row_c) * col_stride_c + start_col_c + col)%nat in
  lanes NUM_COL_C
    (fun col C => for_ NUM_ROW_C (fun row C =>
       match dot1 A B NUM_ROW_A row NUM_COL_A col NUM_COL_B with
       | Some tmp => store op C (at_ row col) tmp | None => None end) C)
    (fun col C => for_ NUM_ROW_C (fun row C =>
       match dot2 A B NUM_ROW_A row NUM_COL_A 0 col NUM_COL_B 1 with
       | Some (t1, t2) => store2 op C (at_ row col) t1 t2 | None => None end) C)
    (fun C => for_ (round4 NUM_COL_C / 4) (fun q C => for_ NUM_ROW_C (fun row C =>
       MTM_mat1x4 NUM_ROW_A A row NUM_COL_A B (q * 4) NUM_COL_B C (at_ row (q * 4)%nat) op) C) C)
    C.

(** small_blas.h:358-427, MatrixVectorMultiply (without CERES_NO_CUSTOM_BLAS). *)
Definition MatrixVectorMultiply (kRowA kColA : option nat) (op : Z)
    (A : list T) (num_row_a num_col_a : nat) (b c : list T) : option (list T) :=
  let NUM_ROW_A := dim kRowA num_row_a in
  let NUM_COL_A := dim kColA num_col_a in
  lanes NUM_ROW_A
    (fun row c => match dot1 A b NUM_COL_A (row * NUM_COL_A) 1 0 1 with
                  | Some tmp => store op c row tmp | None => None end)
    (fun row c => match dot2 A b NUM_COL_A (row * NUM_COL_A) 1 NUM_COL_A 0 1 0 with
                  | Some (t1, t2) => store2 op c row t1 t2 | None => None end)
    (fun c => for_ (round4 NUM_ROW_A / 4) (fun q c =>
       MVM_mat4x1 NUM_COL_A A (q * 4 * NUM_COL_A) NUM_COL_A b c (q * 4) op) c)
    c.

(** small_blas.h:432-513, MatrixTransposeVectorMultiply. *)
Definition MatrixTransposeVectorMultiply (kRowA kColA : option nat) (op : Z)
    (A : list T) (num_row_a num_col_a : nat) (b c : list T) : option (list T) :=
  let NUM_ROW_A := dim kRowA num_row_a in
  let NUM_COL_A := dim kColA num_col_a in
  lanes NUM_COL_A
    (fun row c => match dot1 A b NUM_ROW_A row NUM_COL_A 0 1 with
                  | Some tmp => store op c row tmp | None => None end)
    (fun row c => match dot2 A b NUM_ROW_A row NUM_COL_A 1 0 1 0 with
                  | Some (t1, t2) => store2 op c row t1 t2 | None => None end)
    (fun c => for_ (round4 NUM_COL_A / 4) (fun q c =>
       MTV_mat4x1 NUM_ROW_A A (q * 4) NUM_COL_A b c (q * 4) op) c)
    c.
End Scalar.
