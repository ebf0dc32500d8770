(* Specification for C80. *)
From Coq Require Import Reals List Arith ZArith Bool.
From Verif Require Import SchurModel SchurSpec BraModel.
Import ListNotations.
Close Scope R_scope.
Open Scope nat_scope.

(* the three classes; sparse matrices are built from a set of pairs of block numbers *)
Inductive kind : Type := KDense | KSparse (pairs : list (nat * nat)) | KDiagonal.
Definition build (junk : nat -> R) (k : kind) (bl : list Block) : option Bram :=
  match k with KDense => NewDense bl | KSparse ps => NewSparse junk bl ps | KDiagonal => NewDiagonal bl end.
(* the blocks that are stored *)
Definition stored_in (k : kind) (i j : nat) : bool :=
  match k with
  | KDense => true
  | KSparse ps => existsb (fun p => (fst p =? i) && (snd p =? j)) ps
  | KDiagonal => i =? j
  end.
Definition block_size (bl : list Block) (i : nat) : nat := size (nth i bl (mkBlock 0 0)).
Definition block_position (bl : list Block) (i : nat) : nat := position (nth i bl (mkBlock 0 0)).

(* the numbers that must be in the range of int: the entries of the array and, for a dense
   matrix, the number of pairs of blocks *)
Definition pair_dec (p q : nat * nat) : {p = q} + {p <> q}.
Proof. decide equality; apply Nat.eq_dec. Defined.
Definition zsum {A} (f : A -> Z) (l : list A) : Z := fold_right (fun x s => (f x + s)%Z) 0%Z l.
Definition representable (k : kind) (bl : list Block) : Prop :=
  match k with
  | KDense => let n := zsum (fun b => Z.of_nat (size b)) bl in
    (n * n <= INT_MAX)%Z /\ (Z.of_nat (length bl) * Z.of_nat (length bl) <= INT_MAX)%Z
  | KSparse ps => (Z.of_nat (length bl) <= INT_MAX)%Z /\
    (zsum (fun p => Z.of_nat (block_size bl (fst p)) * Z.of_nat (block_size bl (snd p))) (nodup pair_dec ps) <= INT_MAX)%Z
  | KDiagonal => (zsum (fun b => Z.of_nat (size b) * Z.of_nat (size b)) bl <= INT_MAX)%Z
  end.
Definition pairs_in_range (k : kind) (bl : list Block) : Prop :=
  match k with KSparse ps => forall i j, In (i, j) ps -> i < length bl /\ j < length bl | _ => True end.

(* a matrix in which every block is a matrix of its own *)
Definition blocks_of : Type := nat -> nat -> nat -> nat -> R.
Definition inside (i j n k i' j' r c : nat) : bool := (i' =? i) && (j' =? j) && (r <? n) && (c <? k).
Definition ideal_step (k : kind) (a : blocks_of) (o : op) : blocks_of :=
  match o with
  | Clear => fun _ _ _ _ => 0%R
  | Add i j n m M => fun i' j' r c => if stored_in k i j && inside i j n m i' j' r c then (a i' j' r c + M r c)%R else a i' j' r c
  | Assign i j n m M => fun i' j' r c => if stored_in k i j && inside i j n m i' j' r c then M r c else a i' j' r c
  end.
Definition ideal_run (k : kind) (a : blocks_of) (os : list op) : blocks_of := fold_left (ideal_step k) os a.
(* operations on blocks that exist, within their sizes *)
Definition valid_op (bl : list Block) (o : op) : Prop :=
  match o with
  | Clear => True
  | Add i j n m _ | Assign i j n m _ => i < length bl /\ j < length bl /\ n <= block_size bl i /\ m <= block_size bl j
  end.

(* what is read through GetCell *)
Definition cell_entry (m : Bram) (i j r c : nat) : option R :=
  match GetCell m i j with Some (Some w) => nth_error (values m) (address w r c) | _ => None end.
Definition holds (k : kind) (bl : list Block) (m : Bram) (a : blocks_of) : Prop :=
  forall i j r c, i < length bl -> j < length bl -> r < block_size bl i -> c < block_size bl j ->
    stored_in k i j = true -> cell_entry m i j r c = Some (a i j r c).

(* the symmetric matrix of which the blocks on and above the diagonal are stored *)
Definition symmetric_entry (k : kind) (a : blocks_of) (i r j c : nat) : R :=
  if i <=? j then (if stored_in k i j then a i j r c else 0%R) else (if stored_in k j i then a j i c r else 0%R).
Definition block_product (bl : list Block) (A : nat -> nat -> nat -> nat -> R) (x : nat -> R) (i r : nat) : R :=
  sumn (length bl) (fun j => sumn (block_size bl j) (fun c => A i r j c * x (block_position bl j + c)%nat)%R).

(* what is required of Eigen's Cholesky factorisation *)
Record cholesky (llt : nat -> matrix -> matrix) : Prop := {
  llt_matrix : forall n A B, (forall r c, r < n -> c < n -> A r c = B r c) -> forall r c, r < n -> c < n -> llt n A r c = llt n B r c;
  llt_inverse : forall n A, symmetric n A -> definite n A ->
    forall r c, r < n -> c < n -> sumn n (fun k => A r k * llt n A k c)%R = if r =? c then 1%R else 0%R }.

(* the updates that Eliminate makes (schur_eliminator_impl.h 183-311; C46) *)
Definition updates_of (invert : bool -> nat -> matrix -> matrix) (st : Eliminator) (bs : Structure) (vals : nat -> R) (b D : option (nat -> R)) (want_rhs : bool) (us : list Update) : Prop :=
  exists per_chunk order tail,
    all_some (map (EliminateChunk invert st bs vals b D want_rhs) (chunks st)) = Some per_chunk /\
    interleaving per_chunk order /\
    NoEBlockRowsUpdate st bs vals b want_rhs (skipn (uneliminated_row_begins st) (rows bs)) = Some tail /\
    us = AddDiagonal st bs D ++ order ++ tail.
(* the f blocks, numbered from 0 and laid out from position 0 *)
Definition f_blocks (nelim : nat) (bs : Structure) (bl : list Block) : Prop :=
  laid_out 0 bl /\ map size bl = map size (skipn nelim (cols bs)).
