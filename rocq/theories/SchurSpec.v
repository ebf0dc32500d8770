(* Specification for C46: the block sparse matrix as a matrix, the (regularised) normal
   equations, and their Schur complement. *)
From Coq Require Import Reals List Arith Bool Sorting.Sorted.
From Verif Require Import SchurModel.
Import ListNotations.
Open Scope R_scope.

Fixpoint suml {A} (l : list A) (f : A -> R) : R := match l with [] => 0 | x :: l' => f x + suml l' f end.

(* entry (k, j) of the block in block row row and block column c *)
Definition entry (bs : Structure) (values : nat -> R) (row : Row) (c k j : nat) : R :=
  suml (cells row) (fun cell => if block_id cell =? c then values (cell_position cell + k * size (col bs c) + j)%nat else 0).
(* sum over all scalar rows *)
Definition over_rows (bs : Structure) (f : Row -> nat -> R) : R := suml (rows bs) (fun row => sumn (size (block row)) (f row)).
(* A'A + D^2 and A'b; a column is a block and a number within it *)
Definition d_squared (D : option (nat -> R)) (p : nat) : R := match D with Some d => d p * d p | None => 0 end.
Definition normal (bs : Structure) (values : nat -> R) (D : option (nat -> R)) (c i c' j : nat) : R :=
  over_rows bs (fun row k => entry bs values row c k i * entry bs values row c' k j) +
  (if (c =? c') && (i =? j) then d_squared D (position (col bs c) + i) else 0).
Definition gradient (bs : Structure) (values b : nat -> R) (c i : nat) : R :=
  over_rows bs (fun row k => entry bs values row c k i * b (position (block row) + k)%nat).
Definition num_cols (bs : Structure) : nat := length (cols bs).
Definition width (bs : Structure) (c : nat) : nat := size (col bs c).
(* x minimises |A x - b|^2 + |D x|^2: the normal equations *)
Definition solves (bs : Structure) (values b : nat -> R) (D : option (nat -> R)) (x : nat -> R) : Prop :=
  forall c i, (c < num_cols bs)%nat -> (i < width bs c)%nat ->
    sumn (num_cols bs) (fun c' => sumn (width bs c') (fun j => normal bs values D c i c' j * x (position (col bs c') + j)%nat)) =
    gradient bs values b c i.

(* the requirements on the structure: positions are the running sums of the sizes; the
   cells of a row are sorted; the rows that share an e block are adjacent and have no
   other; the rows without e blocks come last *)
Fixpoint laid_out (p : nat) (bl : list Block) : Prop :=
  match bl with [] => True | b :: bl' => position b = p /\ laid_out (p + size b) bl' end.
Record well_formed (nelim : nat) (bs : Structure) : Prop := {
  wf_nelim : (0 < nelim <= num_cols bs)%nat;
  wf_cols : laid_out 0 (cols bs);
  wf_rows : laid_out 0 (map block (rows bs));
  wf_sorted : forall row, In row (rows bs) -> StronglySorted lt (map block_id (cells row)) /\ forall c, In c (cells row) -> (block_id c < num_cols bs)%nat;
  wf_groups : exists (groups : list (nat * list Row)) (tail : list Row),
    rows bs = concat (map snd groups) ++ tail /\ NoDup (map fst groups) /\ groups <> [] /\
    (forall e rs, In (e, rs) groups -> (e < nelim)%nat /\ rs <> [] /\
       forall row, In row rs -> exists c cs, cells row = c :: cs /\ block_id c = e /\ forall c', In c' cs -> (nelim <= block_id c')%nat) /\
    (forall row, In row tail -> cells row <> [] /\ forall c, In c (cells row) -> (nelim <= block_id c)%nat) }.

(* what is required of InvertPSDMatrix: it depends on the matrix only; for a symmetric
   positive semidefinite matrix m (definite when full rank is assumed) the result is a
   symmetric matrix w with m w m = m, which is the inverse if there is one *)
Definition symmetric (n : nat) (m : matrix) : Prop := forall i j, (i < n)%nat -> (j < n)%nat -> m i j = m j i.
Definition form (n : nat) (m : matrix) (v : nat -> R) : R := sumn n (fun i => sumn n (fun j => v i * m i j * v j)).
Definition semidefinite (n : nat) (m : matrix) : Prop := forall v, 0 <= form n m v.
Definition definite (n : nat) (m : matrix) : Prop := forall v, (exists i, (i < n)%nat /\ v i <> 0) -> 0 < form n m v.
Record inverts (invert : bool -> nat -> matrix -> matrix) : Prop := {
  inv_matrix : forall full n m m', (forall i j, (i < n)%nat -> (j < n)%nat -> m i j = m' i j) ->
    forall i j, (i < n)%nat -> (j < n)%nat -> invert full n m i j = invert full n m' i j;
  inv_symmetric : forall full n m, symmetric n m -> semidefinite n m -> (full = true -> definite n m) -> symmetric n (invert full n m);
  inv_inverse : forall full n m, symmetric n m -> semidefinite n m -> (full = true -> definite n m) ->
    forall i j, (i < n)%nat -> (j < n)%nat ->
      sumn n (fun a => sumn n (fun c => m i a * invert full n m a c * m c j)) = m i j }.
(* the e blocks that occur have full rank (if that is assumed) *)
Definition full_rank (bs : Structure) (values : nat -> R) (D : option (nat -> R)) (nelim : nat) : Prop :=
  forall e row c, (e < nelim)%nat -> In row (rows bs) -> In c (cells row) -> block_id c = e ->
    definite (width bs e) (fun i j => normal bs values D e i e j).

(* the Schur complement and its right hand side *)
Definition inverse_of (invert : bool -> nat -> matrix -> matrix) (full : bool) (bs : Structure) (values : nat -> R) (D : option (nat -> R)) (e : nat) : matrix :=
  invert full (width bs e) (fun i j => normal bs values D e i e j).
Definition schur (invert : bool -> nat -> matrix -> matrix) (full : bool) (nelim : nat) (bs : Structure) (values : nat -> R) (D : option (nat -> R)) (c i c' j : nat) : R :=
  normal bs values D c i c' j -
  sumn nelim (fun e => sumn (width bs e) (fun a => sumn (width bs e) (fun a' =>
    normal bs values D c i e a * inverse_of invert full bs values D e a a' * normal bs values D e a' c' j))).
Definition schur_rhs (invert : bool -> nat -> matrix -> matrix) (full : bool) (nelim : nat) (bs : Structure) (values b : nat -> R) (D : option (nat -> R)) (c i : nat) : R :=
  gradient bs values b c i -
  sumn nelim (fun e => sumn (width bs e) (fun a => sumn (width bs e) (fun a' =>
    normal bs values D c i e a * inverse_of invert full bs values D e a a' * gradient bs values b e a'))).

(* the reduced system: only blocks on and above the diagonal are used *)
Definition offset (nelim : nat) (bs : Structure) (f : nat) : nat := (position (col bs (nelim + f)) - position (col bs nelim))%nat.
Definition upper (s : System) (f i f' j : nat) : R := if f <=? f' then lhs s f f' i j else lhs s f' f j i.
Definition solves_reduced (nelim : nat) (bs : Structure) (s : System) (z : nat -> R) : Prop :=
  forall f i, (nelim + f < num_cols bs)%nat -> (i < width bs (nelim + f))%nat ->
    sumn (num_cols bs - nelim) (fun f' => sumn (width bs (nelim + f')) (fun j => upper s f i f' j * z (offset nelim bs f' + j)%nat)) =
    rhs s (offset nelim bs f + i)%nat.
(* scalar columns *)
Definition total (bl : list Block) : nat := fold_right (fun b n => size b + n)%nat 0%nat bl.
(* what the solution minimises: |A x - b|^2 + |D x|^2 *)
Definition over_cols (bs : Structure) (f : nat -> nat -> R) : R := sumn (num_cols bs) (fun c => sumn (width bs c) (f c)).
Definition residual (bs : Structure) (values b x : nat -> R) (row : Row) (k : nat) : R :=
  over_cols bs (fun c j => entry bs values row c k j * x (position (col bs c) + j)%nat) - b (position (block row) + k)%nat.
Definition cost (bs : Structure) (values b : nat -> R) (D : option (nat -> R)) (x : nat -> R) : R :=
  over_rows bs (fun row k => residual bs values b x row k * residual bs values b x row k) +
  over_cols bs (fun c i => d_squared D (position (col bs c) + i) * (x (position (col bs c) + i)%nat * x (position (col bs c) + i)%nat)).
