(* Specification for C74. *)
From Coq Require Import List Arith ZArith.
From Verif Require Import SchurModel TplModel.
Import ListNotations.

(* the rows of bs: first those that have an e block, which is their first cell, then the others *)
Record split (nelim : nat) (bs : Structure) (es fs : list Row) : Prop := {
  sp_rows : rows bs = es ++ fs;
  sp_e : forall row, In row es -> exists c cs, cells row = c :: cs /\ (block_id c < nelim)%nat;
  sp_f : forall row, In row fs -> exists c cs, cells row = c :: cs /\ (nelim <= block_id c)%nat }.
(* the sizes of the rows, of the e blocks and of the f blocks in these rows *)
Definition row_sizes (es : list Row) : list nat := map (fun row => size (block row)) es.
Definition e_sizes (bs : Structure) (es : list Row) : list nat :=
  flat_map (fun row => match cells row with [] => [] | c :: _ => [size (col bs (block_id c))] end) es.
Definition f_sizes (bs : Structure) (es : list Row) : list nat :=
  flat_map (fun row => map (fun c => size (col bs (block_id c))) (tl (cells row))) es.
Definition positive (l : list nat) : Prop := forall n, In n l -> (0 < n)%nat.

(* z tells what all sizes of l are: 0 if there are none, n if all are n, -1 if two differ *)
Definition summarizes (l : list nat) (z : Z) : Prop :=
  l = [] /\ z = 0%Z \/
  (exists n, l <> [] /\ (forall m, In m l -> m = n) /\ z = Z.of_nat n) \/
  (exists m n, In m l /\ In n l /\ m <> n /\ z = (-1)%Z).
(* a template argument that may be used for blocks of the sizes l *)
Definition suits (l : list nat) (z : Z) : Prop := z = (-1)%Z \/ forall n, In n l -> z = Z.of_nat n.
Definition suitable (bs : Structure) (es : list Row) (s : Sizes) : Prop :=
  suits (row_sizes es) (row_block_size s) /\ suits (e_sizes bs es) (e_block_size s) /\ suits (f_sizes bs es) (f_block_size s).

(* a specialization: -1 or a number for each of the three.  It applies to o if the numbers are o's *)
Definition applies (t o : Sizes) : Prop :=
  (row_block_size t = (-1)%Z \/ row_block_size t = row_block_size o) /\
  (e_block_size t = (-1)%Z \/ e_block_size t = e_block_size o) /\
  (f_block_size t = (-1)%Z \/ f_block_size t = f_block_size o).
(* the specializations that are compiled: generate_template_specializations.py 54-74 *)
Definition specializations : list Sizes := map (fun t => let '(r, e, f) := t in mkSizes r e f)
  [(2, 2, 2); (2, 2, 3); (2, 2, 4); (2, 2, -1); (2, 3, 3); (2, 3, 4); (2, 3, 6); (2, 3, 9); (2, 3, -1);
   (2, 4, 3); (2, 4, 4); (2, 4, 6); (2, 4, 8); (2, 4, 9); (2, 4, -1); (2, -1, -1); (3, 3, 3);
   (4, 4, 2); (4, 4, 3); (4, 4, 4); (4, 4, -1)]%Z.
Definition general : Sizes := mkSizes (-1) (-1) (-1).
