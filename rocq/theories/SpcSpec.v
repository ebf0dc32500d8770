(* Specification for C84. *)
From Coq Require Import List Arith ZArith Bool Permutation Sorted.
From Verif Require Import SpcModel.
Import ListNotations.
Open Scope nat_scope.

(* blocks that follow each other from o on *)
Fixpoint contiguous (o : nat) (bl : list Block) : Prop := match bl with [] => True | b :: bl' => 0 < size b /\ position b = o /\ contiguous (o + size b) bl' end.
Definition total (bl : list Block) : nat := list_sum (map size bl).
(* the rows stored in column c *)
Definition column (A : Pattern) (c : nat) : list nat := firstn (nth (S c) (p A) 0 - nth c (p A) 0) (skipn (nth c (p A) 0) (i A)).
Definition stored (A : Pattern) (r c : nat) : Prop := In r (column A c).
Definition well_formed (A : Pattern) : Prop :=
  length (p A) = S (ncol A) /\ (forall c, c < ncol A -> nth c (p A) 0 <= nth (S c) (p A) 0 <= length (i A)) /\ forall r, In r (i A) -> r < nrow A.
Definition in_block (b : Block) (k : nat) : Prop := position b <= k < position b + size b.
(* every cell of the block grid is stored completely or not at all *)
Definition complete (A : Pattern) (rb cb : list Block) : Prop :=
  forall b1 b2 r c r' c', In b1 rb -> In b2 cb -> in_block b1 r -> in_block b2 c -> in_block b1 r' -> in_block b2 c' -> stored A r c -> stored A r' c'.
(* the scalars of the blocks in a given order of the blocks *)
Definition by_blocks (bl : list Block) (o : list nat) : list nat := flat_map (fun k => let b := nth k bl (mkBlock 0 0) in seq (position b) (size b)) o.

(* what CHOLMOD promises; symbolic f P: f was analysed for P; factors f P v: f is a factor of the
   matrix with pattern P and values v; solves P v b x: x solves the system *)
Record cholmod_contract {F V B} (lib : Cholmod F V B) (symbolic : F -> Pattern -> Prop) (factors : F -> Pattern -> V -> Prop) (solves : Pattern -> V -> B -> B -> Prop) : Prop := {
  c_ordering : forall t P o st, ordering lib t P = (Some o, st) -> Permutation o (seq 0 (nrow P));
  c_analyze : forall t P f, analyze lib t P = (f, 0%Z) -> symbolic f P;
  c_analyze_p : forall P o f, Permutation o (seq 0 (nrow P)) -> analyze_p lib P o = (f, 0%Z) -> symbolic f P;
  c_factorize : forall P v f f' ok st, symbolic f P -> factorize lib P v f = (f', ok, st) -> symbolic f' P /\ (ok = true -> st = 0%Z -> factors f' P v) /\ (ok = false -> st <> 0%Z);
  c_solve : forall P v f b x st, factors f P v -> solve lib f b = (Some x, st) -> solves P v b x }.
Record eigen_contract {E V B} (lib : Eigen E V B) (symbolic : E -> Pattern -> Prop) (factors : E -> Pattern -> V -> Prop) (solves : Pattern -> V -> B -> B -> Prop) : Prop := {
  e_analyze : forall P e e', analyzePattern lib P e = (e', true) -> symbolic e' P;
  e_factorize : forall P v e e' ok, symbolic e P -> eigen_factorize lib P v e = (e', ok) -> symbolic e' P /\ info lib e' = ok /\ (ok = true -> factors e' P v);
  e_solve : forall P v e b, factors e P v -> solves P v b (eigen_solve lib e b) }.
(* what a history of calls may answer; cur: the values of the matrix given last, if it was factorised *)
Fixpoint honest {V B} (solves : V -> B -> B -> Prop) (cur : option V) (l : list (Call V B)) (a : list (Answer B)) : Prop :=
  match l, a with
  | [], [] => True
  | Factorize None :: l', Factorized t _ :: a' => t = FATAL_ERROR /\ honest solves cur l' a'
  | Factorize (Some A) :: l', Factorized t _ :: a' => honest solves (match t with SUCCESS => Some (values A) | _ => None end) l' a'
  | Solve b :: l', Solved t x _ :: a' => (t = SUCCESS -> exists v y, cur = Some v /\ x = Some y /\ solves v b y) /\ honest solves cur l' a'
  | _, _ => False
  end.
(* all matrices have one structure *)
Definition structured {V B} (rb cb : list Block) (view : Crs V -> Pattern) (P : Pattern) (l : list (Call V B)) : Prop :=
  forall A, In (Factorize (Some A)) l -> view A = P /\ row_blocks A = rb /\ col_blocks A = cb.
(* for Eigen: a square matrix, of which the lower triangle is stored *)
Definition square_view {V} (A : Crs V) : Pattern := mkPattern (num_rows A) (num_rows A) (rows A) (cols A) 1%Z.
Definition given {V B} (P : Pattern) (l : list (Call V B)) : Prop := forall x, In (Factorize x) l -> exists A, x = Some A /\ storage_type A = LOWER_TRIANGULAR /\ square_view A = P.
(* an entry of a compressed row matrix *)
Definition crs_stored {V} (A : Crs V) (r c : nat) : Prop := In c (firstn (nth (S r) (rows A) 0 - nth r (rows A) 0) (skipn (nth r (rows A) 0) (cols A))).
