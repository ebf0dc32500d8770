(* Specification for C71. *)
From Coq Require Import Reals List Arith Bool.
From Verif Require Import VisModel ForestSpec.
Import ListNotations.
Open Scope nat_scope.

(* f-block c and e-block p share a row block; rows that have an e-block have it first *)
Definition sees (E : nat) (rows : list (list nat)) (c p : nat) : Prop :=
  exists cells, In (p :: cells) rows /\ p < E /\ In (E + c) cells.
Fixpoint increasing (l : list nat) : Prop :=
  match l with
  | [] => True
  | x :: l' => (forall y, In y l' -> x < y) /\ increasing l'
  end.
(* every list of e-blocks is sorted and without repetitions *)
Definition all_increasing (vis : list (list nat)) : Prop := forall i, increasing (nth i vis []).
(* the e-blocks that both see *)
Definition common (visibility : list (list nat)) (i j : nat) : list nat :=
  filter (fun p => if in_dec Nat.eq_dec p (nth j visibility []) then true else false) (nth i visibility []).

(* an undirected graph; the weight is zero where there is no edge *)
Record graph_ok (g : wg) : Prop := {
  ok_vertices : NoDup (vertices g);
  ok_neighbors : forall v, NoDup (Neighbors g v);
  ok_in : forall a b, In b (Neighbors g a) -> In a (vertices g) /\ In b (vertices g);
  ok_sym : forall a b, In b (Neighbors g a) -> In a (Neighbors g b);
  ok_zero : forall a b, ~ In b (Neighbors g a) -> EdgeWeight g a b = 0%R }.

(* single linkage: the edges that count *)
Definition strong (s : R) (g : wg) (a b : nat) : Prop := In b (Neighbors g a) /\ (s <= EdgeWeight g a b)%R.

(* canonical_views_clustering.h: the objective *)
Fixpoint total {A} (l : list A) (f : A -> R) : R := match l with [] => 0%R | x :: l' => (f x + total l' f)%R end.
(* max over j in C of w_vj, zero if C is empty *)
Fixpoint nearest (g : wg) (C : list nat) (v : nat) : R := match C with [] => 0%R | c :: C' => Rmax (EdgeWeight g v c) (nearest g C' v) end.
(* sum over the unordered pairs of C *)
Fixpoint overlap (g : wg) (C : list nat) : R := match C with [] => 0%R | c :: C' => (total C' (EdgeWeight g c) + overlap g C')%R end.
Definition vertex_weight (g : wg) (v : nat) : R := match vw g v with Some x => x | None => 0%R end.
Definition objective (o : options) (g : wg) (C : list nat) : R :=
  (total (vertices g) (nearest g C) - size_penalty_weight o * INR (length C) - similarity_penalty_weight o * overlap g C
   + view_score_weight o * total C (vertex_weight g))%R.
(* the k-th center is the most similar one to v, the first of those, and is similar to it at all *)
Definition closest (g : wg) (C : list nat) (v k : nat) : Prop :=
  exists c, nth_error C k = Some c /\ (0 < EdgeWeight g v c)%R /\
    (forall c', In c' C -> EdgeWeight g v c' <= EdgeWeight g v c)%R /\
    (forall k' c', k' < k -> nth_error C k' = Some c' -> (EdgeWeight g v c' < EdgeWeight g v c)%R).
(* the cluster a camera belongs to: a camera without one goes to the one its number gives *)
Definition effective (num_clusters : nat) (entry : nat * option nat) : nat :=
  match snd entry with None => fst entry mod num_clusters | Some c => c end.
(* the similarity of two cameras *)
Definition similar (vis : list (list nat)) (i j : nat) : R := (INR (length (common vis i j)) / sqrt (INR (length (nth i vis []) * length (nth j vis []))))%R.
(* cameras that single linkage joins directly *)
Definition near (vis : list (list nat)) (a b : nat) : Prop :=
  a < length vis /\ b < length vis /\ (a = b \/ (common vis a b <> [] /\ (9 / 10 <= similar vis a b)%R)).
