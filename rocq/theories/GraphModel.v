(** Model of internal/ceres/graph.h (class Graph), the independent set
    orderings of graph_algorithms.h and parameter_block_ordering.cc.
    Vertices (pointers) are numbers; [None] is a failed CHECK, FindOrDie on a
    missing key or undefined behaviour. *)
Require Import List Arith Bool ZArith.
From Verif Require Import ZMap OrderedGroupsModel.
Import ListNotations.
Open Scope nat_scope.

(** A hash map keyed by vertices: a partial function.  Iteration order is
    never used for it. *)
Definition fmap (A : Type) := nat -> option A.
Definition fput {A} (m : fmap A) (k : nat) (x : option A) : fmap A := fun v => if v =? k then x else m v.

(** graph.h:97-98.  [g_v]: vertices_, as the list of its elements in iteration
    order; [g_e]: edges_. *)
Record graph := mkG { g_v : list nat; g_e : fmap (list nat) }.
Definition g_empty : graph := mkG [] (fun _ => None).

Definition mem (v : nat) (l : list nat) : bool := existsb (Nat.eqb v) l.
(** A set's insert / erase. *)
Definition sput (v : nat) (l : list nat) : list nat := if mem v l then l else v :: l.
Definition srem (v : nat) (l : list nat) : list nat := filter (fun u => negb (u =? v)) l.
(** edges_[v], default constructing. *)
Definition at_ (e : fmap (list nat)) (v : nat) : list nat := match e v with Some l => l | None => [] end.

(** AddVertex, graph.h:52-56. *)
Definition add_vertex (v : nat) (g : graph) : graph :=
  if mem v (g_v g) then g else mkG (v :: g_v g) (fput (g_e g) v (Some [])).

(** RemoveVertex, graph.h:58-71.  With a self loop the set is modified while it
    is iterated (undefined behaviour). *)
Definition remove_vertex (v : nat) (g : graph) : option (graph * bool) :=
  if negb (mem v (g_v g)) then Some (g, false)
  else
    let sinks := at_ (g_e g) v in
    if mem v sinks then None
    else
      let e := fold_left (fun e s => fput e s (Some (srem v (at_ e s)))) sinks (g_e g) in
      Some (mkG (srem v (g_v g)) (fput e v None), true).

(** AddEdge, graph.h:79-86; both vertices must be present (DCHECK, lines 80-81;
    otherwise documented undefined behaviour). *)
Definition add_edge (a b : nat) (g : graph) : option graph :=
  if negb (mem a (g_v g)) || negb (mem b (g_v g)) then None
  else
    let la := at_ (g_e g) a in
    if mem b la then Some g
    else
      let e1 := fput (g_e g) a (Some (b :: la)) in
      Some (mkG (g_v g) (fput e1 b (Some (sput a (at_ e1 b))))).

(** Neighbors, graph.h:90-92: FindOrDie. *)
Definition neighbors (g : graph) (v : nat) : option (list nat) := g_e g v.

Inductive gop := AddV (v : nat) | RemV (v : nat) | AddE (a b : nat).
Definition gstep (o : gop) (g : graph) : option graph :=
  match o with
  | AddV v => Some (add_vertex v g)
  | RemV v => match remove_vertex v g with Some (g', _) => Some g' | None => None end
  | AddE a b => add_edge a b g
  end.
Fixpoint grun (ops : list gop) (g : graph) : option graph :=
  match ops with [] => Some g | o :: ops' => match gstep o g with Some g' => grun ops' g' | None => None end end.

(** std::sort / std::stable_sort with comparator [lt], as a stable insertion
    sort. *)
Section Sort.
  Variable A : Type.
  Variable lt : A -> A -> bool.
  Fixpoint sinsert (x : A) (l : list A) : list A :=
    match l with
    | [] => [x]
    | y :: r => if lt y x then y :: sinsert x r else x :: l
    end.
  Fixpoint ssort (l : list A) : list A :=
    match l with [] => [] | x :: r => sinsert x (ssort r) end.
End Sort.
Arguments ssort {A}. Arguments sinsert {A}.

Definition degree (g : graph) (v : nat) : nat := length (at_ (g_e g) v).
(** VertexTotalOrdering, graph_algorithms.h:56-61 (Neighbors of a vertex of the
    graph always exists, see [built_total]). *)
Definition total_lt (g : graph) (l r : nat) : bool :=
  if degree g l =? degree g r then l <? r else degree g l <? degree g r.
(** VertexDegreeLessThan, graph_algorithms.h:72-74. *)
Definition degree_lt (g : graph) (l r : nat) : bool := degree g l <? degree g r.

(** vertex_color; white = 0, grey = 1, black = 2. *)
Definition colour := nat -> nat.
Definition cset (c : colour) (v x : nat) : colour := fun u => if u =? v then x else c u.

(** First loop, graph_algorithms.h:125-136 and 193-205. *)
Fixpoint pass1 (g : graph) (queue : list nat) (c : colour) (ord : list nat) : option (colour * list nat) :=
  match queue with
  | [] => Some (c, ord)
  | v :: q =>
      if negb (c v =? 0) then pass1 g q c ord
      else
        match neighbors g v with
        | None => None
        | Some ns => pass1 g q (fold_left (fun c n => cset c n 1) ns (cset c v 2)) (ord ++ [v])
        end
  end.

(** Common part of the two orderings, lines 124-151 and 192-220, on the sorted
    queue. *)
Definition order_queue (g : graph) (queue : list nat) : option (list nat * nat) :=
  match pass1 g queue (fun _ => 0) [] with
  | None => None
  | Some (c, ord) =>
      let ordering := ord ++ filter (fun v => negb (c v =? 2)) queue in
      if length ordering =? length (g_v g) then Some (ordering, length ord) else None
  end.

(** IndependentSetOrdering, graph_algorithms.h:97-152. *)
Definition independent_set_ordering (g : graph) : option (list nat * nat) :=
  order_queue g (ssort (total_lt g) (g_v g)).

(** StableIndependentSetOrdering, graph_algorithms.h:165-221. *)
Definition stable_independent_set_ordering (g : graph) (ordering : list nat) : option (list nat * nat) :=
  if negb (length (g_v g) =? length ordering) then None
  else order_queue g (ssort (degree_lt g) ordering).

(** The part of a Program used here: parameter blocks in order, which of them
    are constant, and the parameter blocks of each residual block. *)
Record prog := mkProg { p_blocks : list nat; p_const : nat -> bool; p_res : list (list nat) }.

(** Inner loops of CreateHessianGraph, parameter_block_ordering.cc:143-155. *)
Fixpoint pairs (const : nat -> bool) (l : list nat) : list gop :=
  match l with
  | [] => []
  | j :: r => (if const j then [] else map (AddE j) (filter (fun k => negb (const k)) r)) ++ pairs const r
  end.
(** CreateHessianGraph, parameter_block_ordering.cc:125-159: the sequence of
    AddVertex / AddEdge calls it makes. *)
Definition hessian_ops (p : prog) : list gop :=
  map AddV (filter (fun b => negb (p_const p b)) (p_blocks p)) ++ flat_map (pairs (p_const p)) (p_res p).
Definition hessian_graph (p : prog) : option graph := grun (hessian_ops p) g_empty.

(** ComputeStableSchurOrdering, parameter_block_ordering.cc:49-79. *)
Definition stable_schur_ordering (p : prog) : option (list nat * nat) :=
  match hessian_graph p with
  | None => None
  | Some g =>
      match stable_independent_set_ordering g (filter (fun b => mem b (g_v g)) (p_blocks p)) with
      | None => None
      | Some (o, k) => Some (o ++ filter (p_const p) (p_blocks p), k)
      end
  end.

(** ComputeSchurOrdering, parameter_block_ordering.cc:81-99. *)
Definition schur_ordering (p : prog) : option (list nat * nat) :=
  match hessian_graph p with
  | None => None
  | Some g =>
      match independent_set_ordering g with
      | None => None
      | Some (o, k) => Some (o ++ filter (p_const p) (p_blocks p), k)
      end
  end.

(** The body of the loop of ComputeRecursiveIndependentSetOrdering,
    parameter_block_ordering.cc:115-119, for the blocks of one round.  The
    block's address is its number. *)
Fixpoint take_round (bs : list nat) (round : Z) (g : graph) (o : og) : option (graph * og) :=
  match bs with
  | [] => Some (g, o)
  | b :: bs' =>
      match remove_vertex b g with
      | None => None
      | Some (g', _) => take_round bs' round g' (fst (add_element (Z.of_nat b) round o))
      end
  end.

Inductive rec_result := RDone (o : og) | RAbort | RRunning.
(** The while loop, lines 111-122; [RRunning]: not finished after [fuel]
    iterations. *)
Fixpoint rec_loop (fuel : nat) (total covered : nat) (round : Z) (g : graph) (o : og) : rec_result :=
  if total <=? covered then RDone o
  else
    match fuel with
    | O => RRunning
    | S fuel' =>
        match independent_set_ordering g with
        | None => RAbort
        | Some (ord, k) =>
            match take_round (firstn k ord) round g o with
            | None => RAbort
            | Some (g', o') => rec_loop fuel' total (covered + k) (round + 1)%Z g' o'
            end
        end
    end.

(** ComputeRecursiveIndependentSetOrdering, lines 101-123. *)
Definition recursive_ordering (fuel : nat) (p : prog) : rec_result :=
  match hessian_graph p with
  | None => RAbort
  | Some g => rec_loop fuel (length (p_blocks p)) 0 0%Z g og_empty
  end.
