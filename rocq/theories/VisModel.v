(* Model for C71: visibility, clustering of the cameras.  Iteration orders of
   absl::flat_hash_map / flat_hash_set are arguments.  Scalars are real. *)
From Coq Require Import Reals List Arith Bool.
From Verif Require Import GraphModel ForestModel.
Import ListNotations.
Open Scope nat_scope.

(* ---------------------------------------------------------------- visibility.cc *)
(* absl::btree_set<int>: a strictly increasing list *)
Fixpoint sinsert (x : nat) (l : list nat) : list nat :=
  match l with
  | [] => [x]
  | y :: l' => if x <? y then x :: l else if x =? y then l else y :: sinsert x l'
  end.
Fixpoint update {A} (l : list A) (i : nat) (f : A -> A) : list A :=
  match l, i with
  | [], _ => []
  | x :: l', 0 => f x :: l'
  | x :: l', S i' => x :: update l' i' f
  end.
(* 64-69; a row block is the list of the block ids of its cells.  None: outside of the vector *)
Fixpoint see (num_eliminate_blocks block_id : nat) (cells : list nat) (visibility : list (list nat)) : option (list (list nat)) :=
  match cells with
  | [] => Some visibility
  | c :: cells' =>
    if (num_eliminate_blocks <=? c) && (c - num_eliminate_blocks <? length visibility)
    then see num_eliminate_blocks block_id cells' (update visibility (c - num_eliminate_blocks) (sinsert block_id))
    else None
  end.
(* 56-71; None also for a row block without cells *)
Fixpoint visit (num_eliminate_blocks : nat) (rows : list (list nat)) (visibility : list (list nat)) : option (list (list nat)) :=
  match rows with
  | [] => Some visibility
  | [] :: _ => None
  | (block_id :: cells) :: rows' =>
    if num_eliminate_blocks <=? block_id then visit num_eliminate_blocks rows' visibility
    else match see num_eliminate_blocks block_id cells visibility with
         | None => None
         | Some visibility' => visit num_eliminate_blocks rows' visibility'
         end
  end.
(* 48-72 *)
Definition ComputeVisibility (num_cols num_eliminate_blocks : nat) (rows : list (list nat)) : option (list (list nat)) :=
  visit num_eliminate_blocks rows (repeat [] (num_cols - num_eliminate_blocks)).

(* graph.h 104-203 WeightedGraph<int> with real weights; vertices and edges as in GraphModel;
   a vertex weight None is NaN *)
Record wg : Type := mkwg { topo : graph; vw : nat -> option R; ew : nat -> nat -> option R }.
Definition empty : wg := mkwg g_empty (fun _ => None) (fun _ _ => None).
(* 108-118 *)
Definition AddVertex (v : nat) (x : option R) (g : wg) : wg :=
  mkwg (add_vertex v (topo g)) (fun u => if u =? v then x else vw g u) (ew g).
(* 147-160 *)
Definition AddEdge (a b : nat) (x : R) (g : wg) : option wg :=
  match add_edge a b (topo g) with
  | None => None
  | Some t => Some (mkwg t (vw g) (fun c d => if a <? b then (if (c =? a) && (d =? b) then Some x else ew g c d)
                                                     else (if (c =? b) && (d =? a) then Some x else ew g c d)))
  end.
(* 177-185 *)
Definition EdgeWeight (g : wg) (a b : nat) : R :=
  match (if a <? b then ew g a b else ew g b a) with Some x => x | None => 0%R end.
(* 191-193; [] instead of the failing CHECK for a vertex that is not there *)
Definition Neighbors (g : wg) (v : nat) : list nat := at_ (g_e (topo g)) v.
Definition vertices (g : wg) : list nat := g_v (topo g).

(* 79-85: *visible.rbegin() is the last element *)
Definition num_points (visibility : list (list nat)) : nat :=
  fold_left (fun n s => match s with [] => n | _ => Nat.max n (last s 0 + 1) end) visibility 0.
(* 92-98 *)
Definition invert (visibility : list (list nat)) : list (list nat) :=
  fold_left (fun inv i => fold_left (fun inv v => update inv v (sinsert i)) (nth i visibility []) inv)
    (seq 0 (length visibility)) (repeat [] (num_points visibility)).
(* 105-114: the pairs (camera1, camera2) that are counted, in order *)
Fixpoint pairs (s : list nat) : list (nat * nat) :=
  match s with
  | [] => []
  | c1 :: s' => map (fun c2 => (c1, c2)) s' ++ pairs s'
  end.
Definition counted (visibility : list (list nat)) : list (nat * nat) := flat_map pairs (invert visibility).
Definition pair_dec (p q : nat * nat) : {p = q} + {p <> q}. Proof. decide equality; apply Nat.eq_dec. Defined.
(* 121-125 *)
Fixpoint add_vertices (is : list nat) (g : wg) : option wg :=
  match is with
  | [] => Some g
  | i :: is' => match AddEdge i i 1 (AddVertex i (Some 1%R) g) with None => None | Some g' => add_vertices is' g' end
  end.
(* 128-140 *)
Fixpoint add_pairs (visibility : list (list nat)) (keys : list (nat * nat)) (g : wg) : option wg :=
  match keys with
  | [] => Some g
  | (camera1, camera2) :: keys' =>
    match AddEdge camera1 camera2
            (INR (count_occ pair_dec (counted visibility) (camera1, camera2)) /
             sqrt (INR (length (nth camera1 visibility []) * length (nth camera2 visibility [])))) g with
    | None => None
    | Some g' => add_pairs visibility keys' g'
    end
  end.
(* 74-144; order: the iteration order of camera_pairs *)
Definition CreateSchurComplementGraph (order : list (nat * nat) -> list (nat * nat)) (visibility : list (list nat)) : option wg :=
  match add_vertices (seq 0 (length visibility)) empty with
  | None => None
  | Some g => add_pairs visibility (order (nodup pair_dec (counted visibility))) g
  end.

(* ------------------------------------------------- single_linkage_clustering.cc *)
Definition Rltb (a b : R) : bool := if Rlt_dec a b then true else false.
(* 55-80 the neighbors of vertex1 *)
Fixpoint link (min_similarity : R) (g : wg) (vertex1 : nat) (neighbors : list nat) (membership : fmap nat) : option (fmap nat) :=
  match neighbors with
  | [] => Some membership
  | vertex2 :: neighbors' =>
    if (vertex2 <? vertex1) || Rltb (EdgeWeight g vertex1 vertex2) min_similarity
    then link min_similarity g vertex1 neighbors' membership
    else match find_component (S vertex1) vertex1 membership with
         | None => None
         | Some (c1, membership1) =>
           match find_component (S vertex2) vertex2 membership1 with
           | None => None
           | Some (c2, membership2) =>
             link min_similarity g vertex1 neighbors'
               (if c1 =? c2 then membership2 else if c1 <? c2 then fput membership2 c2 (Some c1) else fput membership2 c1 (Some c2))
           end
         end
  end.
Fixpoint link_all (min_similarity : R) (g : wg) (vs : list nat) (membership : fmap nat) : option (fmap nat) :=
  match vs with
  | [] => Some membership
  | v :: vs' => match link min_similarity g v (Neighbors g v) membership with None => None | Some m => link_all min_similarity g vs' m end
  end.
(* 84-90 *)
Fixpoint settle (ms : list nat) (membership : fmap nat) (num_clusters : nat) : option (nat * fmap nat) :=
  match ms with
  | [] => Some (num_clusters, membership)
  | v :: ms' =>
    match find_component (S v) v membership with
    | None => None
    | Some (c, m) => settle ms' (fput m v (Some c)) (if v =? c then num_clusters + 1 else num_clusters)
    end
  end.
(* 41-93; order: the iteration order of membership *)
Definition ComputeSingleLinkageClustering (min_similarity : R) (order : list nat -> list nat) (g : wg) : option (nat * fmap nat) :=
  match link_all min_similarity g (vertices g) (fold_left (fun m v => fput m v (Some v)) (vertices g) (fun _ => None)) with
  | None => None
  | Some m => settle (order (vertices g)) m 0
  end.

(* ------------------------------------------------ canonical_views_clustering.cc *)
Record options : Type := mkoptions { min_views : nat; size_penalty_weight : R; similarity_penalty_weight : R; view_score_weight : R }.
(* 76-80 view_to_canonical_view_, view_to_canonical_view_similarity_ *)
Record assignment : Type := mka { canonical : nat -> option nat; similarity : nat -> option R }.
Definition old_similarity (a : assignment) (v : nat) : R := match similarity a v with Some x => x | None => 0%R end.
(* 139-147.  InvalidWeight() is NaN, and NaN != NaN holds: every view is valid *)
Definition neq (x y : option R) : bool :=
  match x, y with Some x, Some y => if Req_EM_T x y then false else true | _, _ => true end.
Definition FindValidViews (g : wg) : list nat := filter (fun v => neq (vw g v) None) (vertices g).
(* 150-181; None is NaN *)
Definition ComputeClusteringQualityDifference (o : options) (g : wg) (a : assignment) (candidate : nat) (centers : list nat) : option R :=
  match vw g candidate with
  | None => None
  | Some w =>
    let d := fold_left (fun d n => if Rltb (old_similarity a n) (EdgeWeight g n candidate) then (d + (EdgeWeight g n candidate - old_similarity a n))%R else d)
               (Neighbors g candidate) (view_score_weight o * w)%R in
    Some (fold_left (fun d c => (d - similarity_penalty_weight o * EdgeWeight g c candidate)%R) centers (d - size_penalty_weight o)%R)
  end.
(* 107-114 *)
Definition best (o : options) (g : wg) (a : assignment) (centers : list nat) (lowest : R) (valid : list nat) : R * nat :=
  fold_left (fun b view => match ComputeClusteringQualityDifference o g a view centers with
                           | None => b
                           | Some d => if Rltb (fst b) d then (d, view) else b
                           end) valid (lowest, 0).
(* 184-196 *)
Definition UpdateCanonicalViewAssignments (g : wg) (c : nat) (a : assignment) : assignment :=
  fold_left (fun a n => if Rltb (old_similarity a n) (EdgeWeight g n c)
                        then mka (fun v => if v =? n then Some c else canonical a v) (fun v => if v =? n then Some (EdgeWeight g n c) else similarity a v)
                        else a) (Neighbors g c) a.
(* 99-132 the loop; lowest is -numeric_limits<double>::max(); order: the iteration order of
   valid_views; fuel: one view is erased per pass.  None: the CHECK fails *)
Fixpoint choose (fuel : nat) (o : options) (g : wg) (lowest : R) (order : list nat -> list nat) (valid centers : list nat) (a : assignment) : option (list nat * assignment) :=
  match fuel with
  | 0 => Some (centers, a)
  | S fuel' =>
    match valid with
    | [] => Some (centers, a)
    | _ =>
      let '(best_difference, best_view) := best o g a centers lowest (order valid) in
      if negb (Rltb lowest best_difference) then None
      else if negb (Rltb 0 best_difference) && (min_views o <=? length centers) then Some (centers, a)
      else choose fuel' o g lowest order (filter (fun v => negb (v =? best_view)) valid) (centers ++ [best_view]) (UpdateCanonicalViewAssignments g best_view a)
    end
  end.
(* 199-222: center_to_cluster_id, a later entry overwrites *)
Fixpoint cluster_id (centers : list nat) (i : nat) (c : nat) : option nat :=
  match centers with
  | [] => None
  | c' :: centers' => match cluster_id centers' (S i) c with Some k => Some k | None => if c' =? c then Some i else None end
  end.
(* the id of a view; Some None is -1, None: FindOrDie fails *)
Definition ClusterMembership (centers : list nat) (a : assignment) (v : nat) : option (option nat) :=
  match canonical a v with
  | None => Some None
  | Some c => match cluster_id centers 0 c with None => None | Some k => Some (Some k) end
  end.
Definition ComputeCanonicalViewsClustering (o : options) (g : wg) (lowest : R) (order : list nat -> list nat) : option (list nat * (nat -> option (option nat))) :=
  match choose (length (FindValidViews g)) o g lowest order (FindValidViews g) [] (mka (fun _ => None) (fun _ => None)) with
  | None => None
  | Some (centers, a) => if forallb (fun v => match ClusterMembership centers a v with None => false | Some _ => true end) (vertices g)
                         then Some (centers, ClusterMembership centers a) else None
  end.

(* ------------------------------------------- visibility_based_preconditioner.cc *)
(* 540-577; map: the entries (camera, cluster id) in iteration order, an id None is -1.
   index: cluster_id_to_index, filled so far with [used] ids.  None: a CHECK fails, at() throws or
   camera % 0 *)
Fixpoint flatten (num_clusters : nat) (map : list (nat * option nat)) (index : fmap nat) (used : nat) (membership : list (option nat)) : option (list (option nat)) :=
  match map with
  | [] => Some membership
  | (camera, id) :: map' =>
    if num_clusters =? 0 then None else
    let cluster := match id with None => camera mod num_clusters | Some c => c end in
    let i := match index cluster with Some i => i | None => used end in
    let '(index', used') := if i =? used then (fput index cluster (Some i), match index cluster with Some _ => used | None => used + 1 end) else (index, used) in
    if (i <? num_clusters) && (camera <? length membership)
    then flatten num_clusters map' index' used' (update membership camera (fun _ => Some i))
    else None
  end.
Definition FlattenMembershipMap (num_blocks num_clusters : nat) (map : list (nat * option nat)) : option (list (option nat)) :=
  flatten num_clusters map (fun _ => None) 0 (repeat None num_blocks).
(* 183-213 ClusterCameras: num_clusters_ and cluster_membership_.  single: SINGLE_LINKAGE, otherwise
   CANONICAL_VIEWS.  The three orders are those of camera_pairs, of the vertices (valid_views,
   membership) and of the membership map that is flattened *)
Definition ClusterCameras (single : bool) (lowest : R) (order1 : list (nat * nat) -> list (nat * nat)) (order2 order3 : list nat -> list nat)
    (visibility : list (list nat)) : option (nat * list (option nat)) :=
  match CreateSchurComplementGraph order1 visibility with
  | None => None
  | Some g =>
    match (if single
           then match ComputeSingleLinkageClustering (9 / 10) order2 g with
                | None => None
                | Some (n, m) => Some (n, map (fun v => (v, m v)) (order3 (vertices g)))
                end
           else match ComputeCanonicalViewsClustering (mkoptions 3 3 0 0) g lowest order2 with
                | None => None
                | Some (centers, m) => Some (length centers, map (fun v => (v, match m v with Some id => id | None => None end)) (order3 (vertices g)))
                end) with
    | None => None
    | Some (n, entries) =>
      if n =? 0 then None
      else match FlattenMembershipMap (length visibility) n entries with None => None | Some membership => Some (n, membership) end
    end
  end.
