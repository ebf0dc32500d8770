(** Model of WeightedGraph (internal/ceres/graph.h:101-204) and of
    Degree2MaximumSpanningForest (internal/ceres/graph_algorithms.h:223-339).
    Vertices are numbers.  Edge and vertex weights are finite doubles; they are
    stored and compared only, so they are represented by the integer
    weight * 2^1074, an exact and order preserving encoding. *)
Require Import List Arith Bool ZArith.
From Verif Require Import GraphModel.
Import ListNotations.
Open Scope nat_scope.

(** graph.h:200-203: [w_g] is vertices_ and edges_, which behave as in Graph
    (the lines 110-113, 122-139, 151-153 repeat Graph's); [w_vw]
    vertex_weights_; [w_ew] edge_weights_, keyed by ordered pairs. *)
Record wgraph := mkW { w_g : graph; w_vw : fmap Z; w_ew : nat -> nat -> option Z }.
Definition w_empty : wgraph := mkW g_empty (fun _ => None) (fun _ _ => None).

Definition ewput (m : nat -> nat -> option Z) (a b : nat) (x : option Z) : nat -> nat -> option Z :=
  fun c d => if (c =? a) && (d =? b) then x else m c d.
(** The key choice of lines 129-133 and 155-159. *)
Definition ewkey (m : nat -> nat -> option Z) (a b : nat) (x : option Z) : nat -> nat -> option Z :=
  if a <? b then ewput m a b x else ewput m b a x.

(** AddVertex, graph.h:108-114. *)
Definition wadd_vertex (v : nat) (x : Z) (w : wgraph) : wgraph :=
  mkW (add_vertex v (w_g w)) (fput (w_vw w) v (Some x)) (w_ew w).

(** RemoveVertex, graph.h:120-139. *)
Definition wremove_vertex (v : nat) (w : wgraph) : option (wgraph * bool) :=
  match remove_vertex v (w_g w) with
  | None => None
  | Some (g', false) => Some (w, false)
  | Some (g', true) =>
      Some (mkW g' (fput (w_vw w) v None)
              (fold_left (fun m s => ewkey m v s None) (at_ (g_e (w_g w)) v) (w_ew w)), true)
  end.

(** AddEdge, graph.h:147-160. *)
Definition wadd_edge (a b : nat) (x : Z) (w : wgraph) : option wgraph :=
  match add_edge a b (w_g w) with
  | None => None
  | Some g' => Some (mkW g' (w_vw w) (ewkey (w_ew w) a b (Some x)))
  end.

(** VertexWeight, graph.h:169-171 (FindOrDie), EdgeWeight, 177-185. *)
Definition vertex_weight (w : wgraph) (v : nat) : option Z := w_vw w v.
Definition edge_weight (w : wgraph) (a b : nat) : Z :=
  match (if a <? b then w_ew w a b else w_ew w b a) with Some x => x | None => 0%Z end.

Inductive wop := WAddV (v : nat) (x : Z) | WRemV (v : nat) | WAddE (a b : nat) (x : Z).
Definition wstep (o : wop) (w : wgraph) : option wgraph :=
  match o with
  | WAddV v x => Some (wadd_vertex v x w)
  | WRemV v => match wremove_vertex v w with Some (w', _) => Some w' | None => None end
  | WAddE a b x => wadd_edge a b x w
  end.
Fixpoint wrun (ops : list wop) (w : wgraph) : option wgraph :=
  match ops with [] => Some w | o :: ops' => match wstep o w with Some w' => wrun ops' w' | None => None end end.

(** FindConnectedComponent, graph_algorithms.h:229-239; the recursion follows
    parents, which never increase, so [fuel] = vertex + 1 is enough
    ([find_ok] in ForestProofs). *)
Fixpoint find_component (fuel : nat) (v : nat) (ds : fmap nat) : option (nat * fmap nat) :=
  match fuel with
  | O => None
  | S fuel' =>
      match ds v with
      | None => None
      | Some p =>
          if p =? v then Some (v, ds)
          else
            match find_component fuel' p ds with
            | None => None
            | Some (r, ds') => Some (r, fput ds' v (Some r))
            end
      end
  end.

(** pair<weight, pair<v1, v2>>, compared lexicographically. *)
Definition wedge := (Z * (nat * nat))%type.
Definition edge_gt (x y : wedge) : bool :=
  let '(wx, (ax, bx)) := x in let '(wy, (ay, by_)) := y in
  (wy <? wx)%Z || ((wy =? wx)%Z && ((ay <? ax) || ((ay =? ax) && (by_ <? bx)))).

(** Lines 274-289: the edges, each once. *)
Definition weighted_edges (w : wgraph) : list wedge :=
  flat_map (fun v1 => map (fun v2 => (edge_weight w v1 v2, (v1, v2)))
                        (filter (fun v2 => v1 <? v2) (at_ (g_e (w_g w)) v1))) (g_v (w_g w)).

(** Lines 274-277: vertices of the forest and the initial components. *)
Fixpoint init_forest (w : wgraph) (vs : list nat) (f : wgraph) (ds : fmap nat) : option (wgraph * fmap nat) :=
  match vs with
  | [] => Some (f, ds)
  | v :: r =>
      match vertex_weight w v, neighbors (w_g w) v with
      | Some x, Some _ => init_forest w r (wadd_vertex v x f) (fput ds v (Some v))
      | _, _ => None
      end
  end.

(** The loop of lines 298-337. *)
Fixpoint kruskal (w : wgraph) (es : list wedge) (f : wgraph) (ds : fmap nat) : option (wgraph * fmap nat) :=
  match es with
  | [] => Some (f, ds)
  | (_, (v1, v2)) :: r =>
      match neighbors (w_g f) v1, neighbors (w_g f) v2 with
      | Some n1, Some n2 =>
          if (length n1 =? 2) || (length n2 =? 2) then kruskal w r f ds
          else
            match find_component (S v1) v1 ds with
            | None => None
            | Some (r1, ds1) =>
                match find_component (S v2) v2 ds1 with
                | None => None
                | Some (r2, ds2) =>
                    if r1 =? r2 then kruskal w r f ds2
                    else
                      match wadd_edge v1 v2 (edge_weight w v1 v2) f with
                      | None => None
                      | Some f1 =>
                          match wadd_edge v2 v1 (edge_weight w v1 v2) f1 with
                          | None => None
                          | Some f2 =>
                              let ds3 := if r2 <? r1 then fput ds2 r1 (Some r2) else fput ds2 r2 (Some r1) in
                              kruskal w r f2 ds3
                          end
                      end
                end
            end
      | _, _ => None
      end
  end.

(** Degree2MaximumSpanningForest, lines 259-339.  std::sort on the reversed
    range leaves the vector in decreasing order. *)
Definition degree2_forest (w : wgraph) : option wgraph :=
  match init_forest w (g_v (w_g w)) w_empty (fun _ => None) with
  | None => None
  | Some (f, ds) =>
      match kruskal w (ssort edge_gt (weighted_edges w)) f ds with
      | Some (f', _) => Some f'
      | None => None
      end
  end.
