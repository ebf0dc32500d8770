(* Model for C72: internal/ceres/visibility_based_preconditioner.cc.  The visibility of the cameras
   and their clusters are those of VisModel (C71), the forest is that of ForestModel (C22).  Scalars
   are real. *)
From Coq Require Import Reals List Arith Bool ZArith.
From Verif Require Import GraphModel ForestModel VisModel.
Import ListNotations.
Open Scope nat_scope.

(* cluster_membership_[block]; the blocks are below num_blocks_, so the index is in range *)
Definition cluster_of (membership : list nat) (block : nat) : nat := nth block membership 0.
Definition has_pair (pairs : list (nat * nat)) (a b : nat) : bool := existsb (fun p => (fst p =? a) && (snd p =? b)) pairs.
(* 447-455 *)
Definition IsBlockPairInPreconditioner (membership : list nat) (cluster_pairs : list (nat * nat)) (block1 block2 : nat) : bool :=
  let cluster1 := cluster_of membership block1 in
  let cluster2 := cluster_of membership block2 in
  if cluster2 <? cluster1 then has_pair cluster_pairs cluster2 cluster1 else has_pair cluster_pairs cluster1 cluster2.
(* 457-460 *)
Definition IsBlockPairOffDiagonal (membership : list nat) (block1 block2 : nat) : bool :=
  negb (cluster_of membership block1 =? cluster_of membership block2).

(* 125-128, CLUSTER_JACOBI *)
Definition JacobiClusterPairs (num_clusters : nat) : list (nat * nat) := map (fun i => (i, i)) (seq 0 num_clusters).
(* 490-502 *)
Definition ComputeClusterVisibility (num_blocks num_clusters : nat) (membership : list nat) (visibility : list (list nat)) : list (list nat) :=
  fold_left (fun cv i => update cv (cluster_of membership i) (fun s => fold_left (fun s p => sinsert p s) (nth i visibility []) s))
    (seq 0 num_blocks) (repeat [] num_clusters).
(* 521-526 std::set_intersection of two sorted sets *)
Definition intersection (a b : list nat) : list nat := filter (fun p => existsb (Nat.eqb p) b) a.
(* the weight one in the encoding of ForestModel *)
Definition one : Z := (2 ^ 1074)%Z.
(* 507-538; AddVertex(i) has weight 1.0 (graph.h 116-118) *)
Definition cluster_graph_ops (num_clusters : nat) (cv : list (list nat)) : list wop :=
  map (fun i => WAddV i one) (seq 0 num_clusters) ++
  flat_map (fun i => flat_map (fun j => match length (intersection (nth i cv []) (nth j cv [])) with
                                        | 0 => []
                                        | S k => [WAddE i j (Z.of_nat (S k) * one)]
                                        end) (seq (i + 1) (num_clusters - (i + 1)))) (seq 0 num_clusters).
Definition CreateClusterGraph (num_clusters : nat) (cv : list (list nat)) : option wgraph := wrun (cluster_graph_ops num_clusters cv) w_empty.
(* 464-486; None: the CHECK_EQ fails *)
Definition ForestToClusterPairs (num_clusters : nat) (forest : wgraph) : option (list (nat * nat)) :=
  if length (nodup Nat.eq_dec (g_v (w_g forest))) =? num_clusters
  then Some (flat_map (fun cluster1 => (cluster1, cluster1) ::
                         map (fun cluster2 => (cluster1, cluster2)) (filter (fun cluster2 => cluster1 <? cluster2) (at_ (g_e (w_g forest)) cluster1)))
               (g_v (w_g forest)))
  else None.
(* 137-157 after ClusterCameras *)
Definition TridiagonalClusterPairs (num_blocks num_clusters : nat) (membership : list nat) (visibility : list (list nat)) : option (list (nat * nat)) :=
  match CreateClusterGraph num_clusters (ComputeClusterVisibility num_blocks num_clusters membership visibility) with
  | None => None
  | Some g => match degree2_forest g with None => None | Some forest => ForestToClusterPairs num_clusters forest end
  end.

(* 264-269; None: CHECK_GE fails *)
Fixpoint insert_cells (E : nat) (cells : list nat) (f_blocks : list nat) : option (list nat) :=
  match cells with
  | [] => Some f_blocks
  | c :: cells' => if c <? E then None else insert_cells E cells' (sinsert (c - E) f_blocks)
  end.
(* 255-270: the rows from here on that start with e_block_id; the rows left *)
Fixpoint take_run (E e_block_id : nat) (rows : list (list nat)) (f_blocks : list nat) : option (list nat * list (list nat)) :=
  match rows with
  | [] => Some (f_blocks, [])
  | [] :: _ => None
  | (b :: cells) :: rows' =>
    if negb (b =? e_block_id) then Some (f_blocks, rows)
    else match insert_cells E cells f_blocks with None => None | Some f_blocks' => take_run E e_block_id rows' f_blocks' end
  end.
(* 247-281; fuel: every pass consumes a row.  Gives the pairs inserted and the rows left *)
Fixpoint point_pairs (fuel E : nat) (keep : nat -> nat -> bool) (rows : list (list nat)) (block_pairs : list (nat * nat)) : option (list (nat * nat) * list (list nat)) :=
  match fuel with
  | 0 => Some (block_pairs, rows)
  | S fuel' =>
    match rows with
    | [] => Some (block_pairs, [])
    | [] :: _ => None
    | (e_block_id :: cells) :: _ =>
      if E <=? e_block_id then Some (block_pairs, rows)
      else match take_run E e_block_id rows [] with
           | None => None
           | Some (f_blocks, rows') => point_pairs fuel' E keep rows' (block_pairs ++ filter (fun p => keep (fst p) (snd p)) (pairs f_blocks))
           end
    end
  end.
(* 284-298 *)
Fixpoint camera_pairs (E : nat) (keep : nat -> nat -> bool) (rows : list (list nat)) (block_pairs : list (nat * nat)) : option (list (nat * nat)) :=
  match rows with
  | [] => Some block_pairs
  | [] :: _ => None
  | (b :: cells) :: rows' =>
    if b <? E then None
    else camera_pairs E keep rows'
           (block_pairs ++ flat_map (fun c1 => flat_map (fun c2 => if ((c1 - E) <=? (c2 - E)) && keep (c1 - E) (c2 - E) then [(c1 - E, c2 - E)] else []) (b :: cells)) (b :: cells))
  end.
(* 229-301 *)
Definition ComputeBlockPairsInPreconditioner (num_blocks E : nat) (membership : list nat) (cluster_pairs : list (nat * nat)) (rows : list (list nat)) : option (list (nat * nat)) :=
  let keep := IsBlockPairInPreconditioner membership cluster_pairs in
  match point_pairs (length rows) E keep rows (map (fun i => (i, i)) (seq 0 num_blocks)) with
  | None => None
  | Some (block_pairs, rows') => camera_pairs E keep rows' block_pairs
  end.

(* the cells of m_: cell block1 block2 row column *)
Definition cells := nat -> nat -> nat -> nat -> R.
(* 374-398 *)
Definition ScaleOffDiagonalCells (membership : list nat) (block_pairs : list (nat * nat)) (m : cells) : cells :=
  fun i j r c => if has_pair block_pairs i j && IsBlockPairOffDiagonal membership i j then (m i j r c * / 2)%R else m i j r c.
Inductive status := SUCCESS | FAILURE | FATAL_ERROR.
(* 320-366; eliminated: the cells after Eliminate; factorize: the outcome of the first (0) and second
   (1) factorization.  Gives the result and the cells *)
Definition UpdateImpl (tridiagonal : bool) (membership : list nat) (block_pairs : list (nat * nat)) (eliminated : cells) (factorize : nat -> cells -> status) : bool * cells :=
  match factorize 0 eliminated with
  | FATAL_ERROR => (false, eliminated)
  | SUCCESS => (true, eliminated)
  | FAILURE =>
    if tridiagonal
    then let m := ScaleOffDiagonalCells membership block_pairs eliminated in
         (match factorize 1 m with SUCCESS => true | _ => false end, m)
    else (false, eliminated)
  end.
