(* C71: theorems. *)
From Coq Require Import Reals List Arith Bool Lia Lra Permutation.
From Verif Require Import GraphModel ForestModel ForestSpec ForestProofs VisModel VisSpec VisProofs VisProofs2 VisProofs3 VisProofs4.
Import ListNotations.
Open Scope nat_scope.

(* the visibility of f-block c is the sorted set of the e-blocks it shares a row block with; rows
   without an e-block do not count *)
Theorem compute_visibility num_cols E rows :
  (forall r, In r rows -> r <> [] /\ forall p cells, r = p :: cells -> p < E -> forall c, In c cells -> E <= c < num_cols) ->
  exists visibility, ComputeVisibility num_cols E rows = Some visibility /\ length visibility = num_cols - E /\ all_increasing visibility /\
    forall c p, In p (nth c visibility []) <-> sees E rows c p.
Proof.
  intro H. unfold ComputeVisibility. destruct (visit_spec E num_cols rows (repeat [] (num_cols - E)) (repeat_length _ _) H) as [vis [E1 [E2 [E3 E4]]]].
  assert (forall c, nth c (repeat (@nil nat) (num_cols - E)) [] = []) as Z by (intro c; generalize (num_cols - E) as n; revert c; clear; intros c n; revert c; induction n as [|n IH]; intros [|c]; cbn; auto).
  exists vis. split; [exact E1|]. split; [exact E2|]. split; [apply E3; intro i; rewrite Z; exact I|]. intros c p. rewrite E4, Z. cbn [In]. tauto.
Qed.
Print Assumptions compute_visibility.
Example visibility_example : ComputeVisibility 4 2 [[1; 2; 3]; [0; 3]; [0]; [1; 3]; [2; 3]] = Some [[1]; [0; 1]].
Proof. reflexivity. Qed.

(* the graph of the cameras: every camera is a vertex of weight one with a loop of weight one; two
   cameras are joined if they see a common point, and the weight is the cosine of their visibility *)
Theorem schur_complement_graph order visibility : all_increasing visibility -> (forall l, Permutation (order l) l) ->
  exists g, CreateSchurComplementGraph order visibility = Some g /\ graph_ok g /\
    (forall v, In v (vertices g) <-> v < length visibility) /\ (forall v, v < length visibility -> vw g v = Some 1%R) /\
    (forall i j, In j (Neighbors g i) <-> i < length visibility /\ j < length visibility /\ (i = j \/ common visibility i j <> [])) /\
    (forall i, i < length visibility -> EdgeWeight g i i = 1%R) /\
    (forall i j, i < length visibility -> j < length visibility -> i <> j ->
       EdgeWeight g i j = (INR (length (common visibility i j)) / sqrt (INR (length (nth i visibility []) * length (nth j visibility []))))%R) /\
    (forall i j, In j (Neighbors g i) -> (0 < EdgeWeight g i j <= 1)%R).
Proof.
  intros AI HO. destruct (schur_graph_spec order visibility AI HO) as [g [E [OK [A [B [C [D F]]]]]]]. exists g. split; [exact E|]. split; [exact OK|]. split; [exact A|]. split; [exact B|]. split; [exact C|]. split; [exact D|]. split; [exact F|].
  intros i j HN. apply C in HN. destruct HN as [Hi [Hj HC]]. destruct (Nat.eq_dec i j) as [->|N]; [rewrite D by exact Hj; lra|]. destruct HC as [->|HC]; [congruence|]. rewrite F by assumption. fold (similar visibility i j). pose proof (similar_range visibility i j AI). pose proof (similar_pos visibility i j AI HC). lra.
Qed.
Print Assumptions schur_complement_graph.
Definition cameras : list (list nat) := [[0; 1]; [0; 1]; [2]].
Lemma cameras_increasing : all_increasing cameras.
Proof. intros [|[|[|[|i]]]]; cbn [cameras nth increasing]; repeat split; intros y H; cbn [In] in H; lia. Qed.
Example graph_example : exists g, CreateSchurComplementGraph (fun l => l) cameras = Some g /\ EdgeWeight g 0 1 = 1%R /\ EdgeWeight g 1 2 = 0%R.
Proof.
  destruct (schur_complement_graph (fun l => l) cameras cameras_increasing (fun l => Permutation_refl l)) as [g [E [_ [_ [_ [_ [_ [F _]]]]]]]]. exists g. split; [exact E|].
  rewrite !F by (cbn; lia). cbn. replace ((1 + 1 + 1 + 1))%R with (2 * 2)%R by lra. rewrite sqrt_square by lra. split; lra.
Qed.

(* single linkage: clusters are the components of the edges of at least the given weight, named by
   their least vertex; the number returned is the number of clusters *)
Theorem single_linkage s order g : graph_ok g -> (forall l, Permutation (order l) l) -> exists n m, ComputeSingleLinkageClustering s order g = Some (n, m) /\
  (forall v, ~ In v (vertices g) -> m v = None) /\
  (forall v, In v (vertices g) -> exists c, m v = Some c /\ path (strong s g) v c /\ forall u, path (strong s g) v u -> c <= u) /\
  (forall a b, In a (vertices g) -> In b (vertices g) -> (m a = m b <-> path (strong s g) a b)) /\
  exists reps, NoDup reps /\ length reps = n /\ forall c, In c reps <-> exists v, In v (vertices g) /\ m v = Some c.
Proof. intros OK HO. apply single_spec; assumption. Qed.
Print Assumptions single_linkage.

(* canonical views: the centers are distinct vertices, at least min_views of them (or all); each was
   the best choice given the earlier ones, and after min_views an improvement; none is left that would
   improve; every vertex belongs to the cluster of the most similar center, and to none if it is
   similar to none.  lowest, minus the largest double, is below every difference *)
Theorem canonical_views o g lowest order : graph_ok g -> (forall v, In v (vertices g) -> vw g v <> None) ->
  (forall C u, incl C (vertices g) -> NoDup C -> In u (vertices g) -> (lowest < objective o g (C ++ [u]) - objective o g C)%R) ->
  (forall l, Permutation (order l) l) ->
  exists C m, ComputeCanonicalViewsClustering o g lowest order = Some (C, m) /\
    NoDup C /\ incl C (vertices g) /\ Nat.min (min_views o) (length (vertices g)) <= length C /\
    (forall C1 c C2, C = C1 ++ c :: C2 ->
       (forall u, In u (vertices g) -> ~ In u C1 -> (objective o g (C1 ++ [u]) <= objective o g (C1 ++ [c]))%R) /\
       (min_views o <= length C1 -> (objective o g C1 < objective o g (C1 ++ [c]))%R)) /\
    (forall u, In u (vertices g) -> ~ In u C -> (objective o g (C ++ [u]) <= objective o g C)%R) /\
    forall v, In v (vertices g) -> exists id, m v = Some id /\ match id with None => forall c, In c C -> (EdgeWeight g v c <= 0)%R | Some k => closest g C v k end.
Proof. intros OK FIN LOW HO. exact (canonical_spec o g lowest OK FIN LOW order HO). Qed.
Print Assumptions canonical_views.

(* the clusters are numbered densely: ids of the clusters are below the number of clusters, and two
   cameras share one exactly if the clustering put them together (a camera without a cluster goes to
   the one given by its number) *)
Theorem flatten_membership num_blocks n U (id : nat -> option nat) cams : NoDup U -> length U <= n -> 0 < n -> NoDup cams -> (forall v, In v cams <-> v < num_blocks) ->
  (forall v, v < num_blocks -> In (effective n (v, id v)) U) ->
  exists membership, FlattenMembershipMap num_blocks n (map (fun v => (v, id v)) cams) = Some membership /\ length membership = num_blocks /\
    (forall v, v < num_blocks -> exists k, nth v membership None = Some k /\ k < n) /\
    (forall a b, a < num_blocks -> b < num_blocks -> (nth a membership None = nth b membership None <-> effective n (a, id a) = effective n (b, id b))) /\
    ((forall u, In u U -> exists v, v < num_blocks /\ effective n (v, id v) = u) -> forall k, k < length U -> exists v, v < num_blocks /\ nth v membership None = Some k).
Proof. apply flatten_all. Qed.
Print Assumptions flatten_membership.
Example flatten_example : FlattenMembershipMap 4 2 [(3, Some 7); (1, None); (0, Some 7); (2, Some 1)] = Some [Some 0; Some 1; Some 1; Some 0].
Proof. reflexivity. Qed.

(* the preconditioner's clusters, SINGLE_LINKAGE *)
Theorem cluster_cameras_single_linkage lowest order1 order2 order3 visibility : visibility <> [] -> all_increasing visibility ->
  (forall l, Permutation (order1 l) l) -> (forall l, Permutation (order2 l) l) -> (forall l, Permutation (order3 l) l) ->
  exists n membership, ClusterCameras true lowest order1 order2 order3 visibility = Some (n, membership) /\ length membership = length visibility /\
    (forall v, v < length visibility -> exists k, nth v membership None = Some k /\ k < n) /\
    (forall k, k < n -> exists v, v < length visibility /\ nth v membership None = Some k) /\
    forall a b, a < length visibility -> b < length visibility -> (nth a membership None = nth b membership None <-> path (near visibility) a b).
Proof. apply cluster_single. Qed.
Print Assumptions cluster_cameras_single_linkage.
(* two cameras that see the same points are together, the third, which sees another, is not *)
Example single_example lowest : exists n membership, ClusterCameras true lowest (fun l => l) (fun l => rev l) (fun l => l) cameras = Some (n, membership) /\
  nth 0 membership None = nth 1 membership None /\ nth 0 membership None <> nth 2 membership None.
Proof.
  destruct (cluster_cameras_single_linkage lowest (fun l => l) (fun l => rev l) (fun l => l) cameras ltac:(discriminate) cameras_increasing (fun l => Permutation_refl l) (fun l => Permutation_sym (Permutation_rev l)) (fun l => Permutation_refl l)) as [n [m [E [_ [_ [_ P]]]]]].
  exists n, m. split; [exact E|]. split.
  - apply P; [cbn; lia|cbn; lia|]. apply path_one. split; [cbn; lia|]. split; [cbn; lia|]. right. split; [cbn; discriminate|]. unfold similar. cbn. replace (1 + 1 + 1 + 1)%R with (2 * 2)%R by lra. rewrite sqrt_square by lra. lra.
  - intro EQ. apply P in EQ; [|cbn; lia|cbn; lia].
    assert (forall a b, path (near cameras) a b -> a <> 2 -> b <> 2) as K; [|exact (K 0 2 EQ ltac:(lia) eq_refl)].
    intros a b PT. induction PT as [a|a b c [LA [LB ST]] PT IH]; [auto|]. intro NA. apply IH. intros ->. destruct ST as [->|[CM _]]; [congruence|]. cbn [length cameras] in LA. destruct a as [|[|[|a]]]; [apply CM; reflexivity|apply CM; reflexivity|congruence|lia].
Qed.

(* the preconditioner's clusters, CANONICAL_VIEWS *)
Theorem cluster_cameras_canonical_views lowest order1 order2 order3 visibility : (lowest < -3)%R -> visibility <> [] -> all_increasing visibility ->
  (forall l, Permutation (order1 l) l) -> (forall l, Permutation (order2 l) l) -> (forall l, Permutation (order3 l) l) ->
  exists g C m membership, ClusterCameras false lowest order1 order2 order3 visibility = Some (length C, membership) /\ CreateSchurComplementGraph order1 visibility = Some g /\
    ComputeCanonicalViewsClustering (mkoptions 3 3 0 0) g lowest order2 = Some (C, m) /\ Nat.min 3 (length visibility) <= length C /\
    length membership = length visibility /\
    (forall v, v < length visibility -> exists k, nth v membership None = Some k /\ k < length C) /\
    forall a b ia ib, a < length visibility -> b < length visibility -> m a = Some ia -> m b = Some ib ->
      (nth a membership None = nth b membership None <-> effective (length C) (a, ia) = effective (length C) (b, ib)).
Proof. apply cluster_canonical. Qed.
Print Assumptions cluster_cameras_canonical_views.
Example canonical_example : exists g C m membership, ClusterCameras false (-1000) (fun l => l) (fun l => rev l) (fun l => l) cameras = Some (length C, membership) /\
  ComputeCanonicalViewsClustering (mkoptions 3 3 0 0) g (-1000) (fun l => rev l) = Some (C, m) /\ 3 <= length C.
Proof.
  destruct (cluster_cameras_canonical_views (-1000) (fun l => l) (fun l => rev l) (fun l => l) cameras ltac:(lra) ltac:(discriminate) cameras_increasing (fun l => Permutation_refl l) (fun l => Permutation_sym (Permutation_rev l)) (fun l => Permutation_refl l)) as [g [C [m [mem [A [_ [B [D _]]]]]]]].
  exists g, C, m, mem. auto.
Qed.

(* a view of invalid weight (NaN) is said to be ignored; NaN != NaN, so it is a candidate all the
   same, and when the valid ones run out before min_views centers are chosen the CHECK fails *)
Definition one_invalid : wg := AddVertex 1 None (AddVertex 0 (Some 1%R) empty).
Theorem invalid_views_refuted lowest order : (lowest < -1)%R -> (forall l, Permutation (order l) l) ->
  graph_ok one_invalid /\ In 1 (FindValidViews one_invalid) /\ vw one_invalid 1 = None /\ ComputeCanonicalViewsClustering (mkoptions 2 1 0 0) one_invalid lowest order = None.
Proof.
  intros LO HO. split; [apply wok_ok; apply wok_add_vertex; apply wok_add_vertex; exact wok_empty|]. split; [left; reflexivity|]. split; [reflexivity|].
  unfold ComputeCanonicalViewsClustering. replace (FindValidViews one_invalid) with [1; 0] by reflexivity. cbn [length choose].
  assert (Rltb lowest (0 * 1 - 1) = true) as LT by (apply Rltb_true; lra).
  assert (best (mkoptions 2 1 0 0) one_invalid (mka (fun _ => None) (fun _ => None)) [] lowest (order [1; 0]) = ((0 * 1 - 1)%R, 0)) as B.
  { destruct (Permutation_length_2_inv (Permutation_sym (HO [1; 0]))) as [-> | ->]; unfold best, ComputeClusteringQualityDifference; cbn [fold_left one_invalid AddVertex vw Nat.eqb fst view_score_weight size_penalty_weight]; change (Neighbors _ 0) with (@nil nat); cbn [fold_left]; rewrite LT; reflexivity. }
  rewrite B, LT. cbn [negb min_views Nat.leb]. rewrite andb_false_r. cbn [filter Nat.eqb negb app].
  replace (order [1]) with [1] by (symmetry; apply Permutation_length_1_inv; apply Permutation_sym; apply HO).
  unfold best, ComputeClusteringQualityDifference. cbn [fold_left one_invalid AddVertex vw Nat.eqb].
  replace (Rltb lowest lowest) with false by (symmetry; apply Rltb_false; lra). reflexivity.
Qed.
Print Assumptions invalid_views_refuted.
