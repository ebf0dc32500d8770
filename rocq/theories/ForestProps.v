(** WeightedGraph and Degree2MaximumSpanningForest: properties C56 and C22. *)
Require Import List Arith Bool Lia ZArith.
From Verif Require Import GraphModel GraphSpec GraphProofs GraphProofs2 ForestModel ForestSpec ForestProofs ForestProofs2.
Import ListNotations.
Open Scope nat_scope.

(** C56 for WeightedGraph: after any sequence of calls the interface allows,
    vertices, neighbours and weights are those of the history; the weight of a
    pair that is not an edge is zero, also after RemoveVertex. *)
Theorem weighted_graph_refines : forall ops,
  let h := rev ops in
  match wrun ops w_empty with
  | Some w =>
      allowed (map plain h) /\
      (forall v, In v (g_v (w_g w)) <-> has_v (map plain h) v) /\
      (forall v, match neighbors (w_g w) v with
                 | Some l => has_v (map plain h) v /\ NoDup l /\ forall u, In u l <-> has_e (map plain h) v u
                 | None => ~ has_v (map plain h) v end) /\
      (forall v, vertex_weight w v = vweight_of h v /\ (vweight_of h v = None <-> ~ has_v (map plain h) v)) /\
      (forall a b, edge_weight w a b = match eweight_of h a b with Some x => x | None => 0%Z end /\
                   (eweight_of h a b = None <-> ~ has_e (map plain h) a b))
  | None => ~ allowed (map plain h)
  end.
Proof.
  intros ops h. pose proof (wrun_rep ops [] w_empty wrep_empty I) as G. rewrite app_nil_r in G. fold h in G.
  destruct (wrun ops w_empty) as [w|]; [|auto]. destruct G as [[[GI [GV GE]] [VW [VN [EW EN]]]] A].
  split; auto. split; auto. split; [|split].
  - intros x. unfold neighbors. destruct (g_e (w_g w) x) as [l|] eqn:E.
    + split; [apply GV; apply (gi_dom _ GI); congruence|]. pose proof (gi_set _ GI x) as N. unfold at_ in N. rewrite E in N. split; auto.
      intros y. rewrite <- GE. unfold adj, at_. rewrite E. tauto.
    + rewrite <- GV. intros X. apply (gi_dom _ GI) in X. congruence.
  - intros v. split; [apply VW|]. rewrite <- VW, <- GV, <- VN. destruct (w_vw w v); split; try congruence; try tauto.
    intros H. exfalso. apply H. congruence.
  - intros a b. rewrite edge_weight_get, EW. split; auto. rewrite <- GE, <- EN, EW. destruct (eweight_of h a b); split; try congruence; try tauto.
    intros H. exfalso. apply H. congruence.
Qed.
Print Assumptions weighted_graph_refines.

(** Edges of a graph, through its interface. *)
Definition joined (w : wgraph) (a b : nat) : Prop := exists l, neighbors (w_g w) a = Some l /\ In b l.
Lemma joined_adj : forall w a b, joined w a b <-> adj (w_g w) a b.
Proof.
  intros w a b. unfold joined, neighbors, adj, at_. split.
  - intros [l [-> H]]. auto.
  - destruct (g_e (w_g w) a) as [l|]; [eauto|intros []].
Qed.

(** Edges of [f] at least as heavy as [x]. *)
Definition joined_above (f : wgraph) (x : Z) (a b : nat) : Prop := joined f a b /\ (x <= edge_weight f a b)%Z.

(** C22, for the graph built by any sequence of calls.  The last clause is the
    greedy maximality: an edge is left out only if one of its ends already has
    two edges of the result which are at least as heavy, or its ends are
    joined by a path of such edges. *)
Theorem degree2_forest_correct : forall ops w, wrun ops w_empty = Some w ->
  exists f, degree2_forest w = Some f /\
    (forall v, In v (g_v (w_g f)) <-> In v (g_v (w_g w))) /\
    (forall v, vertex_weight f v = vertex_weight w v) /\
    (forall a b, joined f a b -> joined f b a) /\
    (forall a b, joined f a b -> joined w a b /\ edge_weight f a b = edge_weight w a b) /\
    at_most_two (joined f) /\
    acyclic (joined f) /\
    (forall a b, joined w a b -> a <> b ->
       joined f a b \/
       (exists v c d, (v = a \/ v = b) /\ c <> d /\ joined_above f (edge_weight w a b) v c /\ joined_above f (edge_weight w a b) v d) \/
       path (joined_above f (edge_weight w a b)) a b).
Proof.
  intros ops w H. pose proof (wrun_rep ops [] w_empty wrep_empty I) as G. rewrite H in G.
  destruct G as [[[GI _] [_ [VN _]]] _].
  destruct (forest_ok w GI (fun v => proj2 (VN v))) as [f [ds [E [K EX]]]]. exists f. split; auto.
  destruct K as [KG KV KS KW KVW KZ KD KA _ _].
  split; [exact KV|]. split.
  { intros v. unfold vertex_weight. rewrite KVW. destruct (in_dec _ v _) as [|N]; auto.
    destruct (w_vw w v) eqn:Q; auto. elim N. apply VN. congruence. }
  split; [intros a b; rewrite !joined_adj; apply (gi_sym _ KG)|].
  split; [intros a b; rewrite !joined_adj; auto|].
  split.
  { intros v a b c. rewrite !joined_adj. unfold adj. intros A B C. pose proof (KD v) as L.
    destruct (at_ (g_e (w_g f)) v) as [|p [|q [|r l]]]; simpl in *; try lia; intuition congruence. }
  split.
  { intros a b J P. apply joined_adj in J. apply (KA a b J). eapply path_mono; [|exact P].
    intros x y [X Y]. split; auto. apply joined_adj; auto. }
  assert (HJ : forall x p q, heavy w f x p q -> joined_above f x p q).
  { intros x p q [P Q]. split; [apply joined_adj; auto|]. rewrite KW; auto. }
  intros a b J N. apply joined_adj in J. destruct (EX a b J N) as [X|[[v [c [d [D [N' [P Q]]]]]]|X]].
  - left. apply joined_adj; auto.
  - right; left. exists v, c, d. auto 10.
  - right; right. eapply path_mono; [|exact X]. auto.
Qed.
Print Assumptions degree2_forest_correct.

(** The result does not depend on the order in which the graph was built or on
    hash iteration order: graphs with the same vertices, edges and weights have
    forests with the same edges. *)
Theorem degree2_forest_deterministic : forall ops ops' w w' f f',
  wrun ops w_empty = Some w -> wrun ops' w_empty = Some w' ->
  (forall v, In v (g_v (w_g w)) <-> In v (g_v (w_g w'))) ->
  (forall a b, joined w a b <-> joined w' a b) -> (forall a b, edge_weight w a b = edge_weight w' a b) ->
  degree2_forest w = Some f -> degree2_forest w' = Some f' ->
  forall a b, joined f a b <-> joined f' a b.
Proof.
  intros ops ops' w w' f f' H H' HV HA HE E E' a b.
  pose proof (wrun_rep ops [] w_empty wrep_empty I) as G. rewrite H in G. destruct G as [[[GI _] [_ [VN _]]] _].
  pose proof (wrun_rep ops' [] w_empty wrep_empty I) as G. rewrite H' in G. destruct G as [[[GI' _] [_ [VN' _]]] _].
  rewrite !joined_adj. apply (forest_same w w'); auto.
  - intros v; apply VN.
  - intros v; apply VN'.
  - intros c d. rewrite <- !joined_adj. auto.
Qed.
Print Assumptions degree2_forest_deterministic.

(** A triangle with a pendant edge, vertex 9 removed again: the forest keeps
    the two heaviest usable edges and the light one. *)
Definition wops : list wop :=
  [WAddV 0 1; WAddV 1 1; WAddV 2 1; WAddV 3 5; WAddV 9 1; WAddE 0 1 10; WAddE 1 2 20; WAddE 2 0 30; WAddE 1 9 99; WAddE 3 1 7; WRemV 9]%Z.
Example forest_case :
  match wrun wops w_empty with
  | Some w => match degree2_forest w with
              | Some f => map (neighbors (w_g f)) [0; 1; 2; 3; 9] = [Some [2]; Some [3; 2]; Some [1; 0]; Some [1]; None]
                          /\ edge_weight f 1 3 = 7%Z /\ edge_weight f 1 9 = 0%Z /\ vertex_weight f 3 = Some 5%Z
              | None => False end
  | None => False end.
Proof. vm_compute. auto. Qed.
