(* Proofs for C72: the cluster graph and the cluster pairs. *)
From Coq Require Import Reals List Arith Bool Lia Lra Permutation ZArith.
From Verif Require Import GraphModel GraphSpec GraphProofs ForestModel ForestSpec ForestProofs ForestProps VisModel VisSpec VisProofs VbpModel VbpSpec VbpProofs.
Import ListNotations.
Open Scope nat_scope.

Lemma insert_points : forall ps s, (forall x, In x (fold_left (fun s p => sinsert p s) ps s) <-> In x s \/ In x ps) /\ (increasing s -> increasing (fold_left (fun s p => sinsert p s) ps s)).
Proof.
  induction ps as [|p ps IH]; intro s; cbn [fold_left]; [split; [intro x; cbn [In]; tauto|auto]|]. destruct (IH (sinsert p s)) as [A B]. split; [intro x; rewrite A, sinsert_in; cbn [In]; intuition|]. intro I. apply B, sinsert_inc, I.
Qed.
Lemma cluster_visibility_spec num_blocks n membership visibility : (forall i, i < num_blocks -> cluster_of membership i < n) ->
  length (ComputeClusterVisibility num_blocks n membership visibility) = n /\ all_increasing (ComputeClusterVisibility num_blocks n membership visibility) /\
  forall k p, k < n -> (In p (nth k (ComputeClusterVisibility num_blocks n membership visibility) []) <-> exists i, i < num_blocks /\ cluster_of membership i = k /\ In p (nth i visibility [])).
Proof.
  intro H. unfold ComputeClusterVisibility.
  assert (forall is cv, (forall i, In i is -> i < num_blocks) -> length cv = n -> all_increasing cv ->
    let cv' := fold_left (fun cv i => update cv (cluster_of membership i) (fun s => fold_left (fun s p => sinsert p s) (nth i visibility []) s)) is cv in
    length cv' = n /\ all_increasing cv' /\ forall k p, In p (nth k cv' []) <-> In p (nth k cv []) \/ exists i, In i is /\ cluster_of membership i = k /\ In p (nth i visibility [])) as G.
  { induction is as [|i is IH]; intros cv HI L A; cbn [fold_left]; [split; [exact L|]; split; [exact A|]; intros k p; split; [auto|intros [B|[i [[] _]]]; exact B]|].
    pose proof (H i (HI i (or_introl eq_refl))) as HC. set (cv1 := update cv (cluster_of membership i) _). destruct (IH cv1) as [R1 [R2 R3]]; [intros j Hj; apply HI; right; exact Hj|unfold cv1; rewrite update_length; exact L| |].
    - intro k. unfold cv1. rewrite nth_update. destruct ((k =? cluster_of membership i) && _); [apply insert_points; apply A|apply A].
    - split; [exact R1|]. split; [exact R2|]. intros k p. rewrite R3. unfold cv1. rewrite nth_update, L. destruct (Nat.ltb_spec (cluster_of membership i) n); [|lia]. rewrite andb_true_r. destruct (Nat.eqb_spec k (cluster_of membership i)) as [->|N].
      + rewrite (proj1 (insert_points _ _)). cbn [In]. split; [intros [[B|B]|[j [B C]]]; [auto|right; exists i; auto|right; exists j; tauto]|]. intros [B|[j [[<-|B] C]]]; [auto|left; right; tauto|right; exists j; auto].
      + cbn [In]. split; [intros [B|[j [B C]]]; [auto|right; exists j; tauto]|]. intros [B|[j [[<-|B] [C D]]]]; [auto|congruence|right; exists j; auto]. }
  assert (forall k m, nth k (repeat (@nil nat) m) [] = []) as Z by (intros k m; revert k; induction m as [|m IH]; intros [|k]; cbn; auto).
  destruct (G (seq 0 num_blocks) (repeat [] n)) as [R1 [R2 R3]]; [intros i Hi; apply in_seq in Hi; lia|apply repeat_length|intro i; rewrite Z; exact I|].
  split; [exact R1|]. split; [exact R2|]. intros k p Hk. rewrite R3, Z. cbn [In]. split; [intros [[]|[i [A B]]]; exists i; apply in_seq in A; split; [lia|exact B]|]. intros [i [A B]]. right. exists i. split; [apply in_seq; lia|exact B].
Qed.

Definition edge_ops (n : nat) (cv : list (list nat)) : list wop :=
  flat_map (fun i => flat_map (fun j => match length (intersection (nth i cv []) (nth j cv [])) with 0 => [] | S k => [WAddE i j (Z.of_nat (S k) * one)] end) (seq (i + 1) (n - (i + 1)))) (seq 0 n).
Definition shared (cv : list (list nat)) (a b : nat) : nat := length (intersection (nth a cv []) (nth b cv [])).
Lemma edge_ops_in n cv o : In o (edge_ops n cv) <-> exists a b, a < b /\ b < n /\ 0 < shared cv a b /\ o = WAddE a b (Z.of_nat (shared cv a b) * one).
Proof.
  unfold edge_ops, shared. rewrite in_flat_map. split.
  - intros [a [Ha H]]. apply in_flat_map in H. destruct H as [b [Hb H]]. apply in_seq in Ha, Hb. exists a, b. destruct (length _) as [|k] eqn:E; [destruct H|]. destruct H as [<-|[]]. split; [lia|]. split; [lia|]. split; [lia|reflexivity].
  - intros [a [b [L1 [L2 [K ->]]]]]. exists a. split; [apply in_seq; lia|]. apply in_flat_map. exists b. split; [apply in_seq; lia|]. destruct (length _) as [|k] eqn:E; [lia|]. left. reflexivity.
Qed.
Lemma edges_only (es : list wop) : (forall o, In o es -> exists a b x, o = WAddE a b x) -> forall h,
  (forall v, has_v (map plain (es ++ h)) v <-> has_v (map plain h) v) /\
  (forall x y, has_e (map plain (es ++ h)) x y <-> (exists w, In (WAddE x y w) es \/ In (WAddE y x w) es) \/ has_e (map plain h) x y) /\
  ((forall a b x, In (WAddE a b x) es -> has_v (map plain h) a /\ has_v (map plain h) b) -> allowed (map plain h) -> allowed (map plain (es ++ h))) /\
  (forall a b w, (forall x, In (WAddE a b x) es \/ In (WAddE b a x) es -> x = w) -> (exists x, In (WAddE a b x) es \/ In (WAddE b a x) es) -> eweight_of (es ++ h) a b = Some w).
Proof.
  induction es as [|o es IH]; intros HE h.
  - split; [tauto|]. split; [|split; [auto|]].
    + intros x y. cbn [app]. split; [auto|]. intros [[w [[]|[]]]|H]; exact H.
    + intros a b w _ [x [[]|[]]].
  - destruct (HE o (or_introl eq_refl)) as [a [b [x ->]]]. destruct (IH (fun o' H => HE o' (or_intror H)) h) as [I1 [I2 [I3 I4]]]. cbn [app map plain has_v has_e allowed eweight_of]. split; [exact I1|]. split; [|split].
    + intros u v. rewrite I2. cbn [In]. split.
      * intros [[-> ->]|[[-> ->]|[[w [H|H]]|H]]]; [left; exists x; auto|left; exists x; auto|left; exists w; auto|left; exists w; auto|auto].
      * intros [[w [[H|H]|[H|H]]]|H]; [injection H as -> -> ->; auto|right; right; left; exists w; auto|injection H as -> -> ->; auto|right; right; left; exists w; auto|auto].
    + intros HV A. rewrite !I1. split; [apply (HV a b x); left; reflexivity|]. split; [apply (HV a b x); left; reflexivity|]. apply I3; [intros a' b' x' H; apply (HV a' b' x'); right; exact H|exact A].
    + intros c d w U X.
      assert ((c = a /\ d = b) \/ (c = b /\ d = a) -> x = w) as XW by (intros [[-> ->]|[-> ->]]; apply U; cbn [In]; auto).
      assert (~ ((c = a /\ d = b) \/ (c = b /\ d = a)) -> eweight_of (es ++ h) c d = Some w) as REST.
      { intro N. apply I4; [intros y [H|H]; apply U; cbn [In]; auto|]. destruct X as [y [[H|H]|[H|H]]]; [injection H as -> -> ->; exfalso; apply N; auto|exists y; auto|injection H as -> -> ->; exfalso; apply N; auto|exists y; auto]. }
      destruct (Nat.eq_dec c a) as [->|N1]; [destruct (Nat.eq_dec d b) as [->|N2]; [rewrite XW by auto; reflexivity|]; destruct (Nat.eq_dec a b) as [->|N3]; [destruct (Nat.eq_dec d b); [congruence|]; apply REST; intuition congruence|apply REST; intuition congruence]|].
      destruct (Nat.eq_dec c b) as [->|N2]; [destruct (Nat.eq_dec d a) as [->|N3]; [rewrite XW by auto; reflexivity|]; apply REST; intuition congruence|apply REST; intuition congruence].
Qed.
Lemma vertices_only n : (forall v, has_v (map plain (rev (map (fun i => WAddV i one) (seq 0 n)))) v <-> v < n) /\ (forall a b, ~ has_e (map plain (rev (map (fun i => WAddV i one) (seq 0 n)))) a b) /\ allowed (map plain (rev (map (fun i => WAddV i one) (seq 0 n)))).
Proof.
  induction n as [|n [I1 [I2 I3]]]; [cbn; split; [intro v; lia|]; auto|]. rewrite seq_S, map_app, rev_app_distr. cbn [map rev app plain has_v has_e allowed Nat.add]. split; [intro v; rewrite I1; lia|]. auto.
Qed.
Lemma intersection_in a b p : In p (intersection a b) <-> In p a /\ In p b.
Proof. unfold intersection. rewrite filter_In, existsb_exists. split; [intros [A [x [B C]]]; apply Nat.eqb_eq in C; subst x; auto|]. intros [A B]. split; [exact A|]. exists p. rewrite Nat.eqb_refl. auto. Qed.
Lemma shared_sym cv a b : all_increasing cv -> shared cv a b = shared cv b a.
Proof. intro A. unfold shared. apply Permutation_length. apply NoDup_Permutation; [apply NoDup_filter, increasing_nodup, A|apply NoDup_filter, increasing_nodup, A|]. intro p. rewrite !intersection_in. tauto. Qed.
Lemma cluster_graph_spec n cv : all_increasing cv -> exists g, CreateClusterGraph n cv = Some g /\
  (forall v, In v (g_v (w_g g)) <-> v < n) /\ (forall a b, joined g a b <-> a < n /\ b < n /\ a <> b /\ 0 < shared cv a b) /\
  forall a b, joined g a b -> edge_weight g a b = (Z.of_nat (shared cv a b) * one)%Z.
Proof.
  intro AI. unfold CreateClusterGraph, cluster_graph_ops. fold (edge_ops n cv). pose proof (weighted_graph_refines (map (fun i => WAddV i one) (seq 0 n) ++ edge_ops n cv)) as W. cbv zeta in W. rewrite rev_app_distr in W.
  destruct (vertices_only n) as [V1 [V2 V3]]. destruct (edges_only (rev (edge_ops n cv))) with (h := rev (map (fun i => WAddV i one) (seq 0 n))) as [E1 [E2 [E3 E4]]].
  { intros o Ho. rewrite <- in_rev in Ho. apply edge_ops_in in Ho. destruct Ho as [a [b [_ [_ [_ ->]]]]]. eauto. }
  destruct (wrun _ w_empty) as [g|]; [|exfalso; apply W; apply E3; [intros a b x H; rewrite <- in_rev in H; apply edge_ops_in in H; destruct H as [a' [b' [A [B [_ C]]]]]; injection C as -> -> _; rewrite !V1; lia|exact V3]].
  destruct W as [_ [W1 [W2 [_ W3]]]]. exists g. split; [reflexivity|]. split; [intro v; rewrite W1, E1; apply V1|].
  assert (forall a b, (exists w, In (WAddE a b w) (rev (edge_ops n cv)) \/ In (WAddE b a w) (rev (edge_ops n cv))) <-> a < n /\ b < n /\ a <> b /\ 0 < shared cv a b) as EI.
  { intros a b. split.
    - intros [w [H|H]]; rewrite <- in_rev in H; apply edge_ops_in in H; destruct H as [a' [b' [A [B [C D]]]]]; injection D as -> -> _; [|rewrite (shared_sym cv) by exact AI]; lia.
    - intros [A [B [N K]]]. destruct (Nat.lt_ge_cases a b) as [L|L]; eexists; [left|right]; rewrite <- in_rev; apply edge_ops_in; [exists a, b; auto|exists b, a; rewrite (shared_sym cv b a) by exact AI; repeat split; [lia|exact A|exact K]]. }
  assert (forall a b, joined g a b <-> a < n /\ b < n /\ a <> b /\ 0 < shared cv a b) as J.
  { intros a b. rewrite <- EI. unfold joined. specialize (W2 a). destruct (neighbors (w_g g) a) as [l|].
    - destruct W2 as [_ [_ W2]]. split; [intros [l' [El H]]; injection El as <-; apply W2 in H; apply E2 in H; destruct H as [H|H]; [exact H|exfalso; exact (V2 _ _ H)]|]. intro H. exists l. split; [reflexivity|]. apply W2, E2. auto.
    - split; [intros [l' [El _]]; discriminate El|]. intro H. exfalso. apply W2. rewrite E1, V1. apply EI in H. lia. }
  split; [exact J|]. intros a b H. apply J in H. rewrite (proj1 (W3 a b)). rewrite (E4 a b (Z.of_nat (shared cv a b) * one)%Z); [reflexivity| |apply EI; exact H].
  intros x [X|X]; rewrite <- in_rev in X; apply edge_ops_in in X; destruct X as [a' [b' [_ [_ [_ D]]]]]; injection D as -> -> ->; [reflexivity|]. rewrite (shared_sym cv) by exact AI. reflexivity.
Qed.
Lemma tridiagonal_pairs_spec num_blocks n membership visibility : (forall i, i < num_blocks -> cluster_of membership i < n) ->
  exists cv g f cp, cv = ComputeClusterVisibility num_blocks n membership visibility /\ CreateClusterGraph n cv = Some g /\ degree2_forest g = Some f /\
    (forall k p, k < n -> (In p (nth k cv []) <-> exists i, i < num_blocks /\ cluster_of membership i = k /\ In p (nth i visibility []))) /\
    (forall a b, joined g a b <-> a < n /\ b < n /\ a <> b /\ exists p, In p (nth a cv []) /\ In p (nth b cv [])) /\
    (forall a b, joined g a b -> edge_weight g a b = (Z.of_nat (length (common cv a b)) * one)%Z) /\
    TridiagonalClusterPairs num_blocks n membership visibility = Some cp /\ at_most_two (joined f) /\ (forall a b, joined f a b -> joined g a b /\ joined f b a) /\
    forall a b, In (a, b) cp <-> a < n /\ b < n /\ (a = b \/ (a < b /\ joined f a b)).
Proof.
  intro H. destruct (cluster_visibility_spec num_blocks n membership visibility H) as [CL [CI CP]]. set (cv := ComputeClusterVisibility num_blocks n membership visibility) in *.
  destruct (cluster_graph_spec n cv CI) as [g [E1 [GV [GJ GW]]]]. pose proof E1 as E1'. unfold CreateClusterGraph in E1'. destruct (degree2_forest_correct _ g E1') as [f [E2 [FV [_ [FS [FJ [F2 _]]]]]]].
  assert (forall v, In v (g_v (w_g f)) <-> v < n) as VF by (intro v; rewrite FV; apply GV).
  assert (length (nodup Nat.eq_dec (g_v (w_g f))) = n) as LN.
  { rewrite <- (seq_length n 0). apply Permutation_length. apply NoDup_Permutation; [apply NoDup_nodup|apply seq_NoDup|]. intro v. rewrite nodup_In, VF, in_seq. lia. }
  exists cv, g, f, (flat_map (fun cluster1 => (cluster1, cluster1) :: map (fun cluster2 => (cluster1, cluster2)) (filter (fun cluster2 => cluster1 <? cluster2) (at_ (g_e (w_g f)) cluster1))) (g_v (w_g f))).
  assert (forall a b, 0 < shared cv a b <-> exists p, In p (nth a cv []) /\ In p (nth b cv [])) as SH.
  { intros a b. unfold shared. split; [intro L; destruct (intersection (nth a cv []) (nth b cv [])) as [|p l] eqn:E; [cbn in L; lia|]; exists p; apply intersection_in; rewrite E; left; reflexivity|]. intros [p Hp]. apply intersection_in in Hp. destruct (intersection _ _); [destruct Hp|cbn; lia]. }
  split; [reflexivity|]. split; [exact E1|]. split; [exact E2|]. split; [exact CP|]. split; [intros a b; rewrite GJ, SH; tauto|]. split; [|split; [|split; [exact F2|split]]].
  - intros a b J. rewrite (GW a b J). f_equal. f_equal. unfold shared. apply Permutation_length. apply NoDup_Permutation; [apply NoDup_filter, increasing_nodup, CI|apply common_nodup; exact CI|]. intro p. rewrite intersection_in, common_in. tauto.
  - unfold TridiagonalClusterPairs. fold cv. rewrite E1, E2. unfold ForestToClusterPairs. rewrite LN, Nat.eqb_refl. reflexivity.
  - intros a b J. split; [apply FJ; exact J|apply FS; exact J].
  - intros a b. rewrite in_flat_map. split.
    + intros [c [Hc [E|Hx]]]; [injection E as <- <-; apply VF in Hc; auto|]. apply in_map_iff in Hx. destruct Hx as [d [E Hd]]. injection E as <- <-. apply filter_In in Hd. destruct Hd as [Hd L]. apply Nat.ltb_lt in L. assert (joined f c d) as J by (apply joined_adj; exact Hd). pose proof (proj1 (FJ c d J)) as JG. apply GJ in JG. split; [lia|]. split; [lia|]. right. auto.
    + intros [Ha [Hb [->|[L J]]]]; [exists b; split; [apply VF; exact Hb|left; reflexivity]|]. exists a. split; [apply VF; exact Ha|]. right. apply in_map_iff. exists b. split; [reflexivity|]. apply filter_In. split; [apply joined_adj in J; exact J|apply Nat.ltb_lt; exact L].
Qed.
