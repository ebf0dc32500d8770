(** Weighted graph histories; the whole of Degree2MaximumSpanningForest. *)
Require Import List Arith Bool Lia Permutation Sorted ZArith.
From Verif Require Import GraphModel GraphSpec GraphProofs GraphProofs2 GraphProofs3 ForestModel ForestSpec ForestProofs.
Import ListNotations.
Open Scope nat_scope.

Definition wrep (h : list wop) (w : wgraph) : Prop :=
  represents (map plain h) (w_g w) /\
  (forall v, w_vw w v = vweight_of h v) /\ (forall v, w_vw w v <> None <-> In v (g_v (w_g w))) /\
  (forall a b, ewget (w_ew w) a b = eweight_of h a b) /\
  (forall a b, ewget (w_ew w) a b <> None <-> adj (w_g w) a b).

Lemma erase_spec : forall v l m c d,
  ewget (fold_left (fun m s => ewkey m v s None) l m) c d =
  if (mem d l && (c =? v)) || (mem c l && (d =? v)) then None else ewget m c d.
Proof.
  intros v. induction l as [|s l IH]; intros m c d; simpl; auto.
  assert (K : ewget (ewkey m v s None) c d = if ((c =? v) && (d =? s)) || ((c =? s) && (d =? v)) then None else ewget m c d).
  { assert (ED : forall x y, (x =? y) = if Nat.eq_dec x y then true else false) by (intros x y; destruct (Nat.eqb_spec x y), (Nat.eq_dec x y); congruence).
    rewrite ewget_key, !ED. destruct (Nat.eq_dec c v), (Nat.eq_dec d s), (Nat.eq_dec c s), (Nat.eq_dec d v); reflexivity. }
  rewrite IH, K. destruct (mem d l), (mem c l), (c =? v), (d =? s), (c =? s), (d =? v); reflexivity.
Qed.

Lemma wstep_rep : forall o h w, wrep h w ->
  match wstep o w with
  | Some w' => wrep (o :: h) w' /\ (allowed (map plain h) -> allowed (map plain (o :: h)))
  | None => ~ allowed (map plain (o :: h))
  end.
Proof.
  intros o h w [R [VW [VN [EW EN]]]]. pose proof (gstep_rep (plain o) _ _ R) as G.
  pose proof (proj1 R) as GI.
  destruct o as [v x|v|a b x]; simpl in *.
  - destruct G as [R' _]. split; auto. split; [exact R'|]. simpl. split; [|split; [|split]]; auto.
    + intros u. unfold fput. destruct (Nat.eq_dec u v) as [->|N]; [rewrite Nat.eqb_refl; auto|apply Nat.eqb_neq in N; rewrite N; auto].
    + intros u. rewrite (proj1 (proj2 R')). simpl. rewrite <- (proj1 (proj2 R)), <- VN. unfold fput.
      destruct (Nat.eqb_spec u v); [subst; split; auto; congruence|]. tauto.
    + intros c d. rewrite (adj_addv v (w_g w) c d GI). auto.
  - unfold wremove_vertex. destruct (remove_vertex v (w_g w)) as [[g' r]|] eqn:RV; [|auto].
    destruct (remv_spec v _ _ _ GI RV) as [GI' [V' [A' [Rr _]]]].
    destruct G as [R' AL]. destruct r.
    + split; auto. split; [exact R'|]. simpl. split; [|split; [|split]].
      * intros u. unfold fput. destruct (Nat.eq_dec u v) as [->|N]; [rewrite Nat.eqb_refl; auto|apply Nat.eqb_neq in N; rewrite N; auto].
      * intros u. rewrite V', <- VN. unfold fput. destruct (Nat.eqb_spec u v); [subst; split; [congruence|tauto]|]. tauto.
      * intros c d. rewrite erase_spec. 
        destruct (Nat.eq_dec c v) as [->|N1]; [rewrite Nat.eqb_refl, andb_true_r|apply Nat.eqb_neq in N1; rewrite N1, andb_false_r; apply Nat.eqb_neq in N1; simpl].
        { destruct (mem d (at_ (g_e (w_g w)) v)) eqn:M; auto. simpl. destruct (_ && _); auto.
          apply mem_out in M. destruct (ewget (w_ew w) v d) eqn:Q; auto. exfalso. apply M. apply (EN v d). congruence. }
        destruct (Nat.eq_dec d v) as [->|N2]; [rewrite Nat.eqb_refl, andb_true_r|apply Nat.eqb_neq in N2; rewrite N2, andb_false_r; auto].
        destruct (mem c (at_ (g_e (w_g w)) v)) eqn:M; auto.
        apply mem_out in M. destruct (ewget (w_ew w) c v) eqn:Q; auto. exfalso. apply M. apply (gi_sym _ GI). apply (EN c v). congruence.
      * intros c d. rewrite A', <- EN, erase_spec.
        destruct (Nat.eqb_spec c v) as [->|N1].
        { rewrite andb_true_r. split; [|tauto]. destruct (mem d (at_ (g_e (w_g w)) v)) eqn:M; simpl; [congruence|].
          destruct (_ && _); [congruence|]. intros Q. apply EN in Q. apply mem_out in M. elim M. exact Q. }
        rewrite andb_false_r. simpl. destruct (Nat.eqb_spec d v) as [->|N2].
        { rewrite andb_true_r. split; [|tauto]. destruct (mem c (at_ (g_e (w_g w)) v)) eqn:M; simpl; [congruence|].
          intros Q. apply EN in Q. apply mem_out in M. elim M. apply (gi_sym _ GI). exact Q. }
        rewrite andb_false_r. tauto.
    + split; auto.
      assert (NV : ~ In v (g_v (w_g w))) by (intros X; apply Rr in X; discriminate).
      assert (g' = w_g w).
      { unfold remove_vertex in RV. apply mem_out in NV. rewrite NV in RV. simpl in RV. inversion RV; auto. }
      subst g'. split; [exact R'|]. split; [|split; [|split]]; auto.
      * intros u. simpl. destruct (Nat.eq_dec u v) as [->|N]; auto. destruct (w_vw w v) eqn:Q; auto. exfalso. apply NV, VN. congruence.
      * intros c d. simpl. destruct (Nat.eq_dec c v) as [->|N]; [|destruct (Nat.eq_dec d v) as [->|N2]; auto];
          match goal with |- ?l = None => destruct l eqn:Q; auto end; exfalso; apply NV.
        { eapply vert_l; eauto. apply EN. rewrite Q. congruence. }
        { eapply gi_vert; eauto. apply EN. rewrite Q. congruence. }
  - unfold wadd_edge. destruct (add_edge a b (w_g w)) as [g'|] eqn:AE; [|auto]. destruct G as [R' AL]. split; auto.
    destruct (ginv_adde _ _ _ _ GI AE) as [GI' VG].
    split; [exact R'|]. simpl. split; [|split; [|split]]; auto.
    + intros u. rewrite VG. auto.
    + intros c d. rewrite ewget_key, EW. auto.
    + intros c d. rewrite (adj_adde _ _ _ _ c d GI AE), ewget_key, <- EN.
      repeat match goal with |- context [Nat.eq_dec ?x ?y] => destruct (Nat.eq_dec x y); subst end; intuition congruence.
Qed.

Lemma wrun_rep : forall ops h w, wrep h w -> allowed (map plain h) ->
  match wrun ops w with
  | Some w' => wrep (rev ops ++ h) w' /\ allowed (map plain (rev ops ++ h))
  | None => ~ allowed (map plain (rev ops ++ h))
  end.
Proof.
  induction ops as [|o ops IH]; intros h w R AL; simpl; [auto|]. pose proof (wstep_rep o h w R) as G.
  destruct (wstep o w) as [w1|].
  - destruct G as [R1 A1]. specialize (IH (o :: h) w1 R1 (A1 AL)). destruct (wrun ops w1); rewrite <- app_assoc; simpl; auto.
  - rewrite <- app_assoc. simpl. intros X. apply G. rewrite map_app in X. eapply allowed_tail; eauto.
Qed.
Lemma wrep_empty : wrep [] w_empty.
Proof.
  split; [apply rep_empty_graph|]. split; [reflexivity|]. split; [simpl; split; [congruence|contradiction]|]. split.
  - intros. unfold ewget. simpl. destruct (_ <? _); auto.
  - intros. unfold ewget, adj, at_. simpl. destruct (_ <? _); split; auto; congruence.
Qed.

(** ** Initialisation *)
Lemma init_ok : forall w vs done f ds, GInv (w_g w) -> (forall v, In v (g_v (w_g w)) -> w_vw w v <> None) ->
  (forall v, In v vs -> In v (g_v (w_g w))) ->
  GInv (w_g f) -> (forall v, In v (g_v (w_g f)) <-> In v done) -> (forall a b, ~ adj (w_g f) a b) ->
  (forall a b, ewget (w_ew f) a b = None) -> (forall v, w_vw f v = if in_dec Nat.eq_dec v done then w_vw w v else None) ->
  (forall v, ds v = if in_dec Nat.eq_dec v done then Some v else None) ->
  exists f' ds', init_forest w vs f ds = Some (f', ds') /\
  GInv (w_g f') /\ (forall v, In v (g_v (w_g f')) <-> In v (done ++ vs)) /\ (forall a b, ~ adj (w_g f') a b) /\
  (forall a b, ewget (w_ew f') a b = None) /\ (forall v, w_vw f' v = if in_dec Nat.eq_dec v (done ++ vs) then w_vw w v else None) /\
  (forall v, ds' v = if in_dec Nat.eq_dec v (done ++ vs) then Some v else None).
Proof.
  intros w. induction vs as [|v vs IH]; intros done f ds GW HW HI GF HV HA HE HVW HD.
  - exists f, ds. rewrite app_nil_r. simpl. auto 10.
  - simpl. assert (Iv : In v (g_v (w_g w))) by (apply HI; left; auto).
    unfold vertex_weight. destruct (w_vw w v) as [x|] eqn:Ex; [|elim (HW v Iv Ex)].
    rewrite (neighbors_some _ _ GW Iv).
    replace (done ++ v :: vs) with ((done ++ [v]) ++ vs) by (rewrite <- app_assoc; auto).
    assert (IND : forall u, In u (done ++ [v]) <-> In u done \/ u = v).
    { intros u. rewrite in_app_iff. simpl. intuition. }
    apply IH; auto.
    + intros u Hu. apply HI; right; auto.
    + simpl. apply ginv_addv; auto.
    + intros u. simpl. rewrite IND, <- HV. unfold add_vertex. destruct (mem v (g_v (w_g f))) eqn:M; simpl; [|intuition].
      apply mem_in in M. split; auto. intros [X|X]; subst; auto.
    + intros a b. simpl. rewrite (adj_addv v _ a b GF). auto.
    + intros u. simpl. unfold fput. rewrite HVW. destruct (Nat.eqb_spec u v) as [->|N].
      * destruct (in_dec _ v (done ++ [v])) as [|Q]; auto. elim Q. apply IND; auto.
      * destruct (in_dec _ u (done ++ [v])) as [Q|Q]; destruct (in_dec _ u done) as [Q'|Q']; auto; exfalso; rewrite IND in Q; tauto.
    + intros u. unfold fput. rewrite HD. destruct (Nat.eqb_spec u v) as [->|N].
      * destruct (in_dec _ v (done ++ [v])) as [|Q]; auto. elim Q. apply IND; auto.
      * destruct (in_dec _ u (done ++ [v])) as [Q|Q]; destruct (in_dec _ u done) as [Q'|Q']; auto; exfalso; rewrite IND in Q; tauto.
Qed.

Lemma edges_in : forall w x a b, GInv (w_g w) ->
  (In (x, (a, b)) (weighted_edges w) <-> x = edge_weight w a b /\ adj (w_g w) a b /\ a < b).
Proof.
  intros w x a b G. unfold weighted_edges. rewrite in_flat_map. split.
  - intros [v [Hv H]]. apply in_map_iff in H. destruct H as [u [E H]]. inversion E; subst.
    apply filter_In in H. destruct H as [H L]. apply Nat.ltb_lt in L. auto.
  - intros [-> [A L]]. exists a. split; [eapply vert_l; eauto|]. apply in_map_iff. exists b. split; auto.
    apply filter_In. split; auto. apply Nat.ltb_lt; auto.
Qed.

Lemma edge_gt_spec : forall wx ax bx wy ay by_, edge_gt (wx, (ax, bx)) (wy, (ay, by_)) = true <->
  ((wy < wx)%Z \/ (wy = wx /\ (ay < ax \/ (ay = ax /\ by_ < bx)))).
Proof.
  intros. simpl. rewrite !orb_true_iff, !andb_true_iff, Z.ltb_lt, Z.eqb_eq, orb_true_iff, andb_true_iff, !Nat.ltb_lt, Nat.eqb_eq. tauto.
Qed.
Lemma edge_gt_asym : forall x y, edge_gt y x = true -> edge_gt x y = false.
Proof.
  intros [wx [ax bx]] [wy [ay by_]] H. apply not_true_iff_false. intros Q. apply edge_gt_spec in H. apply edge_gt_spec in Q. lia.
Qed.
Lemma edge_gt_total : forall x y, edge_gt x y = true \/ x = y \/ edge_gt y x = true.
Proof.
  intros [wx [ax bx]] [wy [ay by_]]. rewrite !edge_gt_spec.
  destruct (Z.lt_total wx wy) as [|[->|]]; [right; right; lia| |left; lia].
  destruct (Nat.lt_total ax ay) as [|[->|]]; [right; right; lia| |left; lia].
  destruct (Nat.lt_total bx by_) as [|[->|]]; [right; right; lia|auto|left; lia].
Qed.
Lemma sorted_edges : forall l, StronglySorted (fun e1 e2 => edge_gt e2 e1 = false) (ssort edge_gt l).
Proof.
  intros l. apply Sorted_StronglySorted.
  - intros [wx [ax bx]] [wy [ay by_]] [wz [az bz]] H1 H2. apply not_true_iff_false in H1. apply not_true_iff_false in H2.
    apply not_true_iff_false. intros Q. rewrite edge_gt_spec in *. lia.
  - apply ssort_sorted. intros x y. apply edge_gt_asym.
Qed.

Lemma forest_ok : forall w, GInv (w_g w) -> (forall v, In v (g_v (w_g w)) -> w_vw w v <> None) ->
  exists f ds, degree2_forest w = Some f /\ KInv w f ds /\
  forall a b, adj (w_g w) a b -> a <> b -> excused w f (edge_weight w a b) a b.
Proof.
  intros w GW HW. unfold degree2_forest.
  destruct (init_ok w (g_v (w_g w)) [] w_empty (fun _ => None) GW HW) as [f [ds [E [GF [V [A [EW [VW D]]]]]]]]; auto.
  - apply ginv_empty.
  - simpl; tauto.
  - intros a b. unfold ewget. simpl. destruct (_ <? _); auto.
  - rewrite E. simpl app in *.
    assert (NOP : forall a b, path (adj (w_g f)) a b -> a = b) by (intros a b P; inversion P; subst; auto; elim (A _ _ H)).
    assert (NODEG : forall v, at_ (g_e (w_g f)) v = []).
    { intros v. destruct (at_ (g_e (w_g f)) v) as [|y l] eqn:Q; auto. elim (A v y). unfold adj. rewrite Q. left; auto. }
    assert (K : KInv w f ds).
    { constructor; auto.
      - intros a b H. elim (A _ _ H).
      - intros a b H. elim (A _ _ H).
      - intros v. rewrite NODEG. simpl; lia.
      - intros a b H. elim (A _ _ H).
      - intros v Hv. exists v. rewrite D. destruct (in_dec _ v (g_v (w_g w))); [auto|contradiction].
      - intros a b r1 r2 Ha Hb R1 R2.
        assert (ROOT : forall v r, In v (g_v (w_g w)) -> Root ds v r -> r = v).
        { intros v r Hv R. assert (R' : Root ds v v) by (constructor; rewrite D; destruct (in_dec _ v (g_v (w_g w))); [auto|contradiction]).
          apply (root_fun _ _ _ R v R'). }
        rewrite (ROOT a r1), (ROOT b r2); auto. split; [intros ->; constructor|apply NOP]. }
    destruct (kruskal_ok w GW (ssort edge_gt (weighted_edges w)) f ds K) as [f' [ds' [E' [K' [M EX]]]]].
    + intros x a b H. eapply Permutation_in in H; [|apply ssort_perm]. apply edges_in in H; auto.
    + apply sorted_edges.
    + intros a b e H. elim (A _ _ H).
    + rewrite E'. exists f', ds'. split; auto. split; auto.
      assert (LESS : forall a b, a < b -> adj (w_g w) a b -> excused w f' (edge_weight w a b) a b).
      { intros a b L H. apply EX. eapply Permutation_in; [symmetry; apply ssort_perm|]. apply edges_in; auto. }
      intros a b H N. destruct (Nat.lt_total a b) as [L|[L|L]]; [auto|congruence|].
      pose proof (LESS b a L (gi_sym _ GW _ _ H)) as X.
      assert (EWS : edge_weight w a b = edge_weight w b a) by (rewrite !edge_weight_get, ewget_sym; auto).
      rewrite EWS. destruct X as [X|[[v [c [d [Q X]]]]|X]].
      * left. apply (gi_sym _ (k_ginv _ _ _ K')); auto.
      * right; left. exists v, c, d. split; [tauto|auto].
      * right; right. apply path_sym; auto. intros p q [P1 P2]. split; [apply (gi_sym _ (k_ginv _ _ _ K')); auto|].
        replace (edge_weight w q p) with (edge_weight w p q) by (rewrite !edge_weight_get, ewget_sym; auto). exact P2.
Qed.

(** ** Determinism: hash iteration order does not matter. *)
Lemma sorted_unique_edges : forall l l' : list wedge,
  StronglySorted (fun e1 e2 => edge_gt e2 e1 = false) l -> StronglySorted (fun e1 e2 => edge_gt e2 e1 = false) l' ->
  Permutation l l' -> l = l'.
Proof.
  induction l as [|x l IH]; intros l' S S' P; [apply Permutation_nil in P; auto|].
  destruct l' as [|x' l']; [symmetry in P; apply Permutation_nil in P; discriminate|].
  inversion S; subst. inversion S'; subst. rewrite Forall_forall in *.
  assert (x = x').
  { destruct (edge_gt_total x x') as [X|[X|X]]; auto.
    - assert (In x (x' :: l')) by (eapply Permutation_in; [exact P|left; auto]). destruct H; [auto|]. apply H4 in H. congruence.
    - assert (In x' (x :: l)) by (eapply Permutation_in; [symmetry; exact P|left; auto]). destruct H; [auto|]. apply H2 in H. congruence. }
  subst. f_equal. apply (IH l'); auto. eapply Permutation_cons_inv; eauto.
Qed.

Lemma edges_nodup : forall w, GInv (w_g w) -> NoDup (weighted_edges w).
Proof.
  intros w G. unfold weighted_edges. pose proof (gi_nodup _ G) as N. revert N. generalize (g_v (w_g w)).
  induction l as [|v l IH]; simpl; intros N; [constructor|]. inversion N; subst.
  assert (D : forall e, In e (flat_map (fun v1 => map (fun v2 => (edge_weight w v1 v2, (v1, v2))) (filter (fun v2 => v1 <? v2) (at_ (g_e (w_g w)) v1))) l) -> fst (snd e) <> v).
  { intros e He. apply in_flat_map in He. destruct He as [u [Hu He]]. apply in_map_iff in He. destruct He as [z [<- _]]. simpl. intros ->. auto. }
  assert (N2 : NoDup (filter (fun v2 => v <? v2) (at_ (g_e (w_g w)) v))) by (apply NoDup_filter, gi_set; auto).
  induction (filter (fun v2 => v <? v2) (at_ (g_e (w_g w)) v)) as [|y r IHr]; simpl; [auto|]. inversion N2; subst.
  constructor; [|apply IHr; auto]. intros X. apply in_app_or in X. destruct X as [X|X].
  - apply in_map_iff in X. destruct X as [z [E X]]. inversion E; subst. auto.
  - apply D in X. simpl in X. congruence.
Qed.

Definition same_state (f f' : wgraph) (ds ds' : fmap nat) : Prop :=
  (forall v, g_e (w_g f) v = g_e (w_g f') v) /\ (forall v, mem v (g_v (w_g f)) = mem v (g_v (w_g f'))) /\
  (forall a b, w_ew f a b = w_ew f' a b) /\ (forall v, w_vw f v = w_vw f' v) /\ (forall v, ds v = ds' v).

Lemma find_same : forall fuel v ds ds', (forall x, ds x = ds' x) ->
  match find_component fuel v ds, find_component fuel v ds' with
  | Some (r, d), Some (r', d') => r = r' /\ forall x, d x = d' x
  | None, None => True
  | _, _ => False
  end.
Proof.
  induction fuel as [|fuel IH]; intros v ds ds' H; simpl; auto. rewrite <- (H v). destruct (ds v) as [p|]; auto.
  destruct (p =? v); auto. specialize (IH p ds ds' H).
  destruct (find_component fuel p ds) as [[r d]|], (find_component fuel p ds') as [[r' d']|]; auto.
  destruct IH as [-> D]. split; auto. intros x. unfold fput. destruct (x =? v); auto.
Qed.

Lemma wadd_same : forall a b x f f' ds ds', same_state f f' ds ds' ->
  match wadd_edge a b x f, wadd_edge a b x f' with
  | Some f1, Some f1' => same_state f1 f1' ds ds'
  | None, None => True
  | _, _ => False
  end.
Proof.
  intros a b x f f' ds ds' [HE [HV [HW [HVW HD]]]]. unfold wadd_edge, add_edge. rewrite <- !HV.
  destruct (negb _ || negb _); auto.
  assert (AT : forall v, at_ (g_e (w_g f)) v = at_ (g_e (w_g f')) v) by (intros; unfold at_; rewrite HE; auto).
  rewrite <- !AT.
  assert (EK : forall c d, ewkey (w_ew f) a b (Some x) c d = ewkey (w_ew f') a b (Some x) c d).
  { intros c d. unfold ewkey. destruct (a <? b); unfold ewput; rewrite HW; auto. }
  destruct (mem b _).
  - split; [|split; [|split; [|split]]]; simpl; auto.
  - split; [|split; [|split; [|split]]]; simpl; auto.
    intros v. unfold at_, fput. destruct (v =? b), (v =? a), (b =? a); rewrite <- ?HE; auto.
Qed.

Lemma kruskal_same : forall w w' es, (forall a b, edge_weight w a b = edge_weight w' a b) -> forall f f' ds ds', same_state f f' ds ds' ->
  match kruskal w es f ds, kruskal w' es f' ds' with
  | Some (g, d), Some (g', d') => same_state g g' d d'
  | None, None => True
  | _, _ => False
  end.
Proof.
  intros w w' es HW. induction es as [|[x [v1 v2]] es IH]; intros f f' ds ds' SS; cbn [kruskal]; auto.
  pose proof SS as [HE [HV [HWF [HVW HD]]]]. unfold neighbors. rewrite <- !HE.
  destruct (g_e (w_g f) v1) as [n1|]; auto. destruct (g_e (w_g f) v2) as [n2|]; auto.
  destruct (_ || _); [apply IH; auto|].
  pose proof (find_same (S v1) v1 ds ds' HD) as F1.
  destruct (find_component (S v1) v1 ds) as [[r1 d1]|], (find_component (S v1) v1 ds') as [[r1' d1']|]; auto; try contradiction.
  destruct F1 as [-> D1].
  pose proof (find_same (S v2) v2 d1 d1' D1) as F2.
  destruct (find_component (S v2) v2 d1) as [[r2 d2]|], (find_component (S v2) v2 d1') as [[r2' d2']|]; auto; try contradiction.
  destruct F2 as [-> D2].
  assert (S2 : same_state f f' d2 d2') by (repeat split; auto).
  destruct (r1' =? r2'); [apply IH; auto|].
  rewrite <- (HW v1 v2).
  pose proof (wadd_same v1 v2 (edge_weight w v1 v2) f f' d2 d2' S2) as W1.
  destruct (wadd_edge v1 v2 _ f) as [f1|], (wadd_edge v1 v2 _ f') as [f1'|]; auto; try contradiction.
  pose proof (wadd_same v2 v1 (edge_weight w v1 v2) f1 f1' d2 d2' W1) as W2.
  destruct (wadd_edge v2 v1 _ f1) as [f2|], (wadd_edge v2 v1 _ f1') as [f2'|]; auto; try contradiction.
  apply IH. destruct W2 as [A [B [C [D E]]]]. repeat split; auto.
  intros v. destruct (r2' <? r1'); unfold fput; destruct (v =? _); auto.
Qed.

Lemma init_edges : forall w vs f ds f' ds', init_forest w vs f ds = Some (f', ds') ->
  w_ew f' = w_ew f.
Proof.
  intros w. induction vs as [|v vs IH]; intros f ds f' ds' H; simpl in H; [inversion H; auto|].
  destruct (vertex_weight w v); [|discriminate]. destruct (neighbors (w_g w) v); [|discriminate].
  apply IH in H. auto.
Qed.

Lemma forest_same : forall w w', GInv (w_g w) -> GInv (w_g w') ->
  (forall v, In v (g_v (w_g w)) -> w_vw w v <> None) -> (forall v, In v (g_v (w_g w')) -> w_vw w' v <> None) ->
  (forall v, In v (g_v (w_g w)) <-> In v (g_v (w_g w'))) -> (forall a b, adj (w_g w) a b <-> adj (w_g w') a b) ->
  (forall a b, edge_weight w a b = edge_weight w' a b) ->
  forall f f', degree2_forest w = Some f -> degree2_forest w' = Some f' -> forall a b, adj (w_g f) a b <-> adj (w_g f') a b.
Proof.
  intros w w' G G' HW HW' HV HA HE f f' E E'. unfold degree2_forest in E, E'.
  assert (I0 : forall v, GInv (w_g v) -> (forall u, In u (g_v (w_g v)) -> w_vw v u <> None) ->
     exists f0 d0, init_forest v (g_v (w_g v)) w_empty (fun _ => None) = Some (f0, d0) /\
       GInv (w_g f0) /\ (forall u, In u (g_v (w_g f0)) <-> In u (g_v (w_g v))) /\ (forall a b, ~ adj (w_g f0) a b) /\
       (forall u, d0 u = if in_dec Nat.eq_dec u (g_v (w_g v)) then Some u else None)).
  { intros v GV HWV. destruct (init_ok v (g_v (w_g v)) [] w_empty (fun _ => None) GV HWV) as [f0 [d0 [X [A [B [C [_ [_ D]]]]]]]]; auto.
    - apply ginv_empty.
    - simpl; tauto.
    - intros a b. unfold ewget. simpl. destruct (_ <? _); auto.
    - exists f0, d0. auto 10. }
  destruct (I0 w G HW) as [f0 [d0 [X0 [A0 [B0 [C0 D0]]]]]]. destruct (I0 w' G' HW') as [f1 [d1 [X1 [A1 [B1 [C1 D1]]]]]].
  rewrite X0 in E. rewrite X1 in E'.
  assert (ES : ssort edge_gt (weighted_edges w) = ssort edge_gt (weighted_edges w')).
  { apply sorted_unique_edges; try apply sorted_edges. rewrite !ssort_perm.
    apply NoDup_Permutation; try apply edges_nodup; auto. intros [x [a b]]. rewrite !edges_in by auto. rewrite HE, HA. tauto. }
  rewrite <- ES in E'.
  set (f0' := mkW (w_g f0) (fun _ => None) (w_ew f0)) in *.
  assert (SG : forall v, g_e (w_g f0) v = g_e (w_g f1) v).
  { intros v. 
    assert (Z : forall h, GInv (w_g h) -> (forall a b, ~ adj (w_g h) a b) -> g_e (w_g h) v = if in_dec Nat.eq_dec v (g_v (w_g h)) then Some [] else None).
    { intros h GH NH. destruct (in_dec Nat.eq_dec v (g_v (w_g h))) as [I|I].
      - pose proof (neighbors_some _ _ GH I) as Q. unfold neighbors in Q. rewrite Q. f_equal.
        destruct (at_ (g_e (w_g h)) v) as [|y l] eqn:P; auto. elim (NH v y). unfold adj. rewrite P. left; auto.
      - destruct (g_e (w_g h) v) eqn:Q; auto. elim I. apply (gi_dom _ GH). congruence. }
    rewrite (Z f0), (Z f1) by auto.
    destruct (in_dec _ v (g_v (w_g f0))) as [P|P], (in_dec _ v (g_v (w_g f1))) as [Q|Q]; auto; exfalso.
    - apply Q, B1, HV, B0; auto.
    - apply P, B0, HV, B1; auto. }
  (* vertex weights play no role *)
  assert (STRIP : forall es h h' ds ds', same_state h h' ds ds' ->
     match kruskal w es h ds, kruskal w' es h' ds' with
     | Some (g, d), Some (g', d') => same_state g g' d d' | None, None => True | _, _ => False end).
  { intros. apply kruskal_same; auto. }
  assert (NOVW : forall es h h' ds, w_g h = w_g h' -> w_ew h = w_ew h' ->
     match kruskal w es h ds, kruskal w es h' ds with
     | Some (g, d), Some (g', d') => w_g g = w_g g' | None, None => True | _, _ => False end).
  { clear. induction es as [|[x [v1 v2]] es IH]; intros h h' ds E1 E2; cbn [kruskal]; auto.
    rewrite <- E1. destruct (neighbors (w_g h) v1); auto. destruct (neighbors (w_g h) v2); auto. destruct (_ || _); [apply IH; auto|].
    destruct (find_component (S v1) v1 ds) as [[r1 d1]|]; auto. destruct (find_component (S v2) v2 d1) as [[r2 d2]|]; auto.
    destruct (r1 =? r2); [apply IH; auto|]. unfold wadd_edge. rewrite <- E1, <- E2. destruct (add_edge v1 v2 (w_g h)); auto. simpl.
    destruct (add_edge v2 v1 g); auto. apply IH; auto. }
  specialize (STRIP (ssort edge_gt (weighted_edges w)) (mkW (w_g f0) (fun _ => None) (w_ew f0)) (mkW (w_g f1) (fun _ => None) (w_ew f1)) d0 d1).
  assert (NO1 := NOVW (ssort edge_gt (weighted_edges w)) f0 (mkW (w_g f0) (fun _ => None) (w_ew f0)) d0 eq_refl eq_refl).
  assert (NOVW' : forall es h h' ds, w_g h = w_g h' -> w_ew h = w_ew h' ->
     match kruskal w' es h ds, kruskal w' es h' ds with
     | Some (g, d), Some (g', d') => w_g g = w_g g' | None, None => True | _, _ => False end).
  { clear. induction es as [|[x [v1 v2]] es IH]; intros h h' ds E1 E2; cbn [kruskal]; auto.
    rewrite <- E1. destruct (neighbors (w_g h) v1); auto. destruct (neighbors (w_g h) v2); auto. destruct (_ || _); [apply IH; auto|].
    destruct (find_component (S v1) v1 ds) as [[r1 d1]|]; auto. destruct (find_component (S v2) v2 d1) as [[r2 d2]|]; auto.
    destruct (r1 =? r2); [apply IH; auto|]. unfold wadd_edge. rewrite <- E1, <- E2. destruct (add_edge v1 v2 (w_g h)); auto. simpl.
    destruct (add_edge v2 v1 g); auto. apply IH; auto. }
  assert (NO2 := NOVW' (ssort edge_gt (weighted_edges w)) f1 (mkW (w_g f1) (fun _ => None) (w_ew f1)) d1 eq_refl eq_refl).
  destruct (kruskal w (ssort edge_gt (weighted_edges w)) f0 d0) as [[p pd]|]; [|discriminate].
  destruct (kruskal w' (ssort edge_gt (weighted_edges w)) f1 d1) as [[q qd]|]; [|discriminate].
  inversion E; inversion E'; subst p q.
  destruct (kruskal w _ (mkW _ _ _) d0) as [[p1 pd1]|]; [|contradiction].
  destruct (kruskal w' _ (mkW _ _ _) d1) as [[q1 qd1]|]; [|contradiction].
  rewrite NO1, NO2. destruct STRIP as [S1 _].
  - repeat split; simpl; auto.
    + intros v. destruct (mem v (g_v (w_g f0))) eqn:P, (mem v (g_v (w_g f1))) eqn:Q; auto; exfalso.
      * apply mem_in in P. apply mem_out in Q. apply Q, B1, HV, B0; auto.
      * apply mem_out in P. apply mem_in in Q. apply P, B0, HV, B1; auto.
    + intros a b. rewrite (init_edges _ _ _ _ _ _ X0), (init_edges _ _ _ _ _ _ X1). auto.
    + intros v. rewrite D0, D1. destruct (in_dec _ v (g_v (w_g w))) as [P|P], (in_dec _ v (g_v (w_g w'))) as [Q|Q]; auto; exfalso.
      * apply Q, HV; auto.
      * apply P, HV; auto.
  - intros a b. unfold adj, at_. rewrite S1. tauto.
Qed.
