(* C81: groups, and the steps of the reordering *)
From Coq Require Import ZArith List Arith Bool Lia Permutation Sorting.Sorted.
From Verif Require Import ZMap OrderedGroupsModel OrderedGroupsProofs GraphModel GraphSpec GraphProps ReorderModel ReorderProofs ReorderProofs2 ReorderProps SolveOrderingModel SolveOrderingSpec SolveOrderingProofs PrepModel PrepSpec PrepProofs.
Import ListNotations.
Close Scope Z_scope. Open Scope nat_scope.

(* ---------------------------------------------------------- the first group *)
Lemma group_find o b g : zfind b (e2g o) = Some g -> group_id b o = g.
Proof. intros H. unfold group_id. now rewrite H. Qed.
Lemma first_group o es : ok o -> FirstGroup o = Some es -> NoDup es /\ es <> [] /\ forall b, In b es <-> in_first o b.
Proof.
  intros O H. unfold FirstGroup in H. destruct (g2e o) as [|[g s] rest] eqn:E; [discriminate|]. injection H as <-.
  assert (Fg : zfind g (g2e o) = Some s) by (apply in_zfind; [apply O|rewrite E; now left]).
  destruct (ok_sets o O g s Fg) as [SS NE].
  assert (MEM : forall b, In b (zkeys s) <-> zfind b (e2g o) = Some g).
  { intros b. rewrite (ok_eq o O b g). split; [eauto|]. intros [es [Q I]]. congruence. }
  assert (LE : forall b g', zfind b (e2g o) = Some g' -> (g <= g')%Z).
  { intros b g' Q. apply (ok_eq o O) in Q. destruct Q as [es [Q _]]. apply zfind_in in Q. rewrite E in Q. destruct Q as [Q|Q]; [injection Q as -> _; lia|].
    pose proof (ok_g o O) as SG. rewrite E in SG. unfold zsorted, zkeys in SG. cbn [map] in SG. inversion SG as [|? ? _ FA]; subst. rewrite Forall_forall in FA. specialize (FA g' (in_map fst _ _ Q)). cbn [fst] in FA. lia. }
  split; [apply zsorted_nodup; exact SS|]. split; [intros Q; apply map_eq_nil in Q; congruence|]. intros b. rewrite MEM. unfold in_first. rewrite has_find. split.
  - intros Q. split; [congruence|]. intros b' Hb'. rewrite has_find in Hb'. destruct (zfind b' (e2g o)) as [g'|] eqn:Q'; [|congruence]. rewrite (group_find _ _ _ Q), (group_find _ _ _ Q'). eapply LE; eauto.
  - intros [Q M]. destruct (zfind b (e2g o)) as [g'|] eqn:Q'; [|congruence]. destruct s as [|[x u] s']; [congruence|].
    assert (X : zfind x (e2g o) = Some g) by (apply MEM; now left). assert (HX : has o x) by (rewrite has_find; congruence). specialize (M x HX). rewrite (group_find _ _ _ Q'), (group_find _ _ _ X) in M. specialize (LE b g' Q'). f_equal. lia.
Qed.
Lemma first_group_some o b : ok o -> has o b -> exists es, FirstGroup o = Some es.
Proof.
  intros O H. rewrite has_find in H. destruct (zfind b (e2g o)) as [g|] eqn:E; [|congruence]. apply (ok_eq o O) in E. destruct E as [es [E _]]. unfold FirstGroup. destruct (g2e o) as [|[g' s] rest]; [discriminate|eauto].
Qed.
Lemma one_group_iff o b : ok o -> has o b -> ((num_groups o =? 1)%Z = true <-> one_group o).
Proof.
  intros O H. unfold num_groups. rewrite Z.eqb_eq.
  assert (MEM : forall g s, In (g, s) (g2e o) -> exists x, zfind x (e2g o) = Some g).
  { intros g s I. apply in_zfind in I; [|apply O]. destruct (ok_sets o O g s I) as [_ N]. destruct s as [|[x u] s]; [congruence|]. exists x. apply (ok_eq o O). eexists. split; [exact I|]. now left. }
  split.
  - intros L. destruct (g2e o) as [|[g s] [|]] eqn:E; cbn [length] in L; try lia.
    assert (ALL : forall x, has o x -> group_id x o = g).
    { intros x X. rewrite has_find in X. destruct (zfind x (e2g o)) as [g'|] eqn:Q; [|congruence]. rewrite (group_find _ _ _ Q). apply (ok_eq o O) in Q. destruct Q as [es [Q _]]. apply zfind_in in Q. rewrite E in Q. destruct Q as [Q|[]]. congruence. }
    intros x y X Y. rewrite (ALL x X), (ALL y Y). auto.
  - intros ONE. destruct (g2e o) as [|[g s] [|[g' s'] rest]] eqn:E; [|auto|].
    + rewrite has_find in H. destruct (zfind b (e2g o)) eqn:Q; [|congruence]. apply (ok_eq o O) in Q. rewrite E in Q. destruct Q as [? [Q _]]. discriminate.
    + exfalso. destruct (MEM g s ltac:(now left)) as [x X]. destruct (MEM g' s' ltac:(now right; left)) as [y Y]. specialize (ONE x y). rewrite (group_find _ _ _ X), (group_find _ _ _ Y) in ONE.
      pose proof (ok_g o O) as SG. apply zsorted_nodup in SG. rewrite E in SG. cbn [zkeys map fst] in SG. inversion SG; subst. apply H2. left. symmetry. apply ONE; rewrite has_find; congruence.
Qed.

(* a list in the order of the groups *)
Definition by_groups (o : og) (l : list Z) : Prop := StronglySorted (fun a b => (group_id a o <= group_id b o)%Z) l.
Definition begins (es l : list Z) : Prop := forall b, In b (firstn (length es) l) <-> In b es.
Lemma by_groups_begins o l es : ok o -> NoDup l -> (forall b, has o b <-> In b l) -> FirstGroup o = Some es -> by_groups o l -> begins es l.
Proof.
  intros O N H E S. destruct (first_group o es O E) as [NE [NN IN]].
  assert (POS : forall b, In b l -> (0 <= group_id b o)%Z).
  { intros b B. apply H in B. rewrite has_find in B. destruct (zfind b (e2g o)) as [g|] eqn:Q; [|congruence]. rewrite (group_find _ _ _ Q). eapply ok_pos; eauto. }
  destruct es as [|x es']; [congruence|]. set (es := x :: es') in *. assert (X : in_first o x) by (apply IN; now left). set (g := group_id x o).
  assert (Xl : In x l) by (apply H; apply X). set (key := fun b => Z.to_nat (group_id b o)).
  assert (S' : StronglySorted (fun a b => key a <= key b) l) by (revert S; apply sorted_weaken; intros a b Ia Ib L; unfold key; lia).
  pose proof (sorted_split key l (Z.to_nat g) S') as SP.
  assert (Q : forall b, In b l -> (group_id b o = g <-> In b es)).
  { intros b B. rewrite IN. split.
    - intros G. split; [apply H; auto|]. intros b' B'. rewrite G. now apply X.
    - intros [_ M]. specialize (M x (proj1 X)). destruct X as [_ X]. specialize (X b (proj2 (H b) B)). unfold g. lia. }
  assert (P : Permutation (filter (fun b => key b =? Z.to_nat g) l) es).
  { apply NoDup_Permutation; [now apply NoDup_filter|auto|]. intros b. rewrite filter_In, Nat.eqb_eq. unfold key. split.
    - intros [B G]. apply (Q b B). assert (0 <= g)%Z by (unfold g; now apply POS). specialize (POS b B). lia.
    - intros B. assert (Bl : In b l) by (apply H; apply IN; auto). split; [auto|]. now rewrite (proj2 (Q b Bl) B). }
  rewrite SP by (intros y Y; unfold key; destruct X as [_ X]; specialize (X y (proj2 (H y) Y)); unfold g; lia).
  intros b. rewrite firstn_app. rewrite <- (Permutation_length P). rewrite Nat.sub_diag, firstn_all. cbn [firstn]. rewrite app_nil_r. split; apply Permutation_in; [|apply Permutation_sym]; exact P.
Qed.

(* ---------------------------------------------------------- the constraints *)
Lemma rank_le vals a b : In a vals -> In b vals -> length (filter (fun u => Z.ltb u a) (nodup Z.eq_dec vals)) <= length (filter (fun u => Z.ltb u b) (nodup Z.eq_dec vals)) -> (a <= b)%Z.
Proof.
  intros A B L. destruct (Z_le_gt_dec a b) as [Q|Q]; [auto|exfalso].
  assert (N : NoDup (b :: filter (fun u => Z.ltb u b) (nodup Z.eq_dec vals))).
  { constructor; [|apply NoDup_filter, NoDup_nodup]. rewrite filter_In, Z.ltb_lt. intros [_ X]. lia. }
  assert (I : incl (b :: filter (fun u => Z.ltb u b) (nodup Z.eq_dec vals)) (filter (fun u => Z.ltb u a) (nodup Z.eq_dec vals))).
  { intros x [<-|X].
    - apply filter_In. split; [now apply nodup_In|]. apply Z.ltb_lt. lia.
    - apply filter_In in X. destruct X as [X Y]. apply Z.ltb_lt in Y. apply filter_In. split; [auto|]. apply Z.ltb_lt. lia. }
  apply (NoDup_incl_length N) in I. cbn [length] in I. lia.
Qed.
Lemma nth_rank (f : Z -> Z) l i : i < length l -> nth i (Contiguous (map f l)) 0 = length (filter (fun u => Z.ltb u (f (nth i l 0%Z))) (nodup Z.eq_dec (map f l))).
Proof.
  intros L. unfold Contiguous. set (r := fun v => length (filter (fun u => Z.ltb u v) (nodup Z.eq_dec (map f l)))). rewrite (nth_indep _ 0 (r (f 0%Z))) by (rewrite !map_length; lia). rewrite map_nth. unfold r. now rewrite map_nth.
Qed.
Lemma sorted_nth {A} (Q : A -> A -> Prop) l d : (forall i j, i < j -> j < length l -> Q (nth i l d) (nth j l d)) -> StronglySorted Q l.
Proof.
  induction l as [|x l IH]; intros H; constructor.
  - apply IH. intros i j I J. apply (H (S i) (S j)); cbn [length]; lia.
  - apply Forall_forall. intros y Y. apply In_nth with (d := d) in Y. destruct Y as [j [J <-]]. apply (H 0 (S j)); cbn [length]; lia.
Qed.
Lemma follows_by_groups o l pi : is_permutation (length l) pi -> follows (Contiguous (map (fun b => group_id b o) l)) pi -> by_groups o (map (fun i => nth i l 0%Z) pi).
Proof.
  intros P FO. apply sorted_nth with (d := nth 0 l 0%Z). rewrite map_length. intros i j I J. rewrite !(map_nth (fun i => nth i l 0%Z)).
  assert (R : forall i, i < length pi -> nth i pi 0 < length l). { intros x X. assert (Y := nth_In pi 0 X). apply (Permutation_in _ P) in Y. apply in_seq in Y. lia. }
  specialize (FO i j I J). rewrite !nth_rank in FO by (apply R; lia). revert FO. apply rank_le; apply (in_map (fun b => group_id b o)); apply nth_In; apply R; lia.
Qed.

(* ---------------------------------------------------------- regrouping *)
Lemma regroup_exact l : forall i size s, ok s -> NoDup l -> ok (regroup l i size s) /\
  (forall x, ~ In x l -> zfind x (e2g (regroup l i size s)) = zfind x (e2g s)) /\
  (forall j x, nth_error l j = Some x -> zfind x (e2g (regroup l i size s)) = Some (if i + j <? size then 0%Z else 1%Z)).
Proof.
  induction l as [|e l IH]; intros i size s O N; cbn [regroup]; [split; [auto|]; split; [auto|]; intros [|j] x; discriminate|]. inversion N; subst.
  destruct (add_element e (if i <? size then 0%Z else 1%Z) s) as [s1 b] eqn:E. destruct (add_ok e _ s s1 b O E) as [O1 [B Fd]]. cbn [fst].
  assert (Bt : b = true) by (rewrite B; apply Z.leb_le; destruct (i <? size); lia). rewrite Bt in Fd. cbn [andb] in Fd.
  destruct (IH (S i) size s1 O1 H2) as [O2 [K1 K2]]. split; [exact O2|]. split.
  - intros x X. rewrite K1 by (intros Y; apply X; now right). rewrite Fd. destruct (Z.eqb_spec x e) as [->|]; [|auto]. exfalso. apply X. now left.
  - intros [|j] x J; cbn [nth_error] in J.
    + injection J as ->. rewrite K1 by auto. rewrite Fd, Z.eqb_refl, Nat.add_0_r. reflexivity.
    + rewrite (K2 j x J). now rewrite Nat.add_succ_r.
Qed.

(* ---------------------------------------------------------- the rest of the function *)
Section Finish.
Context (B : Build) (T : Tools) (F : Facts) (s : Solver) (lib : Library) (is_amd : bool) (ST : sound_tools T) (WT : working T).
Context (p0 : Prg) (o : og) (l : list Z) (es : list Z) (R : reduced F p0) (O : ok o) (H : forall b, has o b <-> In b (blocks p0)) (P : Permutation l (blocks p0))
  (E : FirstGroup o = Some es) (G : begins es l) (I : independent F p0 (fun b => In b es)).
Let k := length es.
Definition eigen_moves : Prop := s = SparseSchur /\ lib = EigenSparse /\ has_eigen B = true.
Definition step_ok (p : Prg) : Prop := rearranged p0 p /\ begins es (blocks p) /\ (by_groups o l -> ~ eigen_moves -> by_groups o (blocks p)) /\ residuals p = residuals p0.
Lemma set_step bl x : Permutation bl (blocks p0) -> begins es bl -> (by_groups o l -> ~ eigen_moves -> by_groups o bl) -> step_ok (SetIndex (mkPrg bl (residuals p0) x)).
Proof.
  intros Pb Gb S. split; [|cbn; auto]. split; [exact Pb|]. split; [apply Permutation_refl|]. apply set_index_ok. cbn [blocks]. eapply Permutation_NoDup; [apply Permutation_sym; exact Pb|apply R].
Qed.
Lemma suitesparse_step p : step_ok p -> exists p', ColumnsSuiteSparse B T F o p = Some p' /\ step_ok p'.
Proof.
  intros [RE [Gp [Sp Er]]]. unfold ColumnsSuiteSparse. destruct (has_suitesparse B); cbn [negb]; [|exists p; split; [auto|]; split; auto].
  destruct (camd T _ _ _) as [pi|] eqn:C; [|exfalso; eapply (proj1 WT); eauto]. cbn [or_zeros].
  assert (LC : length (Constraints o p) = length (blocks p)) by (unfold Constraints, Contiguous; now rewrite !map_length).
  destruct (st_camd T ST _ _ _ _ LC C) as [PI FO].
  destruct (permuted_ok _ _ PI) as [-> PB]. eexists. split; [reflexivity|]. rewrite Er.
  assert (PB0 : Permutation (map (fun i => nth i (blocks p) 0%Z) pi) (blocks p0)) by (eapply Permutation_trans; [exact PB|apply RE]).
  assert (BG := follows_by_groups o _ _ PI FO). apply set_step; auto.
  apply (by_groups_begins o); auto.
  - eapply Permutation_NoDup; [apply Permutation_sym; exact PB0|apply R].
  - intros b. rewrite H. split; apply Permutation_in; [apply Permutation_sym|]; auto.
Qed.
Lemma eigen_step p : step_ok p -> s = SparseSchur -> lib = EigenSparse -> exists p', ColumnsEigen B T F is_amd k p = Some p' /\ step_ok p'.
Proof.
  intros [RE [Gp [Sp Er]]] Es El. unfold ColumnsEigen. destruct (has_eigen B) eqn:HE; cbn [negb]; [|exists p; split; [auto|]; split; auto].
  assert (PI := st_eigen_schur T ST is_amd (length (blocks p)) k (SparsityTranspose F 0 p)). rewrite <- skipn_length in PI. destruct (permuted_ok _ _ PI) as [-> PB]. eexists. split; [reflexivity|]. rewrite Er.
  assert (Lk : length (firstn k (blocks p)) = k).
  { rewrite firstn_length. apply Nat.min_l. destruct (first_group o es O E) as [N [_ IN]]. unfold k. apply NoDup_incl_length; [auto|]. intros b Hb. apply (Permutation_in _ (Permutation_sym (proj1 RE))). apply H. apply IN. auto. }
  apply set_step.
  - eapply Permutation_trans; [|apply RE]. rewrite <- (firstn_skipn k (blocks p)) at 3. now apply Permutation_app_head.
  - intros b. fold k. rewrite firstn_app, Lk, Nat.sub_diag. cbn [firstn]. rewrite app_nil_r. rewrite firstn_firstn, Nat.min_id. apply Gp.
  - intros _ NE. exfalso. apply NE. split; auto.
Qed.
Theorem finish_ok : exists p', FinishSchur B T F s lib is_amd (mkPrg l (residuals p0) (index p0)) o = Ready p' o /\ rearranged p0 p' /\ begins es (blocks p') /\
  (by_groups o l -> ~ eigen_moves -> by_groups o (blocks p')) /\ 1 <= k <= length (blocks p') /\ no_two F p' k /\
  StronglySorted (fun r q => key F (index p') k r <= key F (index p') k q) (residuals p').
Proof.
  unfold FinishSchur. rewrite E. fold k.
  assert (Q0 : step_ok (SetIndex (mkPrg l (residuals p0) (index p0)))) by (apply set_step; auto).
  assert (Q : exists p, (match s, lib with SparseSchur, SuiteSparse => if is_amd then ColumnsSuiteSparse B T F o (SetIndex (mkPrg l (residuals p0) (index p0))) else Some (SetIndex (mkPrg l (residuals p0) (index p0)))
      | SparseSchur, EigenSparse => ColumnsEigen B T F is_amd k (SetIndex (mkPrg l (residuals p0) (index p0))) | _, _ => Some (SetIndex (mkPrg l (residuals p0) (index p0))) end) = Some p /\ step_ok p).
  { destruct s eqn:Es; try (eexists; split; [reflexivity|exact Q0]). destruct lib eqn:El; try (eexists; split; [reflexivity|exact Q0]).
    - destruct is_amd; [now apply suitesparse_step|eexists; split; [reflexivity|exact Q0]].
    - apply eigen_step; auto. }
  destruct Q as [p [-> [RE [Gp [Sp Er]]]]]. assert (Rp := reduced_again F p0 p R RE).
  destruct (first_group o es O E) as [NE [NN IN]].
  assert (K : 1 <= k <= length (blocks p)).
  { split; [unfold k; destruct es; [congruence|cbn; lia]|]. apply NoDup_incl_length; [auto|]. intros b Hb. apply (Permutation_in _ (Permutation_sym (proj1 RE))). apply H. apply IN. auto. }
  assert (N2 : no_two F p k).
  { intros r a b Hr Ua Ub La Lb. assert (Q : forall x, uses F r x -> (index p x < Z.of_nat k)%Z -> In x es).
    { intros x U L. apply Gp. apply (in_firstn_index p k x); [apply Rp|apply Rp|]. split; [|auto]. apply (rd_blocks F p Rp). eauto. }
    apply (I r a b); auto. rewrite <- Er. auto. }
  destruct (order_residuals F p k Rp K N2) as [rs [-> [PR S]]]. eexists. split; [reflexivity|].
  destruct RE as [RE1 [RE2 RE3]]. split; [|split; [exact Gp|split; [exact Sp|split; [exact K|split; [|exact S]]]]].
  - split; [exact RE1|]. split; [|exact RE3]. cbn [residuals]. rewrite <- Er. exact PR.
  - intros r a b Hr. apply N2. apply (Permutation_in _ PR). exact Hr.
Qed.
End Finish.
