Require Import ZArith List Lia Bool.
From Verif Require Import OrderedGroupsModel PartitionModel PartitionSpec.
Import ListNotations.
Open Scope Z_scope.

Lemma zsum_app : forall w n1 n2 a, zsum w a (n1 + n2) = zsum w a n1 + zsum w (a + Z.of_nat n1) n2.
Proof.
  induction n1 as [|n1 IH]; intros n2 a; cbn [zsum Nat.add].
  - rewrite Z.add_0_r. lia.
  - rewrite IH. replace (a + 1 + Z.of_nat n1) with (a + Z.of_nat (S n1)) by lia. lia.
Qed.

Lemma range_cost_split : forall w a b c, a <= b -> b <= c ->
  range_cost w a c = range_cost w a b + range_cost w b c.
Proof.
  intros w a b c H1 H2. unfold range_cost.
  replace (Z.to_nat (c - a)) with (Z.to_nat (b - a) + Z.to_nat (c - b))%nat by lia.
  rewrite zsum_app. replace (a + Z.of_nat (Z.to_nat (b - a))) with b by lia. auto.
Qed.

Lemma zsum_nonneg : forall w n a, (forall i, a <= i < a + Z.of_nat n -> 0 <= w i) -> 0 <= zsum w a n.
Proof.
  induction n as [|n IH]; intros a H; cbn [zsum]; [lia|].
  assert (0 <= w a) by (apply H; lia). assert (0 <= zsum w (a + 1) n) by (apply IH; intros; apply H; lia). lia.
Qed.

Lemma range_cost_nonneg : forall w a b, (forall i, a <= i < b -> 0 <= w i) -> 0 <= range_cost w a b.
Proof. intros. apply zsum_nonneg. intros. apply H. lia. Qed.

Lemma range_cost_same : forall w a, range_cost w a a = 0.
Proof. intros. unfold range_cost. rewrite Z.sub_diag. reflexivity. Qed.

Section P.
Variables (w c : Z -> Z) (start end_ m : Z).
Hypothesis Hstart : 0 <= start.
Hypothesis Hrange : start < end_.
Hypothesis Hm : 1 <= m.
Hypothesis Hw : forall i, 0 <= i < end_ -> 0 <= w i.
Hypothesis Hc : forall i, 0 <= i < end_ -> c i = range_cost w 0 (i + 1).

(** cost offset before position [a]. *)
Definition off (a : Z) : Z := range_cost w 0 a.

Lemma cum_cost : forall a i, 0 <= a <= i -> i < end_ -> c i = off a + range_cost w a (i + 1).
Proof. intros. rewrite Hc by lia. unfold off. apply range_cost_split; lia. Qed.

Lemma pp_spec : forall target n lo, let p := partition_point c target lo n in
  lo <= p <= lo + Z.of_nat n /\
  (forall i, lo <= i < p -> c i <= target) /\
  (p < lo + Z.of_nat n -> target < c p).
Proof.
  intros target; induction n as [|n IH]; intros lo; cbn [partition_point].
  - split; [lia|]. split; intros; lia.
  - destruct (c lo <=? target) eqn:E.
    + apply Z.leb_le in E. destruct (IH (lo + 1)) as [A [B C]]. split; [lia|]. split.
      * intros i Hi. destruct (Z.eq_dec i lo); [subst; auto|]. apply B. lia.
      * intros. apply C. lia.
    + apply Z.leb_gt in E. split; [lia|]. split; intros; lia.
Qed.

Lemma last_app1 : forall (l : list Z) x d, last (l ++ [x]) d = x.
Proof. intros. apply last_last. Qed.

Lemma increasing_app1 : forall l x y, increasing (l ++ [x]) -> x < y -> increasing ((l ++ [x]) ++ [y]).
Proof.
  induction l as [|a l IH]; intros x y H L; [simpl in *; auto|].
  destruct l as [|b l]; [simpl in *; tauto|].
  destruct H as [H1 H2]. split; [exact H1|]. exact (IH x y H2 L).
Qed.

Lemma costs_app1 : forall C l x y, costs_at_most w C (l ++ [x]) -> range_cost w x y <= C ->
  costs_at_most w C ((l ++ [x]) ++ [y]).
Proof.
  induction l as [|a l IH]; intros x y H L; [simpl in *; auto|].
  destruct l as [|b l]; [simpl in *; tauto|].
  destruct H as [H1 H2]. split; [exact H1|]. exact (IH x y H2 L).
Qed.

Lemma increasing_nondecreasing : forall l, increasing l -> nondecreasing l.
Proof.
  induction l as [|a l IH]; simpl; auto. destruct l; auto. intros [H1 H2]. split; [lia|auto].
Qed.

(** Soundness of the greedy loop. *)
Lemma feasible_sound : forall cost fuel pstart coff part r,
  0 <= start <= pstart -> pstart <= end_ -> coff = off pstart ->
  (exists pre, part = pre ++ [pstart]) -> hd_error part = Some start -> increasing part ->
  costs_at_most w cost part -> Z.of_nat (length part) <= m + 1 ->
  feasible_loop c end_ m cost fuel pstart coff part = Ok (true, r) ->
  hd_error r = Some start /\ last r 0 = end_ /\ increasing r /\
  Z.of_nat (length r) <= m + 1 /\ costs_at_most w cost r /\ (length part <= length r)%nat /\
  (pstart < end_ -> (length part < length r)%nat).
Proof.
  intros cost; induction fuel as [|fuel IH]; intros pstart coff part r H1 H2 Hoff [pre Hpart] Hhd Hinc Hcost Hlen H;
    cbn [feasible_loop] in H.
  - destruct (pstart <? end_) eqn:E; [discriminate|]. apply Z.ltb_ge in E. inversion H; subst.
    rewrite last_app1. repeat split; auto; try lia.
  - destruct (pstart <? end_) eqn:E.
    2:{ apply Z.ltb_ge in E. inversion H; subst. rewrite last_app1. repeat split; auto; try lia. }
    apply Z.ltb_lt in E.
    destruct (Z.of_nat (length part) >? m) eqn:Em; [discriminate|].
    rewrite Z.gtb_ltb in Em. apply Z.ltb_ge in Em.
    destruct (cost + coff >? INT_MAX) eqn:EO; [discriminate|].
    destruct (pp_spec (cost + coff) (Z.to_nat (end_ - pstart)) pstart) as [A [B C]].
    set (pend := partition_point c (cost + coff) pstart (Z.to_nat (end_ - pstart))) in *.
    destruct (pend =? pstart) eqn:Ep; [discriminate|]. apply Z.eqb_neq in Ep.
    assert (Hcc : c (pend - 1) = off pend).
    { rewrite Hc by lia. unfold off. f_equal. lia. }
    assert (RC : range_cost w pstart pend <= cost).
    { assert (K : c (pend - 1) <= cost + coff) by (apply B; lia).
      rewrite (cum_cost pstart) in K by lia. replace (pend - 1 + 1) with pend in K by lia. lia. }
    destruct (IH pend (c (pend - 1)) (part ++ [pend]) r) as [R1 [R2 [R3 [R4 [R5 [R6 R7]]]]]]; auto; try lia.
    + exists part; auto.
    + subst part. destruct pre; simpl in *; auto.
    + subst part. apply increasing_app1; auto; lia.
    + subst part. apply costs_app1; auto.
    + rewrite app_length. simpl. lia.
    + rewrite app_length in R6. simpl in R6. repeat split; auto; lia.
Qed.

(** Completeness of the greedy loop: it keeps ahead of any other partition. *)
Lemma feasible_complete : forall cost q sq fuel pstart coff part,
  0 <= sq <= pstart -> start <= pstart <= end_ -> coff = off pstart ->
  nondecreasing (sq :: q) -> costs_at_most w cost (sq :: q) -> last (sq :: q) 0 = end_ ->
  Z.of_nat (length part) + Z.of_nat (length q) <= m + 1 ->
  (Z.to_nat (end_ - pstart) <= fuel)%nat ->
  cost + off end_ <= INT_MAX ->
  exists r, feasible_loop c end_ m cost fuel pstart coff part = Ok (true, r).
Proof.
  intros cost q; induction q as [|q1 q IH]; intros sq fuel pstart coff part H1 H2 Hoff Hnd Hcs Hl Hlen Hf HO.
  - simpl in Hl. subst sq. assert (pstart = end_) by lia. subst pstart.
    destruct fuel; cbn [feasible_loop]; rewrite Z.ltb_irrefl; eauto.
  - assert (Hnd1 : sq <= q1 /\ nondecreasing (q1 :: q)) by exact Hnd.
    assert (Hcs1 : range_cost w sq q1 <= cost /\ costs_at_most w cost (q1 :: q)) by exact Hcs.
    assert (Hl1 : last (q1 :: q) 0 = end_) by exact Hl.
    destruct Hnd1 as [Hnd1 Hnd2]. destruct Hcs1 as [Hcs1 Hcs2].
    cbn [length] in Hlen.
    assert (Q1 : q1 <= end_).
    { clear - Hnd2 Hl1. revert q1 Hnd2 Hl1. induction q as [|b q IHq]; intros; simpl in *; [lia|].
      destruct Hnd2. assert (b <= end_) by (apply IHq; auto). lia. }
    destruct (Z_le_gt_dec q1 pstart) as [L|L].
    + apply (IH q1); auto; lia.
    + destruct fuel as [|fuel]; [lia|]. cbn [feasible_loop].
      assert (E : (pstart <? end_) = true) by (apply Z.ltb_lt; lia). rewrite E.
      assert (E2 : (Z.of_nat (length part) >? m) = false) by (rewrite Z.gtb_ltb; apply Z.ltb_ge; lia).
      rewrite E2.
      assert (OP : off pstart <= off end_).
      { unfold off. rewrite (range_cost_split w 0 pstart end_) by lia.
        pose proof (range_cost_nonneg w pstart end_) as K.
        assert (0 <= range_cost w pstart end_) by (apply K; intros; apply Hw; lia). lia. }
      assert (E3 : (cost + coff >? INT_MAX) = false) by (rewrite Z.gtb_ltb; apply Z.ltb_ge; lia).
      rewrite E3.
      destruct (pp_spec (cost + coff) (Z.to_nat (end_ - pstart)) pstart) as [A [B C]].
      set (pend := partition_point c (cost + coff) pstart (Z.to_nat (end_ - pstart))) in *.
      assert (PQ : q1 <= pend).
      { destruct (Z_le_gt_dec q1 pend) as [?|G]; auto. exfalso.
        assert (K : cost + coff < c pend) by (apply C; lia).
        rewrite (cum_cost pstart) in K by lia.
        assert (S1 : range_cost w sq q1 = range_cost w sq pstart + range_cost w pstart q1)
          by (apply range_cost_split; lia).
        assert (S2 : range_cost w pstart q1 = range_cost w pstart (pend + 1) + range_cost w (pend + 1) q1)
          by (apply range_cost_split; lia).
        assert (0 <= range_cost w sq pstart) by (apply range_cost_nonneg; intros; apply Hw; lia).
        assert (0 <= range_cost w (pend + 1) q1) by (apply range_cost_nonneg; intros; apply Hw; lia).
        lia. }
      assert (E4 : (pend =? pstart) = false) by (apply Z.eqb_neq; lia). rewrite E4.
      apply (IH q1); auto; try lia.
      * rewrite Hc by lia. unfold off. f_equal. lia.
      * rewrite app_length. simpl. lia.
Qed.

(** The greedy loop always gives an answer when there is no overflow. *)
Lemma feasible_defined : forall cost fuel pstart coff part,
  start <= pstart <= end_ -> coff = off pstart ->
  (Z.to_nat (end_ - pstart) <= fuel)%nat -> cost + off end_ <= INT_MAX ->
  exists b r, feasible_loop c end_ m cost fuel pstart coff part = Ok (b, r).
Proof.
  intros cost; induction fuel as [|fuel IH]; intros pstart coff part H1 Hoff Hf HO; cbn [feasible_loop].
  - assert (E : (pstart <? end_) = false) by (apply Z.ltb_ge; lia). rewrite E. eauto.
  - destruct (pstart <? end_) eqn:E; [|eauto]. apply Z.ltb_lt in E.
    destruct (Z.of_nat (length part) >? m); [eauto|].
    assert (OP : off pstart <= off end_).
    { unfold off. rewrite (range_cost_split w 0 pstart end_) by lia.
      assert (0 <= range_cost w pstart end_) by (apply range_cost_nonneg; intros; apply Hw; lia). lia. }
    assert (E3 : (cost + coff >? INT_MAX) = false) by (rewrite Z.gtb_ltb; apply Z.ltb_ge; lia).
    rewrite E3.
    destruct (pp_spec (cost + coff) (Z.to_nat (end_ - pstart)) pstart) as [A [B C]].
    set (pend := partition_point c (cost + coff) pstart (Z.to_nat (end_ - pstart))) in *.
    destruct (pend =? pstart) eqn:Ep; [eauto|]. apply Z.eqb_neq in Ep.
    apply IH; try lia. rewrite Hc by lia. unfold off. f_equal. lia.
Qed.

(** No partition can beat the average. *)
Lemma costs_total : forall C p, nondecreasing p -> costs_at_most w C p -> (1 <= length p)%nat ->
  0 <= hd 0 p -> last p 0 <= end_ ->
  range_cost w (hd 0 p) (last p 0) <= C * (Z.of_nat (length p) - 1).
Proof.
  intros C p; induction p as [|a p IH]; [simpl; lia|]. intros Hnd Hcs _ H0 HE.
  destruct p as [|b p].
  - simpl. rewrite range_cost_same. lia.
  - destruct Hnd as [N1 N2]. destruct Hcs as [C1 C2].
    change (last (a :: b :: p) 0) with (last (b :: p) 0) in *. cbn [hd] in *.
    assert (IH' := IH N2 C2 ltac:(simpl; lia) ltac:(lia) HE).
    assert (BL : b <= last (b :: p) 0).
    { clear - N2. revert b N2. induction p as [|d p IHp]; intros; simpl in *; [lia|].
      destruct N2. specialize (IHp d H0). simpl in IHp. lia. }
    rewrite (range_cost_split w a b (last (b :: p) 0)) by lia.
    cbn [length] in *. lia.
Qed.

Lemma is_partition_facts : forall p, is_partition start end_ m p -> hd 0 p = start /\ (1 <= length p)%nat /\ nondecreasing p.
Proof.
  intros p [H1 [H2 [H3 [H4 H5]]]]. destruct p; [discriminate|]. simpl in H1. inversion H1; subst.
  repeat split; auto. simpl; lia.
Qed.

Definition tot := range_cost w start end_.

Lemma tot_nonneg : 0 <= tot.
Proof. apply range_cost_nonneg. intros; apply Hw; lia. Qed.

Definition infeasible (C : Z) : Prop := forall p, is_partition start end_ m p -> ~ costs_at_most w C p.

Lemma below_average_infeasible : infeasible (Z.quot tot m - 1).
Proof.
  intros p Hp Hcs. destruct (is_partition_facts p Hp) as [F1 [F2 F3]].
  destruct Hp as [H1 [H2 [H3 [H4 H5]]]].
  pose proof (costs_total _ p F3 Hcs F2) as K. rewrite F1, H2 in K.
  specialize (K ltac:(lia) ltac:(lia)). fold tot in K.
  pose proof tot_nonneg as T.
  assert (Q : Z.quot tot m = tot / m) by (apply Z.quot_div_nonneg; lia).
  rewrite Q in K.
  pose proof (Z.mul_div_le tot m ltac:(lia)) as D.
  pose proof (Z.div_pos tot m T ltac:(lia)) as DP.
  set (q := tot / m) in *. set (L := Z.of_nat (length p) - 1) in *.
  assert (1 <= L <= m) by lia.
  destruct (Z_le_gt_dec q 0).
  - assert (q = 0) by lia. nia.
  - nia.
Qed.

Lemma feasible_iff : forall cost, cost + off end_ <= INT_MAX ->
  exists b r, max_partition_cost_is_feasible c start end_ m cost (off start) = Ok (b, r) /\
  (b = true -> is_partition start end_ m r /\ increasing r /\ costs_at_most w cost r) /\
  (b = false -> infeasible cost).
Proof.
  intros cost HO. unfold max_partition_cost_is_feasible.
  destruct (feasible_defined cost (Z.to_nat (end_ - start)) start (off start) [start]) as [b [r E]]; auto; try lia.
  exists b, r. split; auto. split; intros ->.
  - destruct (feasible_sound cost (Z.to_nat (end_ - start)) start (off start) [start] r ltac:(lia) ltac:(lia) eq_refl (ex_intro _ [] eq_refl)
              ltac:(reflexivity) ltac:(simpl; auto) ltac:(simpl; auto) ltac:(simpl; lia) E)
      as [R1 [R2 [R3 [R4 [R5 [R6 R7]]]]]].
    split; [|split; auto]. split; [auto|split; [auto|split; [|split; [auto|apply increasing_nondecreasing; auto]]]].
    specialize (R7 Hrange). simpl in R7. lia.
  - intros p [H1 [H2 [H3 [H4 H5]]]] Hcs. destruct p as [|s p]; [discriminate|].
    simpl in H1. inversion H1; subst s.
    destruct (feasible_complete cost p start (Z.to_nat (end_ - start)) start (off start) [start]) as [r' E']; auto; try lia.
    + cbn [length] in *. lia.
    + congruence.
Qed.

Lemma search_ok : forall fuel lower upper pu,
  (Z.to_nat (upper - lower) <= fuel)%nat -> lower < upper ->
  upper + off end_ <= INT_MAX ->
  infeasible lower -> is_partition start end_ m pu -> increasing pu -> costs_at_most w upper pu ->
  exists r, search_loop c start end_ m (off start) fuel lower upper pu = Ok r /\
    is_partition start end_ m r /\ increasing r /\
    forall q C, is_partition start end_ m q -> costs_at_most w C q -> costs_at_most w C r.
Proof.
  induction fuel as [|fuel IH]; intros lower upper pu Hf Hlu HO Hinf Hp Hi Hc'; cbn [search_loop].
  - lia.
  - destruct (upper - lower >? 1) eqn:E.
    + rewrite Z.gtb_ltb in E. apply Z.ltb_lt in E.
      assert (D1 : 1 <= (upper - lower) / 2) by (apply Z.div_le_lower_bound; lia).
      assert (D2 : (upper - lower) / 2 < upper - lower) by (apply Z.div_lt_upper_bound; lia).
      set (cost := lower + (upper - lower) / 2) in *.
      destruct (feasible_iff cost ltac:(lia)) as [b [r [F [T1 T2]]]]. rewrite F. destruct b.
      * destruct (T1 eq_refl) as [A1 [A2 A3]]. apply IH; auto; lia.
      * apply IH; auto; lia.
    + rewrite Z.gtb_ltb in E. apply Z.ltb_ge in E. exists pu. split; auto. split; auto. split; auto.
      intros q C Hq HC.
      destruct (Z_le_gt_dec upper C) as [L|L].
      * clear - L Hc'. induction pu as [|a pu IHp]; simpl in *; auto. destruct pu; auto.
        destruct Hc'. split; [lia|auto].
      * exfalso. apply (Hinf q Hq). clear - L HC E.
        induction q as [|a q IHq]; simpl in *; auto. destruct q; auto. destruct HC. split; [lia|auto].
Qed.

Lemma off_start : (if start =? 0 then 0 else c (start - 1)) = off start.
Proof.
  destruct (start =? 0) eqn:E.
  - apply Z.eqb_eq in E. rewrite E. unfold off. rewrite range_cost_same. auto.
  - apply Z.eqb_neq in E. rewrite Hc by lia. unfold off. f_equal. lia.
Qed.

Theorem partition_range_correct :
  2 * c (end_ - 1) <= INT_MAX ->
  exists p, partition_range c start end_ m = Ok p /\
    is_partition start end_ m p /\ increasing p /\
    forall q C, is_partition start end_ m q -> costs_at_most w C q -> costs_at_most w C p.
Proof.
  intros HO. unfold partition_range. rewrite off_start.
  assert (T : c (end_ - 1) - off start = tot).
  { rewrite (cum_cost start) by lia. replace (end_ - 1 + 1) with end_ by lia. unfold tot. lia. }
  assert (TE : c (end_ - 1) = off end_).
  { rewrite Hc by lia. unfold off. f_equal. lia. }
  rewrite T.
  assert (OS : 0 <= off start) by (apply range_cost_nonneg; intros; apply Hw; lia).
  pose proof tot_nonneg as TN.
  apply search_ok; auto; try lia.
  - rewrite Z.quot_div_nonneg by lia. pose proof (Z.div_le_upper_bound tot m tot ltac:(lia) ltac:(nia)). lia.
  - apply below_average_infeasible.
  - split; [reflexivity|]. split; [reflexivity|]. split; [simpl; lia|]. split; [simpl; lia|]. simpl. lia.
  - simpl. lia.
  - simpl. split; [|auto]. unfold tot. lia.
Qed.
End P.

(** ** Triangular index *)
Lemma upper_in_range : forall n k, 0 <= n -> 0 <= k < n * (n + 1) / 2 ->
  let '(i, j) := linear_to_upper k n in 0 <= i <= j /\ j < n.
Proof.
  intros n k Hn Hk. unfold linear_to_upper.
  pose proof (Zodd_mod n). pose proof (Zeven_mod n).
  assert (2 * (n * (n + 1) / 2) <= n * (n + 1)) by (apply Z.mul_div_le; lia).
  destruct (Z.odd n) eqn:O.
  - assert (0 < n) by (destruct (Z.eq_dec n 0); [subst; discriminate|lia]).
    rewrite Z.quot_div_nonneg, Z.rem_mod_nonneg by lia.
    pose proof (Z.div_mod k n ltac:(lia)). pose proof (Z.mod_pos_bound k n ltac:(lia)).
    set (i0 := k / n) in *. set (j0 := k mod n) in *.
    assert (0 <= i0) by (apply Z.div_pos; lia).
    assert (2 * i0 < n + 1) by nia.
    destruct (j0 >=? i0) eqn:E.
    + apply Z.geb_le in E. lia.
    + rewrite Z.geb_leb in E. apply Z.leb_gt in E. lia.
  - rewrite Z.quot_div_nonneg, Z.rem_mod_nonneg by lia.
    pose proof (Z.div_mod k (n + 1) ltac:(lia)). pose proof (Z.mod_pos_bound k (n + 1) ltac:(lia)).
    set (i0 := k / (n + 1)) in *. set (j0 := k mod (n + 1)) in *.
    assert (0 <= i0) by (apply Z.div_pos; lia).
    assert (2 * i0 < n) by nia.
    destruct (j0 >? i0) eqn:E.
    + rewrite Z.gtb_ltb in E. apply Z.ltb_lt in E. lia.
    + rewrite Z.gtb_ltb in E. apply Z.ltb_ge in E. lia.
Qed.

Lemma odd_half : forall n, Z.odd n = true -> exists h, n = 2 * h + 1.
Proof. intros n H. apply Z.odd_spec in H. destruct H as [h H]. eauto. Qed.
Lemma even_half : forall n, Z.odd n = false -> exists h, n = 2 * h.
Proof.
  intros n H. assert (E : Z.even n = true) by (rewrite <- Z.negb_odd, H; auto).
  apply Z.even_spec in E. destruct E as [h E]. eauto.
Qed.

Lemma tri_odd : forall h, (2 * h + 1) * (2 * h + 1 + 1) / 2 = (2 * h + 1) * (h + 1).
Proof. intros. replace ((2 * h + 1) * (2 * h + 1 + 1)) with ((2 * h + 1) * (h + 1) * 2) by ring. apply Z.div_mul. lia. Qed.
Lemma tri_even : forall h, (2 * h) * (2 * h + 1) / 2 = h * (2 * h + 1).
Proof. intros. replace (2 * h * (2 * h + 1)) with (h * (2 * h + 1) * 2) by ring. apply Z.div_mul. lia. Qed.

Lemma upper_surj : forall n i j, 0 <= n -> 0 <= i <= j -> j < n ->
  exists k, 0 <= k < n * (n + 1) / 2 /\ linear_to_upper k n = (i, j).
Proof.
  intros n i j Hn Hi Hj. unfold linear_to_upper. destruct (Z.odd n) eqn:O.
  - destruct (odd_half n O) as [h Hh]. assert (T : n * (n + 1) / 2 = n * (h + 1)) by (rewrite Hh; apply tri_odd). rewrite T.
    destruct (Z_le_gt_dec i h).
    + exists (i * n + j). split; [nia|].
      assert (Q : (i * n + j) / n = i) by (rewrite Z.div_add_l by lia; rewrite Z.div_small by lia; lia).
      assert (R : (i * n + j) mod n = j) by (rewrite Z.add_comm, Z_mod_plus_full, Z.mod_small by lia; lia).
      rewrite Z.quot_div_nonneg, Z.rem_mod_nonneg by nia. rewrite Q, R.
      assert (E : (j >=? i) = true) by (apply Z.geb_le; lia). rewrite E. auto.
    + exists ((n - i) * n + (j - i)). split; [nia|].
      assert (Q : ((n - i) * n + (j - i)) / n = n - i) by (rewrite Z.div_add_l by lia; rewrite Z.div_small by lia; lia).
      assert (R : ((n - i) * n + (j - i)) mod n = j - i) by (rewrite Z.add_comm, Z_mod_plus_full, Z.mod_small by lia; lia).
      rewrite Z.quot_div_nonneg, Z.rem_mod_nonneg by nia. rewrite Q, R.
      assert (E : (j - i >=? n - i) = false) by (rewrite Z.geb_leb; apply Z.leb_gt; lia). rewrite E. f_equal; lia.
  - destruct (even_half n O) as [h Hh]. assert (T : n * (n + 1) / 2 = h * (n + 1)) by (rewrite Hh; apply tri_even). rewrite T.
    destruct (Z_lt_ge_dec i h).
    + exists (i * (n + 1) + (j + 1)). split; [nia|].
      assert (Q : (i * (n + 1) + (j + 1)) / (n + 1) = i) by (rewrite Z.div_add_l by lia; rewrite Z.div_small by lia; lia).
      assert (R : (i * (n + 1) + (j + 1)) mod (n + 1) = j + 1) by (rewrite Z.add_comm, Z_mod_plus_full, Z.mod_small by lia; lia).
      rewrite Z.quot_div_nonneg, Z.rem_mod_nonneg by nia. rewrite Q, R.
      assert (E : (j + 1 >? i) = true) by (rewrite Z.gtb_ltb; apply Z.ltb_lt; lia). rewrite E. f_equal; lia.
    + exists ((n - 1 - i) * (n + 1) + (j - i)). split; [nia|].
      assert (Q : ((n - 1 - i) * (n + 1) + (j - i)) / (n + 1) = n - 1 - i) by (rewrite Z.div_add_l by lia; rewrite Z.div_small by lia; lia).
      assert (R : ((n - 1 - i) * (n + 1) + (j - i)) mod (n + 1) = j - i) by (rewrite Z.add_comm, Z_mod_plus_full, Z.mod_small by lia; lia).
      rewrite Z.quot_div_nonneg, Z.rem_mod_nonneg by nia. rewrite Q, R.
      assert (E : (j - i >? n - 1 - i) = false) by (rewrite Z.gtb_ltb; apply Z.ltb_ge; lia). rewrite E. f_equal; lia.
Qed.

Lemma upper_inj : forall n k1 k2, 0 <= n -> 0 <= k1 < n * (n + 1) / 2 -> 0 <= k2 < n * (n + 1) / 2 ->
  linear_to_upper k1 n = linear_to_upper k2 n -> k1 = k2.
Proof.
  intros n k1 k2 Hn. unfold linear_to_upper. destruct (Z.odd n) eqn:O.
  - destruct (odd_half n O) as [h Hh]. assert (T : n * (n + 1) / 2 = n * (h + 1)) by (rewrite Hh; apply tri_odd). rewrite T. intros H1 H2.
    rewrite !Z.quot_div_nonneg, !Z.rem_mod_nonneg by nia.
    pose proof (Z.div_mod k1 n ltac:(lia)) as D1. pose proof (Z.mod_pos_bound k1 n ltac:(lia)) as B1.
    pose proof (Z.div_mod k2 n ltac:(lia)) as D2. pose proof (Z.mod_pos_bound k2 n ltac:(lia)) as B2.
    pose proof (Z.div_pos k1 n ltac:(lia) ltac:(lia)). pose proof (Z.div_pos k2 n ltac:(lia) ltac:(lia)).
    set (i1 := k1 / n) in *. set (j1 := k1 mod n) in *. set (i2 := k2 / n) in *. set (j2 := k2 mod n) in *.
    assert (i1 <= h) by nia. assert (i2 <= h) by nia.
    rewrite !Z.geb_leb.
    destruct (i1 <=? j1) eqn:E1; destruct (i2 <=? j2) eqn:E2; intros E; inversion E; try nia;
      rewrite ?Z.leb_le, ?Z.leb_gt in *; nia.
  - destruct (even_half n O) as [h Hh].
    assert (T : n * (n + 1) / 2 = h * (n + 1)) by (rewrite Hh; apply tri_even). rewrite T. intros H1 H2.
    rewrite !Z.quot_div_nonneg, !Z.rem_mod_nonneg by nia.
    pose proof (Z.div_mod k1 (n + 1) ltac:(lia)) as D1. pose proof (Z.mod_pos_bound k1 (n + 1) ltac:(lia)) as B1.
    pose proof (Z.div_mod k2 (n + 1) ltac:(lia)) as D2. pose proof (Z.mod_pos_bound k2 (n + 1) ltac:(lia)) as B2.
    pose proof (Z.div_pos k1 (n + 1) ltac:(lia) ltac:(lia)). pose proof (Z.div_pos k2 (n + 1) ltac:(lia) ltac:(lia)).
    set (i1 := k1 / (n + 1)) in *. set (j1 := k1 mod (n + 1)) in *.
    set (i2 := k2 / (n + 1)) in *. set (j2 := k2 mod (n + 1)) in *.
    assert (i1 < h) by nia. assert (i2 < h) by nia.
    rewrite !Z.gtb_ltb.
    destruct (i1 <? j1) eqn:E1; destruct (i2 <? j2) eqn:E2; intros E; inversion E; try nia;
      rewrite ?Z.ltb_lt, ?Z.ltb_ge in *; nia.
Qed.
