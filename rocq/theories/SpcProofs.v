(* C84: blocks and patterns. *)
From Coq Require Import List Arith ZArith Bool Lia Permutation Sorted.
From Verif Require Import SpcModel SpcSpec.
Import ListNotations.
Open Scope nat_scope.

Lemma total_cons b bl : total (b :: bl) = size b + total bl. Proof. reflexivity. Qed.
Lemma contiguous_nth : forall bl o k b, contiguous o bl -> nth_error bl k = Some b -> position b = o + total (firstn k bl) /\ 0 < size b.
Proof.
  induction bl as [|x bl IH]; intros o [|k] b C E; cbn [nth_error firstn contiguous] in *; try discriminate.
  - injection E as <-. destruct C as [C1 [C2 _]]. unfold total. cbn. lia.
  - destruct C as [C1 [C2 C3]]. destruct (IH _ _ _ C3 E). rewrite total_cons. lia.
Qed.
Lemma contiguous_lt : forall bl o k k' b b', contiguous o bl -> nth_error bl k = Some b -> nth_error bl k' = Some b' -> k < k' -> position b + size b <= position b'.
Proof.
  induction bl as [|x bl IH]; intros o [|k] [|k'] b b' C E E' L; cbn in *; try discriminate; try lia; destruct C as [C1 [C2 C3]].
  - injection E as <-. destruct (contiguous_nth _ _ _ _ C3 E'). lia.
  - apply (IH _ _ _ _ _ C3 E E'). lia.
Qed.
Lemma lower_bound_spec : forall bl o k b, contiguous o bl -> nth_error bl k = Some b -> lower_bound bl (position b) = k.
Proof.
  induction bl as [|x bl IH]; intros o [|k] b C E; cbn [nth_error contiguous lower_bound] in *; try discriminate; destruct C as [C1 [C2 C3]].
  - injection E as <-. now rewrite Nat.ltb_irrefl.
  - destruct (contiguous_nth _ _ _ _ C3 E) as [P _]. destruct (Nat.ltb_spec (position x) (position b)); [|lia]. f_equal. eauto.
Qed.
Lemma detect_in rb o l x : contiguous o rb -> (In x (detect rb l) <-> exists b, nth_error rb x = Some b /\ In (position b) l).
Proof.
  intros C. unfold detect. rewrite in_flat_map. split.
  - intros [row [I J]]. cbn zeta in J. destruct (nth_error rb (lower_bound rb row)) as [b|] eqn:E; [|destruct J]. destruct (Nat.eqb_spec (position b) row) as [Q|Q]; [|destruct J]. destruct J as [<-|[]]. exists b. split; [auto|congruence].
  - intros [b [E I]]. exists (position b). split; [auto|]. cbn zeta. rewrite (lower_bound_spec _ _ _ _ C E), E, Nat.eqb_refl. now left.
Qed.
Lemma detect_sorted rb o : contiguous o rb -> forall l, StronglySorted lt l -> StronglySorted lt (detect rb l).
Proof.
  intros C. induction l as [|r l IH]; intros S; [constructor|]. inversion S as [|? ? S1 S2]; subst. unfold detect. cbn [flat_map]. fold (detect rb l). destruct (nth_error rb (lower_bound rb r)) as [b|] eqn:E; [|apply IH; auto]. destruct (Nat.eqb_spec (position b) r) as [Q|Q]; [|apply IH; auto]. cbn [app]. constructor; [auto|].
  apply Forall_forall. intros x X. apply (detect_in rb o l x C) in X. destruct X as [b' [E' I']]. rewrite Forall_forall in S2. specialize (S2 _ I'). destruct (lt_eq_lt_dec (lower_bound rb r) x) as [[L|L]|L]; [auto| |].
  - exfalso. rewrite <- L, E in E'. injection E' as <-. lia.
  - pose proof (contiguous_lt _ _ _ _ _ _ C E' E L). lia.
Qed.
Lemma detect_nodup rb o : contiguous o rb -> forall l, NoDup l -> NoDup (detect rb l).
Proof.
  intros C. induction l as [|r l IH]; intros S; [constructor|]. inversion S as [|? ? S1 S2]; subst. unfold detect. cbn [flat_map]. fold (detect rb l). destruct (nth_error rb (lower_bound rb r)) as [b|] eqn:E; [|apply IH; auto]. destruct (Nat.eqb_spec (position b) r) as [Q|Q]; [|apply IH; auto]. cbn [app]. constructor; [|auto].
  intros X. apply (detect_in rb o l _ C) in X. destruct X as [b' [E' I']]. rewrite E in E'. injection E' as <-. rewrite Q in I'. auto.
Qed.
Lemma detect_range rb l x : In x (detect rb l) -> x < length rb.
Proof. unfold detect. rewrite in_flat_map. intros [row [_ J]]. cbn zeta in J. destruct (nth_error rb (lower_bound rb row)) as [b|] eqn:E; [|destruct J]. destruct (position b =? row); [|destruct J]. destruct J as [<-|[]]. apply nth_error_Some. congruence. Qed.

(* reading a column *)
Lemma read_ok l : forall n idx, idx + n <= length l -> read l idx n = Done (firstn n (skipn idx l)).
Proof.
  induction n as [|n IH]; intros idx B; [reflexivity|]. cbn [read]. destruct (nth_error l idx) as [x|] eqn:E; [|apply nth_error_None in E; lia]. rewrite IH by lia. cbn [bind]. f_equal. apply nth_error_split in E. destruct E as [l1 [l2 [-> <-]]].
  replace (S (length l1)) with (length (l1 ++ [x])) by (rewrite app_length; cbn; lia). replace (skipn (length (l1 ++ [x])) (l1 ++ x :: l2)) with l2; [|change (x :: l2) with ([x] ++ l2); rewrite app_assoc, skipn_app, skipn_all, Nat.sub_diag; reflexivity].
  rewrite skipn_app, skipn_all, Nat.sub_diag. reflexivity.
Qed.
Lemma column_ok A c : well_formed A -> c < ncol A -> Column A c = Done (column A c).
Proof.
  intros [W1 [W2 _]] C. unfold Column, column. rewrite (nth_error_nth' (p A) 0) by lia. rewrite (nth_error_nth' (p A) 0 (n := S c)) by lia. specialize (W2 c C). apply read_ok. lia.
Qed.

(* the loop *)
Fixpoint found (A : Pattern) (rb cb : list Block) (c : nat) : list (list nat) := match cb with [] => [] | b :: cb' => detect rb (column A c) :: found A rb cb' (c + size b) end.
Fixpoint sums (last : nat) (L : list (list nat)) : list nat := match L with [] => [] | x :: L' => last + length x :: sums (last + length x) L' end.
Lemma to_blocks_ok A rb : well_formed A -> forall cb c o last, contiguous o cb -> c + total cb <= ncol A -> ToBlocks A rb cb c last = Done (concat (found A rb cb c), sums last (found A rb cb c)).
Proof.
  intros W. induction cb as [|b cb IH]; intros c o last C T; [reflexivity|]. rewrite total_cons in T. destruct C as [C1 [C2 C3]]. cbn [ToBlocks found concat sums]. rewrite column_ok by (auto; lia). cbn [bind]. rewrite (IH _ (o + size b)) by (auto; lia). reflexivity.
Qed.
Lemma found_length A rb : forall cb c, length (found A rb cb c) = length cb.
Proof. induction cb as [|b cb IH]; intros c; cbn; [reflexivity|]. now rewrite IH. Qed.
Lemma found_nth A rb : forall cb c k b, nth_error cb k = Some b -> nth k (found A rb cb c) [] = detect rb (column A (c + total (firstn k cb))).
Proof.
  induction cb as [|x cb IH]; intros c [|k] b E; cbn [nth_error firstn found nth] in *; try discriminate; [now rewrite Nat.add_0_r|]. rewrite (IH _ _ _ E), total_cons. do 2 f_equal. lia.
Qed.
Lemma sums_length : forall L last, length (sums last L) = length L. Proof. induction L as [|x L IH]; intros last; cbn; [reflexivity|]. now rewrite IH. Qed.
Lemma sums_nth : forall L last k, k <= length L -> nth k (last :: sums last L) 0 = last + length (concat (firstn k L)).
Proof.
  induction L as [|x L IH]; intros last [|k] B; cbn [length] in B; try (cbn; lia). cbn [sums firstn concat]. rewrite app_length. change (nth (S k) (last :: last + length x :: sums (last + length x) L) 0) with (nth k (last + length x :: sums (last + length x) L) 0). rewrite IH by lia. lia.
Qed.
Lemma column_found (L : list (list nat)) n m st k : k < length L -> column (mkPattern n m (0 :: sums 0 L) (concat L) st) k = nth k L [].
Proof.
  intros B. unfold column. cbn [p i]. rewrite !sums_nth by lia. cbn [Nat.add]. destruct (nth_error L k) as [x|] eqn:E; [|apply nth_error_None in E; lia]. rewrite (nth_error_nth _ _ _ E). apply nth_error_split in E. destruct E as [l1 [l2 [-> <-]]].
  replace (firstn (S (length l1)) (l1 ++ x :: l2)) with (l1 ++ [x]). 2:{ replace (S (length l1)) with (length (l1 ++ [x])) by (rewrite app_length; cbn; lia). change (x :: l2) with ([x] ++ l2). rewrite app_assoc. rewrite firstn_app, firstn_all, Nat.sub_diag. cbn. now rewrite app_nil_r. }
  rewrite firstn_app, firstn_all, Nat.sub_diag. cbn [firstn]. rewrite app_nil_r. rewrite !concat_app, app_length. cbn [concat]. rewrite app_nil_r. replace (length (concat l1) + length x - length (concat l1)) with (length x) by lia.
  rewrite skipn_app, skipn_all, Nat.sub_diag. cbn [app skipn]. rewrite firstn_app, firstn_all, Nat.sub_diag. cbn. now rewrite app_nil_r.
Qed.
Lemma block_matrix_ok A rb cb st : well_formed A -> contiguous 0 rb -> contiguous 0 cb -> total cb = ncol A ->
  exists br bc, CompressedColumnScalarMatrixToBlockMatrix A rb cb = Done (br, bc) /\ let Q := mkPattern (length rb) (length cb) bc br st in
  well_formed Q /\ forall jb b, nth_error cb jb = Some b -> column Q jb = detect rb (column A (position b)).
Proof.
  intros W CR CC T. unfold CompressedColumnScalarMatrixToBlockMatrix. rewrite (to_blocks_ok A rb W cb 0 0 0 CC) by lia. cbn [bind fst snd]. eexists _, _. split; [reflexivity|]. cbn zeta. split; [split; [|split]; cbn [p i nrow ncol]|].
  - cbn [length]. now rewrite sums_length, found_length.
  - intros c C. rewrite !sums_nth by (rewrite found_length; lia). cbn [Nat.add]. set (L := found A rb cb 0). assert (Y : length (concat L) = length (concat (firstn (S c) L)) + length (concat (skipn (S c) L))) by (rewrite <- app_length, <- concat_app, firstn_skipn; reflexivity). split; [|lia].
    assert (X : forall (l : list (list nat)) k, length (concat (firstn k l)) <= length (concat (firstn (S k) l))) by (induction l as [|x l IH]; intros [|k]; cbn [firstn concat]; rewrite ?app_length; cbn [length]; try lia; specialize (IH k); cbn [firstn concat] in IH; lia). apply X.
  - intros r I. apply in_concat in I. destruct I as [x [X R]]. clear T CC. generalize dependent X. generalize 0 as c. induction cb as [|b cb IH]; intros c X; [destruct X|]. cbn [found] in X. destruct X as [<-|X]; [exact (detect_range _ _ _ R)|exact (IH _ X)].
  - intros jb b E. rewrite column_found by (rewrite found_length; apply nth_error_Some; congruence). rewrite (found_nth _ _ _ _ _ _ E). destruct (contiguous_nth _ _ _ _ CC E) as [-> _]. reflexivity.
Qed.

(* the scalar ordering *)
Lemma total_app a b : total (a ++ b) = total a + total b. Proof. unfold total. now rewrite map_app, list_sum_app. Qed.
Lemma num_scalar bl : contiguous 0 bl -> NumScalarEntries bl = total bl.
Proof.
  intros C. unfold NumScalarEntries. destruct bl as [|b bl] using rev_ind; [reflexivity|]. clear IHbl. rewrite rev_app_distr. cbn [rev app]. rewrite total_app. assert (E : nth_error (bl ++ [b]) (length bl) = Some b) by (rewrite nth_error_app2, Nat.sub_diag by lia; reflexivity).
  destruct (contiguous_nth _ _ _ _ C E) as [-> _]. rewrite firstn_app, firstn_all, Nat.sub_diag. cbn [firstn]. rewrite app_nil_r. unfold total at 3. cbn. lia.
Qed.
Lemma entries_ok bl : forall o, (forall k, In k o -> k < length bl) -> entries bl o = Done (by_blocks bl o).
Proof.
  induction o as [|k o IH]; intros B; [reflexivity|]. cbn [entries]. rewrite (nth_error_nth' bl (mkBlock 0 0)) by (apply B; now left). rewrite IH by (intros; apply B; now right). reflexivity.
Qed.
Lemma by_blocks_seq bl : contiguous 0 bl -> by_blocks bl (seq 0 (length bl)) = seq 0 (total bl).
Proof.
  intros C. assert (X : forall l pre o, contiguous o l -> by_blocks (pre ++ l) (seq (length pre) (length l)) = seq o (total l)).
  { induction l as [|b l IH]; intros pre o CL; [reflexivity|]. destruct CL as [C1 [C2 C3]]. cbn [length seq]. unfold by_blocks. cbn [flat_map]. rewrite app_nth2, Nat.sub_diag by lia. cbn [nth]. fold (by_blocks (pre ++ b :: l) (seq (S (length pre)) (length l))).
    specialize (IH (pre ++ [b]) _ C3). rewrite <- app_assoc in IH. rewrite app_length in IH. cbn [length app] in IH. rewrite Nat.add_1_r in IH. rewrite IH, C2, total_cons, seq_app. reflexivity. }
  apply (X bl [] 0 C).
Qed.
Lemma by_blocks_perm bl o : contiguous 0 bl -> Permutation o (seq 0 (length bl)) -> Permutation (by_blocks bl o) (seq 0 (total bl)).
Proof. intros C P. rewrite <- (by_blocks_seq bl C). unfold by_blocks. now apply Permutation_flat_map. Qed.
Lemma scalar_ok bl o : contiguous 0 bl -> Permutation o (seq 0 (length bl)) -> BlockOrderingToScalarOrdering bl o = Done (by_blocks bl o).
Proof.
  intros C P. unfold BlockOrderingToScalarOrdering. pose proof (Permutation_length P) as L. rewrite seq_length in L. rewrite L, Nat.eqb_refl. rewrite entries_ok by (intros k I; apply (Permutation_in k P) in I; apply in_seq in I; lia). cbn [bind]. cbn zeta. rewrite (num_scalar _ C).
  pose proof (Permutation_length (by_blocks_perm bl o C P)) as L2. rewrite seq_length in L2. rewrite L2, Nat.leb_refl, Nat.sub_diag. cbn [repeat]. now rewrite app_nil_r.
Qed.
