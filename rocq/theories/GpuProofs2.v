(* C82: launches, row offsets, columns. *)
From Coq Require Import Reals List Arith Bool Lia Permutation.
From Verif Require Import SchurModel BlockSparseModel BlockSparseSpec BlockSparseProofs BlockSparseProofs2 GpuModel GpuSpec GpuProofs.
Import ListNotations.
Close Scope R_scope. Open Scope nat_scope.

Lemma fold_write {A} (ws : list (nat * A)) : forall m p, (~ In p (map fst ws) -> fold_left write ws m p = m p) /\ (forall v, NoDup (map fst ws) -> In (p, v) ws -> fold_left write ws m p = v).
Proof.
  induction ws as [|[a x] ws IH]; intros m p; cbn [map fold_left fst In]; [split; [auto|intros v _ []]|]. split.
  - intros N. rewrite (proj1 (IH _ p)) by tauto. unfold write. cbn. destruct (Nat.eqb_spec p a); [exfalso; apply N; auto|auto].
  - intros v ND [E|I]; inversion ND as [|y l N1 N2]; subst.
    + injection E as -> ->. rewrite (proj1 (IH _ p)) by auto. unfold write. cbn. now rewrite Nat.eqb_refl.
    + now apply IH.
Qed.
Lemma launch_in {A} (ws : list (nat * A)) m m' p v : launch ws m m' -> NoDup (map fst ws) -> In (p, v) ws -> m' p = v.
Proof.
  intros [order [P H]] N I. rewrite H. apply (proj2 (fold_write order m p)); [eapply Permutation_NoDup; [apply Permutation_map, Permutation_sym, P|auto]|eapply Permutation_in; [apply Permutation_sym, P|auto]].
Qed.
Lemma launch_out {A} (ws : list (nat * A)) m m' p : launch ws m m' -> ~ In p (map fst ws) -> m' p = m p.
Proof. intros [order [P H]] N. rewrite H. apply (proj1 (fold_write order m p)). intros I. apply N. eapply Permutation_in; [apply Permutation_map, P|auto]. Qed.
Lemma all_some_map {A B} (f : A -> option B) g l : (forall x, In x l -> f x = Some (g x)) -> all_some (map f l) = Some (map g l).
Proof. induction l as [|x l IH]; intros H; cbn [map all_some]; [reflexivity|]. rewrite (H x (or_introl eq_refl)), IH; auto. intros y Y. apply H. now right. Qed.

(* the search *)
Lemma search_ok data d id n : (forall i, i < n -> data i = Some (d i)) -> forall fuel first last, first < last <= n -> last - first < fuel -> d first <= id -> (last < n -> id < d last) ->
  exists rb, search fuel data id first last = Some (S rb) /\ rb < n /\ d rb <= id /\ (S rb < n -> id < d (S rb)).
Proof.
  intros D. induction fuel as [|fuel IH]; intros first last B FU H1 H2; [lia|]. cbn [search]. destruct (Nat.ltb_spec 1 (last - first)) as [L|L].
  - assert (M : 1 <= (last - first) / 2 < last - first) by (split; [apply Nat.div_le_lower_bound; lia|apply Nat.div_lt; lia]). rewrite D by lia. destruct (Nat.leb_spec (d (first + (last - first) / 2)) id) as [Q|Q]; apply IH; auto; lia.
  - exists first. assert (E : last = S first) by lia. rewrite E in *. split; [reflexivity|]. split; [lia|]. auto.
Qed.
Lemma point_ok data d id n : 0 < n -> (forall i, i < n -> data i = Some (d i)) -> d 0 <= id ->
  exists rb, PartitionPoint data id n = Some (S rb) /\ rb < n /\ d rb <= id /\ (S rb < n -> id < d (S rb)).
Proof. intros N D H. unfold PartitionPoint. rewrite D by lia. destruct (Nat.leb_spec (d 0) id) as [Q|Q]; [|lia]. apply search_ok; auto; lia. Qed.

Section Rows.
Variable bl : list Block.
Notation W := (widths bl).
Definition dr : Row := mkRow (mkBlock 0 0) [].
Lemma rooms_firstn rs k : k < length rs -> rooms bl (firstn (S k) rs) = rooms bl (firstn k rs) + room bl (nth k rs dr).
Proof. revert k. induction rs as [|r rs IH]; intros [|k] L; cbn [length firstn rooms nth] in *; try lia. rewrite <- Nat.add_assoc, <- IH by lia. reflexivity. Qed.
Lemma rooms_mono rs i j : i <= j -> rooms bl (firstn i rs) <= rooms bl (firstn j rs).
Proof. revert i j. induction rs as [|r rs IH]; intros [|i] [|j] L; cbn [firstn rooms]; try lia. specialize (IH i j). lia. Qed.
Lemma rooms_all rs i : rooms bl (firstn i rs) <= rooms bl rs.
Proof. rewrite <- (firstn_skipn i rs) at 2. rewrite rooms_app. lia. Qed.
(* the row offsets *)
Definition row_of (rs : list Row) (k i : nat) : nat := position (block (nth k rs dr)) + i.
Lemma widths_app a b : W (a ++ b) = W a + W b.
Proof. induction a as [|x a IH]; cbn [app widths]; [reflexivity|]. rewrite IH. lia. Qed.
Lemma scan_rows (m : nat -> nat) : forall rs p0, laid_out p0 (map block rs) -> (forall k i, k < length rs -> i < size (block (nth k rs dr)) -> m (S (row_of rs k i)) = W (cells (nth k rs dr))) ->
  (forall k i, k < length rs -> i <= size (block (nth k rs dr)) -> scan m (row_of rs k i) = scan m p0 + rooms bl (firstn k rs) + i * W (cells (nth k rs dr))) /\ scan m (p0 + total (map block rs)) = scan m p0 + rooms bl rs.
Proof.
  induction rs as [|r rs IH]; intros p0 L M; [split; [cbn; lia|cbn; rewrite !Nat.add_0_r; auto]|]. cbn [map laid_out] in L. destruct L as [E L].
  assert (H0 : forall i, i <= size (block r) -> scan m (p0 + i) = scan m p0 + i * W (cells r)).
  { induction i as [|i IHi]; intros LE; [cbn; rewrite !Nat.add_0_r; auto|]. rewrite <- plus_n_Sm. cbn [scan]. rewrite IHi by lia. generalize (M 0 i ltac:(cbn; lia) LE). unfold row_of. cbn [nth]. rewrite E. intros ->. lia. }
  destruct (IH (p0 + size (block r)) L) as [I1 I2]. { intros k i K I. apply (M (S k) i); cbn; auto; lia. }
  rewrite (H0 (size (block r)) (le_n _)) in I1, I2. split.
  - intros [|k] i K I; cbn [length firstn rooms nth] in *.
    + unfold row_of. cbn [nth]. rewrite E, H0 by auto. lia.
    + change (row_of (r :: rs) (S k) i) with (row_of rs k i). rewrite I1 by (auto; lia). unfold room. lia.
  - cbn [map total fold_right rooms]. fold (total (map block rs)). rewrite Nat.add_assoc, I2. unfold room. lia.
Qed.
Lemma row_of_inj : forall rs p0 k i k' i', laid_out p0 (map block rs) -> k < length rs -> k' < length rs -> i < size (block (nth k rs dr)) -> i' < size (block (nth k' rs dr)) -> row_of rs k i = row_of rs k' i' -> k = k' /\ i = i'.
Proof.
  assert (LB : forall rs p0 k, laid_out p0 (map block rs) -> k < length rs -> p0 <= position (block (nth k rs dr))).
  { induction rs as [|r rs IH]; intros p0 [|k] L K; cbn [length map laid_out nth] in *; try lia. destruct L as [_ L]. specialize (IH _ k L ltac:(lia)). lia. }
  induction rs as [|r rs IH]; intros p0 k i k' i' L K K' I I' E; cbn [length] in *; [lia|]. cbn [map laid_out] in L. destruct L as [E0 L]. destruct k as [|k], k' as [|k']; cbn [nth] in *.
  - unfold row_of in E. cbn [nth] in E. lia.
  - specialize (LB rs _ k' L ltac:(lia)). unfold row_of in E. cbn [nth] in E. lia.
  - specialize (LB rs _ k L ltac:(lia)). unfold row_of in E. cbn [nth] in E. lia.
  - destruct (IH _ k i k' i' L ltac:(lia) ltac:(lia) I I' E). auto.
Qed.
Lemma row_of_bound rs p0 k i : laid_out p0 (map block rs) -> k < length rs -> i < size (block (nth k rs dr)) -> row_of rs k i < p0 + total (map block rs).
Proof.
  intros L K I. generalize (laid_bound p0 (map block rs) k (block dr) L ltac:(now rewrite map_length)). rewrite map_nth. unfold row_of. lia.
Qed.
Lemma row_of_find rs p : laid_out 0 (map block rs) -> p < total (map block rs) -> exists k i, k < length rs /\ i < size (block (nth k rs dr)) /\ p = row_of rs k i.
Proof.
  intros L B. destruct (laid_find 0 _ L p) as [k [K H]]; [lia|]. rewrite map_length in K. apply holds_spec in H. unfold within in H. change (mkBlock 0 0) with (block dr) in H. rewrite map_nth in H.
  exists k, (p - position (block (nth k rs dr))). unfold row_of. split; [auto|]. split; lia.
Qed.
(* rows of the blocks, one after the other *)
Lemma rows_seq : forall bs p0, laid_out p0 bs -> flat_map (fun b => seq (position b) (size b)) bs = seq p0 (total bs).
Proof.
  induction bs as [|b bs IH]; intros p0 L; cbn [flat_map total fold_right]; [reflexivity|]. destruct L as [E L]. rewrite (IH _ L), E, seq_app. reflexivity.
Qed.
Lemma nth_seq_map {A B} (f : A -> B) (d : A) (l : list A) (g : nat -> B) : (forall k, k < length l -> g k = f (nth k l d)) -> map g (seq 0 (length l)) = map f l.
Proof. intros H. rewrite <- (map_nth_seq f d l). apply map_ext_in. intros k I. apply in_seq in I. apply H. lia. Qed.
Lemma per_row (rs : list Row) (g : nat -> nat -> nat * nat) (f : nat -> nat) : laid_out 0 (map block rs) -> (forall k i, fst (g k i) = f i) ->
  map fst (concat (map (fun k => map (g k) (seq (position (block (nth k rs dr))) (size (block (nth k rs dr))))) (seq 0 (length rs)))) = map f (seq 0 (total (map block rs))).
Proof.
  intros L H. rewrite <- (rows_seq _ _ L), flat_map_concat_map, !concat_map, !map_map. f_equal.
  rewrite <- (nth_seq_map (fun r => map f (seq (position (block r)) (size (block r)))) dr rs (fun k => map fst (map (g k) (seq (position (block (nth k rs dr))) (size (block (nth k rs dr))))))); [reflexivity|].
  intros k K. rewrite map_map. apply map_ext. intros i. apply H.
Qed.

(* the columns *)
Lemma column_fst F shift cs : f_cols F = bl -> forall pos, map fst (column_writes F shift pos cs) = seq pos (W cs).
Proof.
  intros E. induction cs as [|c cs IH]; intros pos; cbn [column_writes widths map]; [reflexivity|]. rewrite map_app, IH, map_map. unfold fcol, cw. rewrite E. cbn [fst].
  rewrite seq_app. f_equal. rewrite <- (map_id (seq pos _)). clear. generalize (size (nth (block_id c) bl (mkBlock 0 0))) as n. intros n. revert pos. induction n as [|n IH]; intros pos; cbn [seq map]; [reflexivity|].
  rewrite Nat.add_0_r. f_equal. rewrite <- IH, <- seq_shift, map_map. apply map_ext. intros i. lia.
Qed.
Lemma column_in F shift pre c post pos j : f_cols F = bl -> j < cw bl c -> In (pos + W pre + j, position (nth (block_id c) bl (mkBlock 0 0)) - shift + j) (column_writes F shift pos (pre ++ c :: post)).
Proof.
  intros E J. revert pos. induction pre as [|x pre IH]; intros pos; cbn [app column_writes widths]; apply in_app_iff.
  - left. apply in_map_iff. exists j. unfold fcol. rewrite E. split; [f_equal; lia|]. apply in_seq. unfold cw in J. lia.
  - right. specialize (IH (pos + size (fcol F x))). unfold fcol in *. rewrite E in *. unfold cw at 1. rewrite Nat.add_assoc. exact IH.
Qed.
End Rows.
