(* C82: FillCRSStructure. *)
From Coq Require Import Reals List Arith Bool Lia Permutation.
From Verif Require Import SchurModel BlockSparseModel BlockSparseSpec BlockSparseProofs BlockSparseProofs2 GpuModel GpuSpec GpuProofs GpuProofs2.
Import ListNotations.
Close Scope R_scope. Open Scope nat_scope.

Lemma firsts_nth rs : forall n i, i <= length rs -> nth_error (firsts n rs ++ [n + length (flat_map cells rs)]) i = Some (n + length (flat_map cells (firstn i rs))).
Proof.
  induction rs as [|r rs IH]; intros n [|i] L; cbn [length firsts flat_map firstn app nth_error] in *; try lia; try (now rewrite ?Nat.add_0_r).
  rewrite !app_length, !Nat.add_assoc. apply IH. lia.
Qed.
Lemma flat_firstn rs : forall k, k < length rs -> flat_map cells rs = flat_map cells (firstn k rs) ++ cells (nth k rs dr) ++ flat_map cells (skipn (S k) rs).
Proof. induction rs as [|r rs IH]; intros [|k] L; cbn [length firstn flat_map nth skipn app] in *; try lia; [reflexivity|]. rewrite (IH k) at 1 by lia. rewrite <- app_assoc. reflexivity. Qed.
Lemma flat_firstn_S rs k : k < length rs -> flat_map cells (firstn (S k) rs) = flat_map cells (firstn k rs) ++ cells (nth k rs dr).
Proof. revert k. induction rs as [|r rs IH]; intros [|k] L; cbn [length firstn flat_map nth] in *; try lia; [now rewrite app_nil_r|]. rewrite <- app_assoc, <- IH by lia. reflexivity. Qed.

Definition crs_ok (bl : list Block) (rs : list Row) (shift : nat) (m : Crs) : Prop :=
  (forall k i, k < length rs -> i <= size (block (nth k rs dr)) -> c_rows m (row_of rs k i) = rooms bl (firstn k rs) + i * widths bl (cells (nth k rs dr))) /\
  c_rows m 0 = 0 /\ c_rows m (total (map block rs)) = rooms bl rs /\
  (forall k i pre c post j, k < length rs -> i < size (block (nth k rs dr)) -> cells (nth k rs dr) = pre ++ c :: post -> j < cw bl c ->
    c_cols m (rooms bl (firstn k rs) + i * widths bl (cells (nth k rs dr)) + widths bl pre + j) = position (nth (block_id c) bl (mkBlock 0 0)) - shift + j).

Lemma nth_map (f : Row -> Row) l k : f dr = dr -> nth k (map f l) dr = f (nth k l dr).
Proof. intros E. rewrite <- E at 1. apply map_nth. Qed.
Definition none (row : Row) : Row := mkRow (block row) [].
Section Fill.
Variables (bl : list Block) (es fs : list Row) (part : bool) (F : Flat).
Let rs := es ++ fs.
Let frs := map without es ++ fs.
Let ers := map only es ++ map none fs.
Hypotheses (H1 : f_first F = firsts 0 rs ++ [length (flat_map cells rs)]) (H2 : f_cells F = flat_map cells rs) (H3 : f_rows F = map block rs) (H4 : f_cols F = bl).
Hypotheses (NP : part = false -> es = []) (NE : forall row, In row es -> cells row <> []) (L : laid_out 0 (map block rs)).

Lemma frs_len : length frs = length rs. Proof. unfold frs, rs. now rewrite !app_length, map_length. Qed.
Lemma ers_len : length ers = length rs. Proof. unfold ers, rs. now rewrite !app_length, !map_length. Qed.
Lemma frs_blocks : map block frs = map block rs. Proof. unfold frs, rs. rewrite !map_app, map_map. reflexivity. Qed.
Lemma ers_blocks : map block ers = map block rs. Proof. unfold ers, rs. rewrite !map_app, !map_map. reflexivity. Qed.
Lemma nth_block l : map block l = map block rs -> forall k, block (nth k l dr) = block (nth k rs dr).
Proof. intros E k. rewrite <- !(map_nth block), E. reflexivity. Qed.

Lemma cell_range_ok k : k < length rs -> cell_range F k = Some (cells (nth k rs dr)).
Proof.
  intros K. unfold cell_range. rewrite H1, H2. change (length (flat_map cells rs)) with (0 + length (flat_map cells rs)). rewrite !firsts_nth by lia. rewrite !Nat.add_0_l.
  rewrite (flat_firstn_S rs k K), app_length. rewrite (flat_firstn rs k K). rewrite !app_length.
  destruct (Nat.leb_spec (length (flat_map cells (firstn k rs)) + length (cells (nth k rs dr))) (length (flat_map cells (firstn k rs)) + (length (cells (nth k rs dr)) + length (flat_map cells (skipn (S k) rs))))); [|lia].
  f_equal. replace (length (flat_map cells (firstn k rs)) + length (cells (nth k rs dr)) - length (flat_map cells (firstn k rs))) with (length (cells (nth k rs dr))) by lia.
  rewrite skipn_app, skipn_all, Nat.sub_diag. cbn [skipn app]. rewrite firstn_app, firstn_all, Nat.sub_diag. cbn [firstn]. now rewrite app_nil_r.
Qed.
Lemma split_ok k : k < length rs -> split_cells part (length es) k (cells (nth k rs dr)) = Some (hd_error (cells (nth k ers dr)), cells (nth k frs dr)) /\ (match hd_error (cells (nth k ers dr)) with Some c => [c] | None => [] end) = cells (nth k ers dr).
Proof.
  intros K. unfold split_cells, rs, frs, ers in *. destruct (Nat.ltb_spec k (length es)) as [Q|Q].
  - assert (P : part = true) by (destruct part; [auto|rewrite NP in Q by auto; cbn in Q; lia]). rewrite P. cbn [andb]. rewrite !app_nth1 by (rewrite ?map_length; lia). rewrite !nth_map by reflexivity.
    assert (N := NE (nth k es dr) (nth_In _ _ Q)). cbn [only without cells]. destruct (cells (nth k es dr)) as [|c cs]; [congruence|]. cbn [firstn hd_error tl]. auto.
  - rewrite andb_false_r. rewrite !app_nth2 by (rewrite ?map_length; lia). rewrite !map_length. rewrite !nth_map by reflexivity. cbn [none cells hd_error]. auto.
Qed.
Lemma width_fold cs : forall n, fold_left (fun n c => n + size (fcol F c)) cs n = n + widths bl cs.
Proof. induction cs as [|c cs IH]; intros n; cbn [fold_left widths]; [lia|]. rewrite IH. unfold fcol, cw. rewrite H4. lia. Qed.
Lemma row_thread k : k < length rs -> RowThread part (length es) F k =
  Some (if part then map (fun i => (i + 1, widths bl (cells (nth k ers dr)))) (seq (position (block (nth k rs dr))) (size (block (nth k rs dr)))) else [],
        map (fun i => (i + 1, widths bl (cells (nth k frs dr)))) (seq (position (block (nth k rs dr))) (size (block (nth k rs dr)))),
        map (fun i => (i, k)) (seq (position (block (nth k rs dr))) (size (block (nth k rs dr))))).
Proof.
  intros K. unfold RowThread. rewrite H3. assert (E : nth_error (map block rs) k = Some (block (nth k rs dr))) by (rewrite <- (map_nth block); apply nth_error_nth'; now rewrite map_length). rewrite E, cell_range_ok by auto.
  destruct (split_ok k K) as [-> S2]. rewrite width_fold, Nat.add_0_l. rewrite <- S2. destruct (hd_error (cells (nth k ers dr))) as [c|]; cbn [widths]; unfold cw, fcol; rewrite ?H4, ?Nat.add_0_r; reflexivity.
Qed.

(* row counts and row blocks after the first kernel *)
Lemma counts rs' (m junk : nat -> nat) : map block rs' = map block rs -> launch ((0, 0) :: concat (map (fun k => map (fun i => (i + 1, widths bl (cells (nth k rs' dr)))) (seq (position (block (nth k rs dr))) (size (block (nth k rs dr))))) (seq 0 (length rs)))) junk m ->
  m 0 = 0 /\ forall k i, k < length rs' -> i < size (block (nth k rs' dr)) -> m (S (row_of rs' k i)) = widths bl (cells (nth k rs' dr)).
Proof.
  intros EB LA. assert (LE : length rs' = length rs) by (rewrite <- (map_length block), EB, map_length; auto).
  assert (ND : NoDup (map fst ((0, 0) :: concat (map (fun k => map (fun i => (i + 1, widths bl (cells (nth k rs' dr)))) (seq (position (block (nth k rs dr))) (size (block (nth k rs dr))))) (seq 0 (length rs)))))).
  { cbn [map fst]. rewrite (per_row rs (fun k i => (i + 1, widths bl (cells (nth k rs' dr)))) (fun i => i + 1) L) by reflexivity. constructor; [rewrite in_map_iff; intros [x [X _]]; lia|]. apply FinFun.Injective_map_NoDup; [intros x y; lia|apply seq_NoDup]. }
  split; [apply (launch_in _ _ _ _ _ LA ND); now left|]. intros k i K I. apply (launch_in _ _ _ _ _ LA ND). right. apply in_concat. eexists. split; [apply in_map_iff; exists k; split; [reflexivity|apply in_seq; lia]|].
  apply in_map_iff. exists (row_of rs' k i). split; [f_equal; lia|]. unfold row_of. rewrite (nth_block rs' EB) in *. apply in_seq. lia.
Qed.
Lemma ids_ok (m junk : nat -> nat) : launch (concat (map (fun k => map (fun i => (i, k)) (seq (position (block (nth k rs dr))) (size (block (nth k rs dr))))) (seq 0 (length rs)))) junk m ->
  forall k i, k < length rs -> i < size (block (nth k rs dr)) -> m (row_of rs k i) = k.
Proof.
  intros LA k i K I. eapply (launch_in _ _ _ _ _ LA).
  - rewrite (per_row rs (fun k i => (i, k)) (fun i => i) L) by reflexivity. rewrite map_id. apply seq_NoDup.
  - apply in_concat. eexists. split; [apply in_map_iff; exists k; split; [reflexivity|apply in_seq; lia]|]. apply in_map_iff. exists (row_of rs k i). split; [auto|]. unfold row_of. apply in_seq. lia.
Qed.
Lemma columns_fst shift (Rw : nat -> nat) (C : nat -> list Cell) n : Rw 0 = 0 -> (forall p, p < n -> Rw (S p) = Rw p + widths bl (C p)) ->
  map fst (concat (map (fun p => column_writes F shift (Rw p) (C p)) (seq 0 n))) = seq 0 (Rw n).
Proof.
  intros Z. induction n as [|n IH]; intros H; [cbn; now rewrite Z|]. rewrite seq_S, map_app, concat_app, map_app, IH by (intros; apply H; lia). cbn [map concat Nat.add]. rewrite app_nil_r, (column_fst bl F shift _ H4), H by lia. symmetry. apply seq_app.
Qed.
Lemma row_next rs' k i : row_of rs' k (S i) = S (row_of rs' k i). Proof. unfold row_of. lia. Qed.
Lemma half rs' shift (m ids junk cf : nat -> nat) : map block rs' = map block rs -> (forall k i, k < length rs -> i < size (block (nth k rs dr)) -> ids (row_of rs k i) = k) ->
  m 0 = 0 -> (forall k i, k < length rs' -> i < size (block (nth k rs' dr)) -> m (S (row_of rs' k i)) = widths bl (cells (nth k rs' dr))) ->
  launch (concat (map (fun p => column_writes F shift (scan m p) (cells (nth (ids p) rs' dr))) (seq 0 (total (map block rs))))) junk cf -> crs_ok bl rs' shift (mkCrs (scan m) cf).
Proof.
  intros EB ID M0 MS LA. assert (LE : length rs' = length rs) by (rewrite <- (map_length block), EB, map_length; auto).
  assert (L' : laid_out 0 (map block rs')) by (rewrite EB; auto).
  destruct (scan_rows bl m rs' 0 L' MS) as [S1 S2]. cbn [scan] in S1, S2. rewrite M0 in S1, S2.
  assert (RO : forall k i, row_of rs' k i = row_of rs k i) by (intros; unfold row_of; now rewrite (nth_block rs' EB)).
  unfold crs_ok. cbn [c_rows c_cols]. split; [intros; now apply S1|]. split; [exact M0|]. split; [exact S2|]. intros k i pre c post j K I E J.
  assert (ND := columns_fst shift (scan m) (fun p => cells (nth (ids p) rs' dr)) (total (map block rs)) M0).
  eapply (launch_in _ _ _ _ _ LA).
  - rewrite ND; [apply seq_NoDup|]. intros p B. rewrite <- EB in B. destruct (row_of_find rs' p L' B) as [k' [i' [K' [I' ->]]]]. rewrite <- row_next, !S1 by (auto; lia). rewrite RO, ID; [lia| lia|rewrite <- (nth_block rs' EB); auto].
  - apply in_concat. eexists. split; [apply in_map_iff; exists (row_of rs' k i); split; [reflexivity|]|].
    + apply in_seq. rewrite <- EB. generalize (row_of_bound rs' 0 k i L' K I). lia.
    + rewrite S1 by (auto; lia). assert (EI : ids (row_of rs' k i) = k) by (rewrite RO; apply ID; [lia|rewrite <- (nth_block rs' EB); auto]). rewrite EI, E, Nat.add_0_l. now apply column_in.
Qed.
Theorem fill_ok nelim result : Fill part (length es) nelim (total (map block rs)) F result ->
  exists e f, result = Some (e, f) /\ crs_ok bl frs (position (nth nelim bl (mkBlock 0 0))) f /\ (part = true -> crs_ok bl ers 0 e).
Proof.
  unfold Fill. rewrite H3, map_length. assert (T0 := fun k (I : In k (seq 0 (length rs))) => row_thread k (proj2 (proj1 (in_seq (length rs) 0 k) I))). cbv beta in T0. rewrite (all_some_map _ _ _ T0). rewrite !map_map. cbn [fst snd].
  intros [j1 [j2 [j3 [ne [nf [ids [LE [LF [LI R]]]]]]]]]. destruct (counts frs nf j2 frs_blocks LF) as [F0 F1]. assert (ID := ids_ok ids j3 LI).
  assert (T : forall p, In p (seq 0 (total (map block rs))) -> ColumnThread part (length es) nelim F ids (scan ne) (scan nf) p =
    Some (column_writes F 0 (scan ne p) (cells (nth (ids p) ers dr)), column_writes F (position (nth nelim (f_cols F) (mkBlock 0 0))) (scan nf p) (cells (nth (ids p) frs dr)))).
  { intros p I. apply in_seq in I. destruct (row_of_find rs p L) as [k [i [K [I' ->]]]]; [lia|]. unfold ColumnThread. rewrite ID, cell_range_ok by auto. destruct (split_ok k K) as [-> S2]. rewrite <- S2. destruct (hd_error _); reflexivity. }
  rewrite (all_some_map _ _ _ T), !map_map in R. cbn [fst snd] in R. destruct R as [j4 [j5 [ce [cf [L4 [L5 ->]]]]]]. eexists. eexists. split; [reflexivity|]. split.
  - rewrite H4 in L5. eapply half; eauto. apply frs_blocks.
  - intros P. rewrite P in LE. cbn [app] in LE. destruct (counts ers ne j1 ers_blocks LE) as [E0 E1]. eapply half; eauto. apply ers_blocks.
Qed.
End Fill.
