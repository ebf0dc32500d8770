(* C63: block sparse matrices compute with the matrix they represent. *)
From Coq Require Import Reals List Arith Bool Lia Lra Permutation Sorting.Sorted.
From Verif Require Import SchurModel SchurProofs BlockSparseModel BlockSparseSpec BlockSparseProofs BlockSparseProofs2 BlockSparseProofs3 BlockSparseProofs4 BlockSparseProofs5 BlockSparseProofs6 BlockSparseProofs7 BlockSparseProofs8.
Import ListNotations.
Open Scope R_scope.

(* A small matrix: row blocks of sizes 2 and 1, column blocks of sizes 1 and 2.
   [ v0 v2 v3 ]
   [ v1 v4 v5 ]
   [  0 v6 v7 ] *)
Definition sample : Structure := mkStructure [mkBlock 1 0; mkBlock 2 1] [mkRow (mkBlock 2 0) [mkCell 0 0; mkCell 1 2]; mkRow (mkBlock 1 2) [mkCell 1 6]].
Lemma sample_valid : valid sample.
Proof.
  constructor; [cbn; auto|cbn; auto|]. intros row [<-|[<-|[]]]; cbn [cells map block_id cols sample length]; (split; [repeat constructor; cbn; intuition lia|]); intros c [<-|H]; try (cbn; lia); destruct H as [<-|[]] || destruct H; cbn; lia.
Qed.
Lemma sample_packed : packed sample. Proof. cbn. auto. Qed.
Lemma sample_good junk : good (Construct sample junk).
Proof. exact (construct_good sample junk sample_valid (packed_disjoint _ sample_packed) (packed_contained _ sample_packed)). Qed.
Lemma sample_partitioned : partitioned 1 sample.
Proof.
  constructor; [cbn; lia|]. exists [mkRow (mkBlock 2 0) [mkCell 0 0; mkCell 1 2]], [mkRow (mkBlock 1 2) [mkCell 1 6]]. split; [reflexivity|]. split.
  - intros row [<-|[]]. exists (mkCell 0 0), [mkCell 1 2]. split; [reflexivity|]. split; [cbn; lia|]. intros c [<-|[]]. cbn. lia.
  - intros row [<-|[]]. split; [discriminate|]. intros c [<-|[]]. cbn. lia.
Qed.

(* ---------------- products ---------------- *)
Theorem bs_products bs values x y : valid bs ->
  (forall p, Serial (RightTasks bs values x) y p = y p + times bs values x p) /\
  (forall y', Parallel (RightTasks bs values x) y y' -> forall p, y' p = y p + times bs values x p) /\
  race_free (RightTasks bs values x) /\
  (forall q, Serial (LeftTasks bs values x) y q = y q + transpose_times bs values x q) /\
  (forall y', Parallel (LeftTransposeTasks (CreateTranspose bs) values x) y y' -> forall q, y' q = y q + transpose_times bs values x q) /\
  race_free (LeftTransposeTasks (CreateTranspose bs) values x).
Proof.
  intro V. split; [intro p; rewrite serial_sum, (right_sum bs values x V); reflexivity|]. split; [intros y' P p; rewrite (parallel_sum _ _ _ p P), (right_sum bs values x V); reflexivity|]. split; [exact (right_race bs values x V)|].
  split; [intro q; rewrite serial_sum, (left_sum bs values x V); reflexivity|]. split; [intros y' P q; rewrite (parallel_sum _ _ _ q P), (left_transpose_sum bs values x V); reflexivity|exact (left_race bs values x V)].
Qed.
Print Assumptions bs_products.
Example bs_products_sample : let v := INR in Serial (RightTasks sample v (fun q => INR (S q))) (fun _ => 100) 1%nat = 100 + (1 * 1 + 4 * 2 + 5 * 3) /\
  dense sample v 1 2 = 5 /\ dense sample v 2 0 = 0 /\ dense sample v 2 1 = 6.
Proof.
  cbv zeta. split; [rewrite (proj1 (bs_products sample INR _ _ sample_valid)); unfold times, dense; cbn; lra|]. unfold dense; cbn; lra.
Qed.

(* ---------------- norms, scaling, dense copy ---------------- *)
Theorem bs_norms bs values : valid bs ->
  (forall q, Serial (NormTasks bs values) (fun _ => 0) q = sumn (height bs) (fun p => dense bs values p q * dense bs values p q)) /\
  (forall y, Parallel (NormTransposeTasks (CreateTranspose bs) values) (fun _ => 0) y -> forall q, y q = sumn (height bs) (fun p => dense bs values p q * dense bs values p q)) /\
  race_free (NormTransposeTasks (CreateTranspose bs) values).
Proof.
  intro V. split; [intro q; rewrite serial_sum, (norm_sum bs values V); ring|]. split; [intros y P q; rewrite (parallel_sum _ _ _ q P), (norm_transpose_sum bs values V); ring|exact (norm_race bs values V)].
Qed.
Print Assumptions bs_norms.
Example bs_norms_sample : Serial (NormTasks sample INR) (fun _ => 0) 2%nat = 3 * 3 + 5 * 5 + 7 * 7.
Proof. rewrite (proj1 (bs_norms sample INR sample_valid)). unfold dense; cbn; lra. Qed.

Theorem bs_scaling bs scale values : valid bs -> disjoint bs ->
  (forall p q, dense bs (SerialScale (ScaleTasks bs) scale values) p q = dense bs values p q * scale q) /\
  (forall values', ParallelScale (ScaleTransposeTasks (CreateTranspose bs)) scale values values' ->
     (forall p q, dense bs values' p q = dense bs values p q * scale q) /\
     (forall a, (forall r, In r (extents bs) -> inside (fst r) (snd r) a = false) -> values' a = values a)) /\
  (forall a, (forall r, In r (extents bs) -> inside (fst r) (snd r) a = false) -> SerialScale (ScaleTasks bs) scale values a = values a) /\
  scale_race_free (ScaleTransposeTasks (CreateTranspose bs)).
Proof.
  intros V D. split; [exact (scaled_dense bs scale values _ (scalings bs) V D (Permutation_refl _) (fun a => eq_refl))|]. split.
  - intros values' [ss [I E]]. pose proof (Permutation_trans (interleaving_perm _ _ I) (scale_transpose_perm bs V)) as P. split; [exact (scaled_dense bs scale values values' ss V D P E)|exact (scaled_rest bs scale values values' ss P E)].
  - split; [exact (scaled_rest bs scale values _ (scalings bs) (Permutation_refl _) (fun a => eq_refl))|exact (scale_race _ bs (scale_transpose_perm bs V) D)].
Qed.
Print Assumptions bs_scaling.
Example bs_scaling_sample : dense sample (SerialScale (ScaleTasks sample) (fun q => INR (S q)) INR) 1 2 = 5 * 3.
Proof. rewrite (proj1 (bs_scaling sample (fun q => INR (S q)) INR sample_valid (packed_disjoint _ sample_packed))). unfold dense; cbn; lra. Qed.

Theorem bs_dense_copy bs values p q : ToDenseMatrix bs values p q = dense bs values p q.
Proof. exact (dense_copy bs values p q). Qed.
Print Assumptions bs_dense_copy.
Example bs_dense_copy_sample : ToDenseMatrix sample INR 0%nat 2%nat = 3. Proof. rewrite bs_dense_copy. unfold dense; cbn; lra. Qed.

(* ---------------- the transposed structure ---------------- *)
Lemma places_occurrences bs : places bs = map (fun p => (fst p, block_id (snd p), cell_position (snd p))) (occurrences 0 (rows bs)).
Proof.
  unfold places. generalize 0%nat. induction (rows bs) as [|row rs IH]; intro i; [reflexivity|]. cbn [length seq combine flat_map occurrences fst snd]. rewrite map_app, map_map, IH. reflexivity.
Qed.
Lemma sorted_occurrences k rs : (forall row, In row rs -> NoDup (map block_id (cells row))) -> forall i, StronglySorted lt (map block_id (tcells k (occurrences i rs))) /\ Forall (fun j => (i <= j)%nat) (map block_id (tcells k (occurrences i rs))).
Proof.
  induction rs as [|row rs IH]; intros N i; [split; constructor|]. cbn [occurrences]. rewrite tcells_app, map_app.
  destruct (IH (fun r Hr => N r (or_intror Hr)) (S i)) as [I1 I2]. specialize (N row (or_introl eq_refl)).
  assert (map block_id (tcells k (map (fun c => (i, c)) (cells row))) = [] \/ map block_id (tcells k (map (fun c => (i, c)) (cells row))) = [i]) as [E|E].
  { clear - N. induction (cells row) as [|c cs IH]; [left; reflexivity|]. inversion N as [|? ? N1 N2]; subst. unfold tcells. cbn [map filter snd]. destruct (Nat.eqb_spec (block_id c) k) as [E|E]; [|exact (IH N2)]. right. cbn [map fst]. f_equal.
    assert (filter (fun p => (block_id (snd p) =? k)%nat) (map (fun c => (i, c)) cs) = []) as ->; [|reflexivity]. clear - N1 E. induction cs as [|d cs IH]; [reflexivity|]. cbn [map filter snd]. destruct (Nat.eqb_spec (block_id d) k) as [E'|E']; [exfalso; apply N1; left; congruence|]. apply IH. intro H. apply N1. right. exact H. }
  - rewrite E. cbn [app]. split; [exact I1|]. eapply Forall_impl; [|exact I2]. intros; cbn beta in *; lia.
  - rewrite E. cbn [app]. split; constructor; [exact I1| |lia|].
    + eapply Forall_impl; [|exact I2]. intros; cbn beta in *; lia.
    + eapply Forall_impl; [|exact I2]. intros; cbn beta in *; lia.
Qed.
Theorem bs_transpose bs : valid bs ->
  cols (CreateTranspose bs) = map block (rows bs) /\ map block (rows (CreateTranspose bs)) = cols bs /\
  Permutation (places (CreateTranspose bs)) (map flip (places bs)) /\
  (forall r, In r (rows (CreateTranspose bs)) -> StronglySorted lt (map block_id (cells r))).
Proof.
  intro V. split; [reflexivity|]. split; [apply transpose_blocks|]. split.
  - rewrite (places_occurrences bs), map_map. cbn [flip].
    apply Permutation_trans with (map (fun p : nat * Cell => (block_id (snd p), fst p, cell_position (snd p))) (flat_map (fun k => filter (fun p => (block_id (snd p) =? k)%nat) (occurrences 0 (rows bs))) (seq 0 (length (cols bs))))).
    + apply Permutation_refl'. unfold places. rewrite window_all. unfold window. rewrite map_length, seq_length.
      assert (forall n a, flat_map (fun p : nat * Row => map (fun c => (fst p, block_id c, cell_position c)) (cells (snd p))) (combine (seq a n) (map (fun k => mkRow (col bs k) (tcells k (occurrences 0 (rows bs)))) (seq a n))) =
        map (fun p : nat * Cell => (block_id (snd p), fst p, cell_position (snd p))) (flat_map (fun k => filter (fun p => (block_id (snd p) =? k)%nat) (occurrences 0 (rows bs))) (seq a n))) as G; [|apply G].
      induction n as [|n IH]; intro a; [reflexivity|]. cbn [seq map combine flat_map fst snd cells]. rewrite map_app, IH. f_equal. unfold tcells. rewrite map_map. cbn [block_id cell_position]. apply map_ext_in. intros p Hp. apply filter_In in Hp. destruct Hp as [_ Hp]. apply Nat.eqb_eq in Hp. rewrite Hp. reflexivity.
    + apply Permutation_map. apply by_key. intros p Hp. destruct (occurrence_row _ _ _ Hp) as [row [_ [H2 [_ H4]]]]. exact (ids bs V row _ H4 H2).
  - intros r Hr. rewrite window_all in Hr. unfold window in Hr. apply in_map_iff in Hr. destruct Hr as [k [<- _]]. cbn [cells]. apply sorted_occurrences. intros row Hrow. exact (proj1 (v_cells _ V row Hrow)).
Qed.
Print Assumptions bs_transpose.
Example bs_transpose_sample : CreateTranspose sample = mkStructure [mkBlock 2 0; mkBlock 1 2] [mkRow (mkBlock 1 0) [mkCell 0 0]; mkRow (mkBlock 2 1) [mkCell 0 2; mkCell 1 6]].
Proof. reflexivity. Qed.

(* ---------------- construction, rows added and removed ---------------- *)
Theorem bs_construct bs junk : valid bs -> disjoint bs -> contained bs (area bs) -> good (Construct bs junk).
Proof. exact (construct_good bs junk). Qed.
Print Assumptions bs_construct.
Theorem bs_diagonal diagonal bl junk : laid_out 0 bl ->
  good (CreateDiagonalMatrix diagonal bl junk) /\ packed (structure (CreateDiagonalMatrix diagonal bl junk)) /\
  cols (structure (CreateDiagonalMatrix diagonal bl junk)) = bl /\ length (rows (structure (CreateDiagonalMatrix diagonal bl junk))) = length bl /\
  num_rows (CreateDiagonalMatrix diagonal bl junk) = total bl /\
  (forall p q, entries (CreateDiagonalMatrix diagonal bl junk) p q = if (p <? total bl)%nat && (p =? q)%nat then diagonal p else 0).
Proof.
  intro L. destruct (diagonal_good diagonal bl junk L) as [G [P [Ec El]]]. split; [exact G|]. split; [exact P|]. split; [exact Ec|]. split; [exact El|]. split; [|exact (diagonal_dense diagonal bl junk L)].
  rewrite (g_rows _ G). unfold height. cbn [structure CreateDiagonalMatrix Construct rows]. rewrite diagonal_blocks. reflexivity.
Qed.
Print Assumptions bs_diagonal.
Example bs_diagonal_sample : entries (CreateDiagonalMatrix INR (cols sample) (fun _ => 77)) 2%nat 2%nat = 2 /\ entries (CreateDiagonalMatrix INR (cols sample) (fun _ => 77)) 2%nat 1%nat = 0.
Proof. destruct (bs_diagonal INR (cols sample) (fun _ => 77) (v_cols _ sample_valid)) as [_ [_ [_ [_ [_ E]]]]]. rewrite !E. cbn. split; lra. Qed.

Theorem bs_append a m junk : good a -> good m -> cols (structure m) = cols (structure a) -> packed (structure m) ->
  exists r, AppendRows a m junk = Some r /\ good r /\ cols (structure r) = cols (structure a) /\
    length (rows (structure r)) = (length (rows (structure a)) + length (rows (structure m)))%nat /\
    num_rows r = (num_rows a + num_rows m)%nat /\ num_columns r = num_columns a /\
    (forall p q, entries r p q = stacked (num_rows a) (entries a) (entries m) p q) /\
    (packed (structure a) -> packed (structure r)).
Proof.
  intros Ga Gm Ec P. eexists. split; [exact (append_result a m junk Ga Gm Ec P)|]. split; [exact (appended_good a m junk Ga Gm Ec)|]. split; [reflexivity|]. split; [cbn [structure appended rows]; rewrite app_length, map_length; reflexivity|]. split; [reflexivity|]. split; [reflexivity|]. split.
  - intros p q. unfold stacked. rewrite (g_rows _ Ga). exact (appended_dense a m junk Ga Gm Ec p q).
  - exact (appended_packed a m Ga Ec P).
Qed.
Print Assumptions bs_append.
Theorem bs_delete a delta : good a -> (delta <= length (rows (structure a)))%nat ->
  exists r, DeleteRowBlocks a delta = Some r /\ structure r = top (length (rows (structure a)) - delta) (structure a) /\ transposed r = CreateTranspose (structure r) /\
    nnz r = area (structure r) /\ num_rows r = height (structure r) /\ num_columns r = num_columns a /\
    (forall p q, entries r p q = if (p <? num_rows r)%nat then entries a p q else 0) /\
    (packed (structure a) -> good r /\ packed (structure r)).
Proof.
  intros G H. eexists. split; [exact (delete_result a delta G H)|]. cbn [structure transposed nnz num_rows num_columns values]. do 5 (split; [reflexivity|]). split.
  - intros p q. exact (top_dense _ (structure a) (values a) p q (g_valid _ G)).
  - intro P. pose proof (top_packed (length (rows (structure a)) - delta) _ P) as P'. split; [|exact P']. exact (delete_good a _ G (packed_contained _ P')).
Qed.
Print Assumptions bs_delete.
(* adding rows and deleting them again, however the values of a are laid out *)
Theorem bs_restore a m junk : good a -> good m -> cols (structure m) = cols (structure a) -> packed (structure m) ->
  exists r r', AppendRows a m junk = Some r /\ DeleteRowBlocks r (length (rows (structure m))) = Some r' /\ good r' /\
    structure r' = structure a /\ transposed r' = transposed a /\ nnz r' = nnz a /\ num_rows r' = num_rows a /\ num_columns r' = num_columns a /\
    (forall i, (i < nnz a)%nat -> values r' i = values a i) /\ (forall p q, entries r' p q = entries a p q).
Proof.
  intros Ga Gm Ec P. pose proof (append_result a m junk Ga Gm Ec P) as A. pose proof (appended_good a m junk Ga Gm Ec) as Gr. revert A Gr.
  set (r := mkBlockSparse _ _ _ _ _ _ _). intros A Gr.
  assert (length (rows (structure r)) = length (rows (structure a)) + length (rows (structure m)))%nat as Lr by (cbn [structure r appended rows]; rewrite app_length, map_length; reflexivity).
  pose proof (delete_result r (length (rows (structure m))) Gr ltac:(lia)) as D. cbv zeta in D. replace (length (rows (structure r)) - length (rows (structure m)))%nat with (length (rows (structure a))) in D by lia.
  assert (top (length (rows (structure a))) (structure r) = structure a) as Et.
  { unfold top. cbn [structure r appended cols rows]. rewrite firstn_app, Nat.sub_diag, firstn_O, app_nil_r, firstn_all. destruct (structure a); reflexivity. }
  rewrite Et in D. exists r. eexists. split; [exact A|]. split; [exact D|]. cbn [structure transposed nnz num_rows num_columns values]. clear D.
  assert (forall i, (i < nnz a)%nat -> values r i = values a i) as Ev.
  { intros i Hi. cbn [values r]. unfold appended_values. destruct (inside (nnz a) (nnz m) i) eqn:I; [apply inside_spec in I; lia|]. destruct (max_nnz a <? nnz a + nnz m)%nat; [|reflexivity]. destruct (Nat.ltb_spec i (nnz a)); [reflexivity|lia]. }
  split.
  - pose proof (delete_good r (length (rows (structure a))) Gr) as D. rewrite Et in D. apply D. rewrite <- (g_nnz _ Ga). exact (g_contained _ Ga).
  - split; [reflexivity|]. split; [symmetry; exact (g_transposed _ Ga)|]. split; [symmetry; exact (g_nnz _ Ga)|]. split; [symmetry; exact (g_rows _ Ga)|]. split; [reflexivity|]. split; [exact Ev|].
    intros p q. unfold entries. cbn [structure values]. exact (dense_agree (structure a) (nnz a) _ _ (g_contained _ Ga) Ev p q).
Qed.
Print Assumptions bs_restore.
(* with the regularisation that the solvers append *)
Example bs_rows_sample : let a := Construct sample INR in let d := CreateDiagonalMatrix (fun q => INR (10 + q)) (cols sample) (fun _ => 77) in
  exists r r', AppendRows a d (fun _ => 99) = Some r /\ num_rows r = 6%nat /\ entries r 1%nat 2%nat = 5 /\ entries r 5%nat 2%nat = 12 /\ DeleteRowBlocks r 2 = Some r' /\ entries r' 1%nat 2%nat = 5 /\ entries r' 5%nat 2%nat = 0.
Proof.
  cbv zeta. set (a := Construct sample INR). set (d := CreateDiagonalMatrix (fun q => INR (10 + q)) (cols sample) (fun _ => 77)). destruct (bs_diagonal (fun q => INR (10 + q)) (cols sample) (fun _ => 77) (v_cols _ sample_valid)) as [Gd [Pd [Cd [Ld [Rd Ed]]]]]. fold d in Gd, Pd, Cd, Ld, Rd, Ed.
  destruct (bs_restore a d (fun _ => 99) (sample_good INR) Gd Cd Pd) as [r [r' [H1 [H2 [_ [_ [_ [_ [_ [_ [_ H3]]]]]]]]]]].
  destruct (bs_append a d (fun _ => 99) (sample_good INR) Gd Cd Pd) as [s [S1 [_ [_ [_ [S2 [_ [S3 _]]]]]]]]. rewrite H1 in S1. injection S1 as <-.
  exists r, r'. split; [exact H1|]. split; [rewrite S2, Rd; reflexivity|].
  assert (entries a 1%nat 2%nat = 5) as E1 by (unfold entries, a, dense; cbn; lra). assert (entries a 5%nat 2%nat = 0) as E2 by (unfold entries, a, dense; cbn; lra).
  split; [rewrite S3; unfold stacked; exact E1|]. split; [rewrite S3; unfold stacked; change (num_rows a) with 3%nat; cbn [Nat.ltb Nat.leb Nat.sub]; rewrite Ed; cbn; lra|]. rewrite Ld in H2. split; [exact H2|]. rewrite !H3. split; assumption.
Qed.

(* AppendRows copies the values as they are but numbers the cells anew: wrong unless the
   cells of the added matrix are stored in order *)
Theorem bs_append_unpacked_refuted : exists a m junk r, good a /\ good m /\ cols (structure m) = cols (structure a) /\
  AppendRows a m junk = Some r /\ exists p q, entries r p q <> stacked (num_rows a) (entries a) (entries m) p q.
Proof.
  set (bl := [mkBlock 1 0; mkBlock 1 1]). set (sa := mkStructure bl []). set (sm := mkStructure bl [mkRow (mkBlock 1 0) [mkCell 0 1; mkCell 1 0]]).
  exists (Construct sa (fun _ => 0)), (Construct sm INR), (fun _ => 0). eexists. split; [|split; [|split; [reflexivity|split; [reflexivity|]]]].
  - apply construct_good; [constructor; [cbn; auto|exact I|intros row []]|constructor|constructor].
  - apply construct_good.
    + constructor; [cbn; auto|cbn; auto|]. intros row [<-|[]]. split; [repeat constructor; cbn; intuition lia|]. intros c [<-|[<-|[]]]; cbn; lia.
    + unfold disjoint. cbn. constructor; [|repeat constructor]. constructor; [unfold apart; cbn; lia|constructor].
    + unfold contained. cbn. repeat constructor.
  - exists 0%nat, 0%nat. unfold entries, stacked, dense. cbn. lra.
Qed.
Print Assumptions bs_append_unpacked_refuted.
(* ... and deleting rows counts the values that are left, but does not move them: rows added
   afterwards overwrite those that are stored behind *)
Theorem bs_delete_unpacked_refuted : exists a m junk r r', good a /\ good m /\ packed (structure m) /\ cols (structure m) = cols (structure a) /\
  DeleteRowBlocks a 1 = Some r /\ AppendRows r m junk = Some r' /\ entries r 0%nat 0%nat = entries a 0%nat 0%nat /\ entries r' 0%nat 0%nat <> entries a 0%nat 0%nat.
Proof.
  set (bl := [mkBlock 1 0]). set (sa := mkStructure bl [mkRow (mkBlock 1 0) [mkCell 0 1]; mkRow (mkBlock 1 1) [mkCell 0 0]]).
  exists (Construct sa INR), (CreateDiagonalMatrix (fun _ => 5) bl (fun _ => 0)), (fun _ => 0). eexists. eexists. split; [|split; [|split; [|split; [reflexivity|split; [reflexivity|split; [reflexivity|]]]]]].
  - apply construct_good.
    + constructor; [cbn; auto|cbn; auto|]. intros row [<-|[<-|[]]]; (split; [repeat constructor; cbn; intuition lia|]); intros c [<-|[]]; cbn; lia.
    + unfold disjoint. cbn. constructor; [|repeat constructor]. constructor; [unfold apart; cbn; lia|constructor].
    + unfold contained. cbn. repeat constructor.
  - apply bs_diagonal. cbn. auto.
  - apply bs_diagonal. cbn. auto.
  - unfold entries, dense. cbn. split; lra.
Qed.
Print Assumptions bs_delete_unpacked_refuted.

(* ---------------- the partitioned view ---------------- *)
Theorem view_products nelim bs values x y : valid bs -> partitioned nelim bs ->
  let ts := CreateTranspose bs in let ne := e_columns nelim bs in let nf := f_columns nelim bs in
  num_cols_e nelim bs = ne /\ num_cols_f nelim bs = nf /\ (ne + nf = breadth bs)%nat /\
  (* y += E x *)
  (forall y', Parallel (RightE nelim bs values x) y y' -> forall p, y' p = y p + sumn ne (fun q => E_of bs values p q * x q)) /\
  (* y += F x: two loops *)
  (forall y1 y2, Parallel (RightF1 nelim bs values x) y y1 -> Parallel (RightF2 nelim bs values x) y1 y2 -> forall p, y2 p = y p + sumn nf (fun q => F_of nelim bs values p q * x q)) /\
  (* y += E' x *)
  (forall q, Serial (LeftE nelim bs values x) y q = if (q <? ne)%nat then y q + sumn (height bs) (fun p => E_of bs values p q * x p) else y q) /\
  (forall y', Parallel (LeftETranspose nelim (num_row_blocks_e nelim bs) ts values x) y y' -> forall q, y' q = if (q <? ne)%nat then y q + sumn (height bs) (fun p => E_of bs values p q * x p) else y q) /\
  (* y += F' x *)
  (forall q, Serial (LeftF nelim bs values x) y q = y q + sumn (height bs) (fun p => F_of nelim bs values p q * x p)) /\
  (forall y', Parallel (LeftFTranspose nelim (num_cols_e nelim bs) ts values x) y y' -> forall q, y' q = y q + sumn (height bs) (fun p => F_of nelim bs values p q * x p)) /\
  race_free (RightE nelim bs values x) /\ race_free (RightF1 nelim bs values x) /\ race_free (RightF2 nelim bs values x) /\
  race_free (LeftETranspose nelim (num_row_blocks_e nelim bs) ts values x) /\ race_free (LeftFTranspose nelim (num_cols_e nelim bs) ts values x).
Proof.
  intros V Pt. cbv zeta. split; [reflexivity|]. split; [reflexivity|]. split; [apply columns_total|].
  split; [intros y' P p; rewrite (parallel_sum _ _ _ p P), (right_e_sum nelim bs values V Pt); reflexivity|].
  split; [intros y1 y2 P1 P2 p; rewrite (parallel_sum _ _ _ p P2), (parallel_sum _ _ _ p P1), Rplus_assoc, (right_f_sum nelim bs values V Pt); reflexivity|].
  split; [intro q; rewrite serial_sum, (left_e_sum nelim bs values V Pt); destruct (q <? e_columns nelim bs)%nat; ring|].
  split; [intros y' P q; rewrite (parallel_sum _ _ _ q P), (left_e_transpose_sum nelim bs values V Pt); destruct (q <? e_columns nelim bs)%nat; ring|].
  split; [intro q; rewrite serial_sum, (left_f_sum nelim bs values V Pt); reflexivity|].
  split; [intros y' P q; rewrite (parallel_sum _ _ _ q P), (left_f_transpose_sum nelim bs values V Pt); reflexivity|].
  split; [apply right_e_race; assumption|]. split; [apply right_f1_race; assumption|]. split; [apply right_f2_race; assumption|]. split; [apply left_e_race; assumption|apply left_f_race; assumption].
Qed.
Print Assumptions view_products.
Example view_sample : Serial (LeftF 1 sample INR (fun _ => 1)) (fun _ => 0) 1%nat = 3 + 5 + 7 /\ Serial (LeftE 1 sample INR (fun _ => 1)) (fun _ => 0) 0%nat = 0 + 1.
Proof.
  destruct (view_products 1 sample INR (fun _ => 1) (fun _ => 0) sample_valid sample_partitioned) as [_ [_ [_ [_ [_ [HE [_ [HF _]]]]]]]]. rewrite HE, HF. unfold E_of, F_of, dense, e_columns. cbn. split; lra.
Qed.

Theorem view_diagonals nelim bs values : valid bs -> partitioned nelim bs ->
  (forall k i j, (k < nelim)%nat -> (i < size (col bs k))%nat -> (j < size (col bs k))%nat ->
    let s := sumn (height bs) (fun p => E_of bs values p (position (col bs k) + i) * E_of bs values p (position (col bs k) + j)) in
    DiagonalE nelim bs values k i j = s /\ DiagonalTranspose (CreateTranspose bs) values k i j = s) /\
  (forall k i j, (nelim + k < length (cols bs))%nat -> (i < size (col bs (nelim + k)))%nat -> (j < size (col bs (nelim + k)))%nat ->
    let o := (position (col bs (nelim + k)) - e_columns nelim bs)%nat in
    let s := sumn (height bs) (fun p => F_of nelim bs values p (o + i) * F_of nelim bs values p (o + j)) in
    DiagonalF nelim bs values k i j = s /\ DiagonalTranspose (CreateTranspose bs) values (nelim + k) i j = s).
Proof.
  intros V Pt. pose proof (pt_nelim _ _ Pt) as Pn. split; intros k i j Hk Hi Hj; cbv zeta.
  - split; [exact (diagonal_e_sum bs values V nelim Pt k i j Hk Hi Hj)|]. exact (diagonal_transpose_sum bs values V k i j ltac:(lia) Hi Hj).
  - split; [exact (diagonal_f_sum bs values V nelim Pt k i j Hk Hi Hj)|]. rewrite (diagonal_transpose_sum bs values V (nelim + k) i j Hk Hi Hj). unfold F_of. destruct (f_col nelim bs V (nelim + k) ltac:(lia)) as [F1 _].
    replace (e_columns nelim bs + (position (col bs (nelim + k)) - e_columns nelim bs + i))%nat with (position (col bs (nelim + k)) + i)%nat by lia.
    replace (e_columns nelim bs + (position (col bs (nelim + k)) - e_columns nelim bs + j))%nat with (position (col bs (nelim + k)) + j)%nat by lia. reflexivity.
Qed.
Print Assumptions view_diagonals.
Example view_diagonals_sample : DiagonalF 1 sample INR 0 0%nat 1%nat = 2 * 3 + 4 * 5 + 6 * 7 /\ DiagonalE 1 sample INR 0 0%nat 0%nat = 0 * 0 + 1 * 1.
Proof.
  destruct (view_diagonals 1 sample INR sample_valid sample_partitioned) as [HE HF]. destruct (HF 0 0 1)%nat as [-> _]; try (cbn; lia). destruct (HE 0 0 0)%nat as [-> _]; try (cbn; lia). unfold E_of, F_of, dense, e_columns. cbn. split; lra.
Qed.
