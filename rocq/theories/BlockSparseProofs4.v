(* construction, appending and deleting rows *)
From Coq Require Import Reals List Arith Bool Lia Lra Permutation.
From Verif Require Import SchurModel SchurProofs BlockSparseModel BlockSparseSpec BlockSparseProofs BlockSparseProofs2 BlockSparseProofs3.
Import ListNotations.
Open Scope R_scope.

Lemma fold_total (l : list Block) : forall n, fold_left (fun n b => (n + size b)%nat) l n = (n + total l)%nat.
Proof. induction l as [|b l IH]; intro n; cbn [fold_left total fold_right]; [lia|]. rewrite IH. fold (total l). lia. Qed.
Lemma fold_height (l : list Row) : forall n, fold_left (fun n row => (n + size (block row))%nat) l n = (n + total (map block l))%nat.
Proof. induction l as [|b l IH]; intro n; cbn [fold_left map total fold_right]; [lia|]. rewrite IH. fold (total (map block l)). lia. Qed.
Definition sizes (l : list (nat * nat)) : nat := fold_right (fun r n => snd r + n)%nat 0%nat l.
Lemma sizes_app l l' : sizes (l ++ l') = (sizes l + sizes l')%nat.
Proof. unfold sizes. induction l as [|r l IH]; [reflexivity|]. cbn [app fold_right]. rewrite IH. lia. Qed.
Definition row_extents (bs : Structure) (row : Row) : list (nat * nat) := map (fun c => (cell_position c, (size (block row) * size (col bs (block_id c)))%nat)) (cells row).
Lemma extents_rows bs : extents bs = flat_map (row_extents bs) (rows bs). Proof. reflexivity. Qed.
Lemma fold_area bs (l : list Row) : forall n, fold_left (fun n row => fold_left (fun n c => (n + size (col bs (block_id c)) * size (block row))%nat) (cells row) n) l n = (n + sizes (flat_map (row_extents bs) l))%nat.
Proof.
  induction l as [|row l IH]; intro n; cbn [fold_left flat_map]; [cbn; lia|]. rewrite IH, sizes_app.
  assert (forall cs n, fold_left (fun n c => (n + size (col bs (block_id c)) * size (block row))%nat) cs n = (n + sizes (map (fun c => (cell_position c, (size (block row) * size (col bs (block_id c)))%nat)) cs))%nat) as ->.
  { clear. induction cs as [|c cs IH]; intro n; cbn [fold_left map sizes fold_right snd]; [lia|]. rewrite IH. fold (sizes (map (fun c => (cell_position c, (size (block row) * size (col bs (block_id c)))%nat)) cs)). lia. }
  unfold row_extents. lia.
Qed.
Lemma construct_good bs junk : valid bs -> disjoint bs -> contained bs (area bs) -> good (Construct bs junk).
Proof.
  intros V D C. assert (nnz (Construct bs junk) = area bs) as En by (cbn; rewrite fold_area; reflexivity).
  constructor; try assumption; try reflexivity.
  - cbn. rewrite fold_height. reflexivity.
  - cbn. rewrite fold_total. reflexivity.
  - rewrite En. exact C.
Qed.

(* ---------------- layout ---------------- *)
Lemma laid_app p l1 l2 : laid_out p (l1 ++ l2) <-> laid_out p l1 /\ laid_out (p + total l1) l2.
Proof.
  revert p. induction l1 as [|b l1 IH]; intro p; cbn [app laid_out total fold_right]; [rewrite Nat.add_0_r; tauto|]. rewrite IH. fold (total l1). rewrite Nat.add_assoc. tauto.
Qed.
Lemma laid_shift h bl : forall p, laid_out p bl -> laid_out (h + p) (map (fun b => mkBlock (size b) (h + position b)) bl).
Proof. induction bl as [|b bl IH]; intros p L; [exact I|]. destruct L as [L1 L2]. cbn [map laid_out position size]. split; [lia|]. rewrite <- Nat.add_assoc. apply IH. exact L2. Qed.
Lemma total_app l1 l2 : total (l1 ++ l2) = (total l1 + total l2)%nat.
Proof. unfold total. induction l1 as [|b l IH]; [reflexivity|]. cbn [app fold_right]. rewrite IH. lia. Qed.
Lemma total_shift h bl : total (map (fun b => mkBlock (size b) (h + position b)) bl) = total bl.
Proof. induction bl as [|b bl IH]; [reflexivity|]. cbn. unfold total in IH. rewrite IH. reflexivity. Qed.

(* ---------------- appending ---------------- *)
Definition shift_cell (k : nat) (c : Cell) : Cell := mkCell (block_id c) (k + cell_position c).
Definition shift_row (h k : nat) (row : Row) : Row := mkRow (mkBlock (size (block row)) (h + position (block row))) (map (shift_cell k) (cells row)).
Lemma append_cells bs k id row : forall cs p tr, sequential p (map (fun c => (cell_position c, (size (block row) * size (col bs (block_id c)))%nat)) cs) ->
  AppendCells (cols bs) (size (block row)) id cs (k + p) tr =
  (map (shift_cell k) cs, (k + p + sizes (map (fun c => (cell_position c, (size (block row) * size (col bs (block_id c)))%nat)) cs))%nat,
   fold_left (fun rs c => push_cell rs (block_id c) (mkCell id (cell_position c))) (map (shift_cell k) cs) tr).
Proof.
  induction cs as [|c cs IH]; intros p tr Q; [cbn; rewrite Nat.add_0_r; reflexivity|]. cbn [map sequential fst snd] in Q. destruct Q as [Q1 Q2]. cbn [AppendCells].
  fold (col bs (block_id c)). replace (k + p + size (block row) * size (col bs (block_id c)))%nat with (k + (p + size (block row) * size (col bs (block_id c))))%nat by lia.
  rewrite (IH _ _ Q2). cbn [map fold_left sizes fold_right snd]. fold (sizes (map (fun c => (cell_position c, (size (block row) * size (col bs (block_id c)))%nat)) cs)).
  assert (shift_cell k c = mkCell (block_id c) (k + p)) as -> by (unfold shift_cell; rewrite Q1; reflexivity). cbn [block_id cell_position]. f_equal. f_equal. lia.
Qed.
Lemma sequential_app p l l' : sequential p (l ++ l') <-> sequential p l /\ sequential (p + sizes l) l'.
Proof. revert p. induction l as [|r l IH]; intro p; cbn [app sequential sizes fold_right]; [rewrite Nat.add_0_r; tauto|]. rewrite IH. fold (sizes l). rewrite Nat.add_assoc. tauto. Qed.
Lemma append_all bs k h : forall rs id p q tr, laid_out q (map block rs) -> sequential p (flat_map (row_extents bs) rs) ->
  AppendAll (cols bs) rs id (h + q) (k + p) tr =
  (map (shift_row h k) rs, (h + q + total (map block rs))%nat, (k + p + sizes (flat_map (row_extents bs) rs))%nat,
   fst (fold_left (fun '(rs, i) row => (push_row rs i row, S i)) (map (shift_row h k) rs) (tr, id))).
Proof.
  induction rs as [|row rs IH]; intros id p q tr L Q; [cbn; rewrite !Nat.add_0_r; reflexivity|]. destruct L as [L1 L2]. cbn [flat_map] in Q. apply sequential_app in Q. destruct Q as [Q1 Q2]. cbn [AppendAll].
  rewrite (append_cells bs k id row (cells row) p tr Q1). fold (row_extents bs row).
  replace (h + q + size (block row))%nat with (h + (q + size (block row)))%nat by lia. replace (k + p + sizes (row_extents bs row))%nat with (k + (p + sizes (row_extents bs row)))%nat by lia.
  rewrite (IH (S id) _ _ _ L2 Q2). cbn [map flat_map fold_left total fold_right]. fold (total (map block rs)). rewrite sizes_app.
  assert (shift_row h k row = mkRow (mkBlock (size (block row)) (h + q)) (map (shift_cell k) (cells row))) as -> by (unfold shift_row; rewrite L1; reflexivity). cbn [push_row cells]. f_equal. f_equal; [f_equal; lia|lia].
Qed.
Lemma occurrences_app l1 l2 : forall i, occurrences i (l1 ++ l2) = occurrences i l1 ++ occurrences (i + length l1) l2.
Proof. induction l1 as [|r l1 IH]; intro i; cbn [app occurrences length]; [rewrite Nat.add_0_r; reflexivity|]. rewrite IH, <- app_assoc. replace (S i + length l1)%nat with (i + S (length l1))%nat by lia. reflexivity. Qed.
Lemma transpose_app cs rs rs' : fst (fold_left (fun '(rs, i) row => (push_row rs i row, S i)) rs' (rows (CreateTranspose (mkStructure cs rs)), length rs)) = rows (CreateTranspose (mkStructure cs (rs ++ rs'))).
Proof. rewrite !transpose_rows. cbn [rows cols]. rewrite push_rows_trows, occurrences_app. reflexivity. Qed.
Lemma transpose_eq bs ts : cols ts = map block (rows bs) -> rows ts = rows (CreateTranspose bs) -> ts = CreateTranspose bs.
Proof. destruct ts as [c r]. cbn [cols rows]. intros -> ->. unfold CreateTranspose. reflexivity. Qed.

(* the entries depend on the values of the cells only *)
Lemma cell_agree v v' rb cb pos n p q : (pos + size rb * size cb <= n)%nat -> (forall a, (pos <= a < n)%nat -> v a = v' a) -> cell_entry v rb cb pos p q = cell_entry v' rb cb pos p q.
Proof.
  intros H E. unfold cell_entry. destruct (holds rb p) eqn:H1; [|reflexivity]. destruct (holds cb q) eqn:H2; [|reflexivity]. cbn [andb]. apply holds_spec in H1. apply holds_spec in H2. unfold within in *. apply E.
  assert (p - position rb < size rb)%nat as K1 by lia. assert (q - position cb < size cb)%nat as K2 by lia. revert K1 K2. generalize (p - position rb)%nat, (q - position cb)%nat. intros i j K1 K2. clear H1 H2 E. nia.
Qed.
Lemma contained_cell bs n row c : contained bs n -> In row (rows bs) -> In c (cells row) -> (cell_position c + size (block row) * size (col bs (block_id c)) <= n)%nat.
Proof.
  intros C Hr Hc. unfold contained in C. rewrite Forall_forall in C. apply (C (cell_position c, (size (block row) * size (col bs (block_id c)))%nat)). unfold extents. apply in_flat_map. exists row. split; [exact Hr|]. apply in_map_iff. exists c. split; [reflexivity|exact Hc].
Qed.
Lemma dense_agree bs n v v' : contained bs n -> (forall a, (a < n)%nat -> v a = v' a) -> forall p q, dense bs v p q = dense bs v' p q.
Proof.
  intros C E p q. rewrite !dense_cells. apply suml_ext. intros row Hr. apply suml_ext. intros c Hc. apply (cell_agree _ _ _ _ _ n); [exact (contained_cell bs n row c C Hr Hc)|]. intros a Ha. apply E. lia.
Qed.
Lemma dense_below bs v p q : valid bs -> (height bs <= p)%nat -> dense bs v p q = 0.
Proof.
  intros V H. rewrite dense_cells. apply suml_zero. intros row Hr. apply suml_zero. intros c Hc. unfold cell_entry. destruct (holds (block row) p) eqn:E; [|reflexivity]. exfalso. apply holds_spec in E. unfold within in E. pose proof (row_bound bs row V Hr). lia.
Qed.

Section APPEND.
Variables (a m : BlockSparse) (junk : vec).
Hypotheses (Ga : good a) (Gm : good m) (Ec : cols (structure m) = cols (structure a)) (P : packed (structure m)).
Let h := height (structure a).
Let k := nnz a.
Definition appended : Structure := mkStructure (cols (structure a)) (rows (structure a) ++ map (shift_row h k) (rows (structure m))).
Definition appended_values : vec :=
  let old := if (max_nnz a <? nnz a + nnz m)%nat then (fun p => if (p <? nnz a)%nat then values a p else junk p) else values a in
  fun p => if inside (nnz a) (nnz m) p then values m (p - nnz a)%nat else old p.
Lemma col_m i : col (structure m) i = col (structure a) i. Proof. unfold col. rewrite Ec. reflexivity. Qed.
Lemma col_appended i : col appended i = col (structure a) i. Proof. reflexivity. Qed.
Lemma sizes_area bs : sizes (flat_map (row_extents bs) (rows bs)) = area bs. Proof. reflexivity. Qed.
Lemma append_result : AppendRows a m junk = Some (mkBlockSparse appended (CreateTranspose appended) appended_values (nnz a + nnz m) (Nat.max (max_nnz a) (nnz a + nnz m)) (num_rows a + num_rows m) (num_columns a)).
Proof.
  unfold AppendRows. rewrite (g_columns _ Ga), (g_columns _ Gm). unfold breadth. rewrite Ec, !Nat.eqb_refl. cbn [negb orb]. rewrite <- Ec.
  rewrite (g_rows _ Ga). pose proof (append_all (structure m) k h (rows (structure m)) (length (rows (structure a))) 0 0 (rows (transposed a)) (v_rows _ (g_valid _ Gm)) P) as E.
  rewrite !Nat.add_0_r in E. fold k. fold h. rewrite E. clear E. rewrite sizes_area, <- (g_nnz _ Gm). fold (height (structure m)). rewrite <- (g_rows _ Gm).
  f_equal. unfold appended at 1 2. rewrite Ec. f_equal. apply transpose_eq.
  - cbn [cols rows]. rewrite (g_transposed _ Ga). cbn [cols CreateTranspose]. rewrite map_app. reflexivity.
  - cbn [rows]. rewrite (g_transposed _ Ga). replace (structure a) with (mkStructure (cols (structure a)) (rows (structure a))) at 1 by (destruct (structure a); reflexivity). apply transpose_app.
Qed.
Lemma shift_extents : flat_map (row_extents appended) (map (shift_row h k) (rows (structure m))) = map (fun r => (k + fst r, snd r)%nat) (extents (structure m)).
Proof.
  rewrite extents_rows. induction (rows (structure m)) as [|row rs IH]; [reflexivity|]. cbn [map flat_map]. rewrite IH, map_app. f_equal. unfold row_extents. cbn [cells shift_row block size]. rewrite !map_map. apply map_ext. intro c. cbn [fst snd shift_cell cell_position block_id]. rewrite col_m. reflexivity.
Qed.
Lemma appended_extents : extents appended = extents (structure a) ++ map (fun r => (k + fst r, snd r)%nat) (extents (structure m)).
Proof. rewrite extents_rows. cbn [rows appended]. rewrite flat_map_app. rewrite shift_extents. reflexivity. Qed.
Lemma sizes_shift l : sizes (map (fun r => (k + fst r, snd r)%nat) l) = sizes l.
Proof. induction l as [|r l IH]; [reflexivity|]. cbn. unfold sizes in IH. rewrite IH. reflexivity. Qed.
Lemma map_block_shift rs : map block (map (shift_row h k) rs) = map (fun b => mkBlock (size b) (h + position b)) (map block rs).
Proof. rewrite !map_map. reflexivity. Qed.
Lemma appended_valid : valid appended.
Proof.
  constructor.
  - exact (v_cols _ (g_valid _ Ga)).
  - cbn [rows appended]. rewrite map_app, map_block_shift. apply laid_app. split; [exact (v_rows _ (g_valid _ Ga))|]. fold (height (structure a)). fold h. rewrite Nat.add_0_l, <- (Nat.add_0_r h) at 1. apply laid_shift. exact (v_rows _ (g_valid _ Gm)).
  - intros row Hr. cbn [rows appended] in Hr. apply in_app_or in Hr. destruct Hr as [Hr|Hr]; [exact (v_cells _ (g_valid _ Ga) row Hr)|]. apply in_map_iff in Hr. destruct Hr as [r [<- Hr]]. cbn [cells shift_row]. rewrite map_map. cbn [block_id shift_cell].
    destruct (v_cells _ (g_valid _ Gm) r Hr) as [N I]. split; [exact N|]. intros c Hc. apply in_map_iff in Hc. destruct Hc as [c' [<- Hc]]. cbn [block_id shift_cell cols appended]. rewrite <- Ec. exact (I c' Hc).
Qed.
Lemma appended_height : height appended = (h + height (structure m))%nat.
Proof. unfold height at 1. cbn [rows appended]. rewrite map_app, total_app, map_block_shift, total_shift. reflexivity. Qed.
Lemma appended_good : good (mkBlockSparse appended (CreateTranspose appended) appended_values (nnz a + nnz m) (Nat.max (max_nnz a) (nnz a + nnz m)) (num_rows a + num_rows m) (num_columns a)).
Proof.
  constructor; cbn [structure transposed values nnz max_nnz num_rows num_columns].
  - exact appended_valid.
  - reflexivity.
  - rewrite (g_nnz _ Ga), (g_nnz _ Gm). unfold area at 3. fold (sizes (extents appended)). rewrite appended_extents, sizes_app, sizes_shift. reflexivity.
  - rewrite appended_height, (g_rows _ Ga), (g_rows _ Gm). reflexivity.
  - exact (g_columns _ Ga).
  - lia.
  - unfold contained. rewrite appended_extents. apply Forall_app. split.
    + eapply Forall_impl; [|exact (g_contained _ Ga)]. intros r Hr. cbn beta in *. lia.
    + rewrite Forall_map. eapply Forall_impl; [|exact (g_contained _ Gm)]. intros r Hr. cbn beta in Hr. cbn [fst snd]. unfold k. lia.
  - unfold disjoint. rewrite appended_extents.
    pose proof (g_disjoint _ Ga) as D1. pose proof (g_disjoint _ Gm) as D2. pose proof (g_contained _ Ga) as C. unfold disjoint, contained in *.
    assert (ForallOrdPairs apart (map (fun r => (k + fst r, snd r)%nat) (extents (structure m)))) as D3.
    { apply fop_map. clear - D2. induction D2 as [|r l H _ IH]; constructor; [|exact IH]. eapply Forall_impl; [|exact H]. intros r' Hr'. unfold apart in *. cbn [fst snd]. lia. }
    revert D1 C. generalize (extents (structure a)). intro l. induction l as [|r l IH]; intros D1 C; [exact D3|]. cbn [app]. inversion D1 as [|? ? D4 D5]; subst. inversion C as [|? ? C1 C2]; subst. constructor; [|apply IH; assumption].
    apply Forall_app. split; [exact D4|]. apply Forall_forall. intros r' Hr'. apply in_map_iff in Hr'. destruct Hr' as [r'' [<- _]]. unfold apart. cbn [fst snd]. fold k in C1. lia.
Qed.
Lemma appended_packed : packed (structure a) -> packed appended.
Proof.
  intro Q. unfold packed. rewrite appended_extents. apply sequential_app. split; [exact Q|]. change (sizes (extents (structure a))) with (area (structure a)). rewrite <- (g_nnz _ Ga). fold k.
  assert (forall l p, sequential p l -> sequential (k + p) (map (fun r => (k + fst r, snd r)%nat) l)) as G; [|specialize (G _ _ P); rewrite Nat.add_0_r in G; exact G].
  induction l as [|r l IH]; intros p Q'; [exact I|]. destruct Q' as [Q1 Q2]. cbn [map sequential fst snd]. split; [lia|]. rewrite <- Nat.add_assoc. apply IH. exact Q2.
Qed.
Lemma appended_dense p q : dense appended appended_values p q = if (p <? h)%nat then entries a p q else entries m (p - h) q.
Proof.
  rewrite dense_cells. cbn [rows appended]. rewrite suml_app, suml_map.
  assert (suml (rows (structure a)) (fun row => suml (cells row) (fun c => cell_entry appended_values (block row) (col appended (block_id c)) (cell_position c) p q)) = entries a p q) as ->.
  { change (dense (structure a) appended_values p q = entries a p q). unfold entries. apply (dense_agree _ (nnz a) _ _ (g_contained _ Ga)). intros b Hb. unfold appended_values. destruct (inside (nnz a) (nnz m) b) eqn:E; [apply inside_spec in E; lia|].
    destruct (max_nnz a <? nnz a + nnz m)%nat; [|reflexivity]. destruct (Nat.ltb_spec b (nnz a)); [reflexivity|lia]. }
  assert (suml (rows (structure m)) (fun row => suml (cells (shift_row h k row)) (fun c => cell_entry appended_values (block (shift_row h k row)) (col appended (block_id c)) (cell_position c) p q)) = if (p <? h)%nat then 0 else entries m (p - h) q) as ->.
  { destruct (Nat.ltb_spec p h) as [Hp|Hp].
    - apply suml_zero. intros row Hr. apply suml_zero. intros c Hc. unfold cell_entry. destruct (holds (block (shift_row h k row)) p) eqn:E; [|reflexivity]. apply holds_spec in E. unfold within in E. cbn [shift_row block position size] in E. lia.
    - unfold entries. rewrite dense_cells. apply suml_ext. intros row Hr. cbn [cells shift_row]. rewrite suml_map. apply suml_ext. intros c Hc. change (block (shift_row h k row)) with (mkBlock (size (block row)) (h + position (block row))). cbn [block_id shift_cell cell_position block]. rewrite col_appended, <- col_m.
      pose proof (contained_cell _ _ row c (g_contained _ Gm) Hr Hc) as B. set (cb := col (structure m) (block_id c)) in *. unfold cell_entry.
      assert (holds (mkBlock (size (block row)) (h + position (block row))) p = holds (block row) (p - h)) as ->.
      { unfold holds. cbn [position size]. destruct (Nat.leb_spec (h + position (block row)) p); destruct (Nat.leb_spec (position (block row)) (p - h)); destruct (Nat.ltb_spec p (h + position (block row) + size (block row))); destruct (Nat.ltb_spec (p - h) (position (block row) + size (block row))); cbn; try reflexivity; lia. }
      destruct (holds (block row) (p - h)) eqn:H1; [|reflexivity]. destruct (holds cb q) eqn:H2; [|reflexivity]. cbn [andb position]. apply holds_spec in H1. apply holds_spec in H2. unfold within in *.
      replace (p - (h + position (block row)))%nat with (p - h - position (block row))%nat by lia.
      assert (p - h - position (block row) < size (block row))%nat as K1 by lia. assert (q - position cb < size cb)%nat as K2 by lia. revert K1 K2. generalize (p - h - position (block row))%nat, (q - position cb)%nat. intros i j K1 K2.
      assert (cell_position c + i * size cb + j < nnz m)%nat as K3 by (clear - K1 K2 B; nia). unfold appended_values. fold k.
      replace (k + cell_position c + i * size cb + j)%nat with (k + (cell_position c + i * size cb + j))%nat by (clear; lia). generalize dependent (cell_position c + i * size cb + j)%nat. intros b K3.
      assert (inside k (nnz m) (k + b) = true) as -> by (apply inside_spec; lia). f_equal. lia. }
  destruct (Nat.ltb_spec p h) as [Hp|Hp]; [ring|]. unfold entries at 1. rewrite (dense_below (structure a) _ p q (g_valid _ Ga) Hp). ring.
Qed.
End APPEND.
