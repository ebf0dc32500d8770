(* products, norms, dense copy *)
From Coq Require Import Reals List Arith Bool Lia Lra Permutation.
From Verif Require Import SchurModel SchurProofs BlockSparseModel BlockSparseSpec BlockSparseProofs.
Import ListNotations.
Open Scope R_scope.
Local Ltac ext := apply suml_ext; intros.

(* one cell's contribution to entry (p, q) *)
Definition cell_entry (values : vec) (rb cb : Block) (pos p q : nat) : R :=
  if holds rb p && holds cb q then values (pos + (p - position rb) * size cb + (q - position cb))%nat else 0.
Lemma dense_cells bs values p q : dense bs values p q = suml (rows bs) (fun row => suml (cells row) (fun c => cell_entry values (block row) (col bs (block_id c)) (cell_position c) p q)).
Proof. reflexivity. Qed.
Lemma holds_inside b p : holds b p = inside (position b) (size b) p. Proof. reflexivity. Qed.
Lemma cell_mv_part values x rb cb pos n p : (position cb + size cb <= n)%nat ->
  part (cell_mv values pos (size rb) (size cb) x (position cb) (position rb)) p = sumn n (fun q => cell_entry values rb cb pos p q * x q).
Proof.
  intro H. unfold part, cell_mv, cell_entry. cbn [u_pos u_len u_val]. rewrite <- holds_inside. destruct (holds rb p); cbn [andb].
  - rewrite (sumn_ext n _ (fun q => if inside (position cb) (size cb) q then values (pos + (p - position rb) * size cb + (q - position cb))%nat * x q else 0)).
    2:{ intros q Hq. rewrite holds_inside. destruct (inside _ _ q); ring. }
    rewrite (sum_block n (position cb) (size cb) (fun q => values (pos + (p - position rb) * size cb + (q - position cb))%nat * x q) H). unfold mv, block_at, shift. apply sumn_ext. intros k Hk. replace (position cb + k - position cb)%nat with k by lia. reflexivity.
  - symmetry. apply sumn_zero. intros. ring.
Qed.
Lemma cell_mtv_part values x rb cb pos n q : (position rb + size rb <= n)%nat ->
  part (cell_mtv values pos (size rb) (size cb) x (position rb) (position cb)) q = sumn n (fun p => cell_entry values rb cb pos p q * x p).
Proof.
  intro H. unfold part, cell_mtv, cell_entry. cbn [u_pos u_len u_val]. rewrite <- holds_inside. destruct (holds cb q).
  - rewrite (sumn_ext n _ (fun p => if inside (position rb) (size rb) p then values (pos + (p - position rb) * size cb + (q - position cb))%nat * x p else 0)).
    2:{ intros p Hp. rewrite holds_inside, andb_true_r. destruct (inside _ _ p); ring. }
    rewrite (sum_block n (position rb) (size rb) (fun p => values (pos + (p - position rb) * size cb + (q - position cb))%nat * x p) H). unfold mtv, block_at, shift. apply sumn_ext. intros k Hk. replace (position rb + k - position rb)%nat with k by lia. reflexivity.
  - symmetry. apply sumn_zero. intros. rewrite andb_false_r. ring.
Qed.
Lemma cell_norm_part values rb cb pos n q : (position rb + size rb <= n)%nat ->
  part (cell_norm values pos (size rb) (size cb) (position cb)) q = sumn n (fun p => cell_entry values rb cb pos p q * cell_entry values rb cb pos p q).
Proof.
  intro H. unfold part, cell_norm, cell_entry. cbn [u_pos u_len u_val]. rewrite <- holds_inside. destruct (holds cb q).
  - rewrite (sumn_ext n _ (fun p => if inside (position rb) (size rb) p then values (pos + (p - position rb) * size cb + (q - position cb))%nat * values (pos + (p - position rb) * size cb + (q - position cb))%nat else 0)).
    2:{ intros p Hp. rewrite holds_inside, andb_true_r. destruct (inside _ _ p); ring. }
    rewrite (sum_block n (position rb) (size rb) (fun p => values (pos + (p - position rb) * size cb + (q - position cb))%nat * values (pos + (p - position rb) * size cb + (q - position cb))%nat) H). unfold block_at. apply sumn_ext. intros k Hk. replace (position rb + k - position rb)%nat with k by lia. reflexivity.
  - symmetry. apply sumn_zero. intros. rewrite andb_false_r. ring.
Qed.

Section MATRIX.
Variables (bs : Structure) (values x : vec).
Hypothesis V : valid bs.
Lemma ids row c : In row (rows bs) -> In c (cells row) -> (block_id c < length (cols bs))%nat.
Proof. intros H1 H2. exact (proj2 (v_cells _ V row H1) c H2). Qed.
(* sums of products over the cells *)
Lemma right_sum p : suml (RightTasks bs values x) (fun t => suml t (fun u => part u p)) = times bs values x p.
Proof.
  unfold RightTasks. rewrite suml_map. unfold times.
  rewrite (sumn_ext (breadth bs) _ (fun q => suml (rows bs) (fun row => suml (cells row) (fun c => cell_entry values (block row) (col bs (block_id c)) (cell_position c) p q * x q)))).
  2:{ intros q Hq. rewrite dense_cells, <- suml_scal_r. ext. rewrite <- suml_scal_r. reflexivity. }
  rewrite <- suml_sumn. ext. rename x0 into row. rewrite suml_map, <- suml_sumn. ext. rename x0 into c. apply cell_mv_part. apply col_bound; [exact V|]. exact (ids row c H H0).
Qed.
Lemma left_cells q : suml (rows bs) (fun row => suml (cells row) (fun c => part (cell_mtv values (cell_position c) (size (block row)) (size (col bs (block_id c))) x (position (block row)) (position (col bs (block_id c)))) q)) = transpose_times bs values x q.
Proof.
  unfold transpose_times.
  rewrite (sumn_ext (height bs) _ (fun p => suml (rows bs) (fun row => suml (cells row) (fun c => cell_entry values (block row) (col bs (block_id c)) (cell_position c) p q * x p)))).
  2:{ intros p Hp. rewrite dense_cells, <- suml_scal_r. ext. rewrite <- suml_scal_r. reflexivity. }
  rewrite <- suml_sumn. ext. rename x0 into row. rewrite <- suml_sumn. ext. apply cell_mtv_part. apply row_bound; [exact V|exact H].
Qed.
Lemma left_sum q : suml (LeftTasks bs values x) (fun t => suml t (fun u => part u q)) = transpose_times bs values x q.
Proof. unfold LeftTasks. rewrite suml_map, <- left_cells. ext. rewrite suml_map. reflexivity. Qed.
Lemma left_transpose_sum q : suml (LeftTransposeTasks (CreateTranspose bs) values x) (fun t => suml t (fun u => part u q)) = transpose_times bs values x q.
Proof.
  unfold LeftTransposeTasks. rewrite suml_map, <- left_cells.
  rewrite (suml_ext (rows (CreateTranspose bs)) _ (fun r => suml (cells r) (fun c => part (cell_mtv values (cell_position c) (size (col (CreateTranspose bs) (block_id c))) (size (block r)) x (position (col (CreateTranspose bs) (block_id c))) (position (block r))) q))).
  2:{ intros. rewrite suml_map. reflexivity. }
  exact (transpose_sum bs (fun cb rb pos => part (cell_mtv values pos (size rb) (size cb) x (position rb) (position cb)) q) ids).
Qed.
End MATRIX.

(* at most one cell at a place *)
Lemma suml_square {A} (l : list A) f : ForallOrdPairs (fun a b => f a * f b = 0) l -> suml l f * suml l f = suml l (fun a => f a * f a).
Proof.
  induction 1 as [|a l H _ IH]; cbn [suml]; [ring|]. rewrite <- IH. assert (f a * suml l f = 0) as E; [|transitivity (f a * f a + 2 * (f a * suml l f) + suml l f * suml l f); [ring|rewrite E; ring]].
  clear IH. induction H as [|b l H1 _ IH]; cbn [suml]; [ring|]. rewrite Rmult_plus_distr_l, H1, IH. ring.
Qed.
Lemma suml_product {A} (l : list A) f g : (ForallOrdPairs (fun a b => f a * g b = 0 /\ f b * g a = 0) l) -> suml l f * suml l g = suml l (fun a => f a * g a).
Proof.
  induction 1 as [|a l H _ IH]; cbn [suml]; [ring|]. rewrite <- IH. assert (f a * suml l g = 0 /\ suml l f * g a = 0) as [E1 E2]; [|transitivity (f a * g a + f a * suml l g + suml l f * g a + suml l f * suml l g); [ring|rewrite E1, E2; ring]].
  clear IH. induction H as [|b l [H1 H2] _ [IH1 IH2]]; cbn [suml]; [split; ring|]. rewrite Rmult_plus_distr_l, Rmult_plus_distr_r, H1, H2, IH1, IH2. split; ring.
Qed.
Lemma pairs_of {A} (P : A -> A -> Prop) (l : list A) : (forall i j d, (i < j < length l)%nat -> P (nth i l d) (nth j l d)) -> ForallOrdPairs P l.
Proof.
  induction l as [|a l IH]; intro H; constructor.
  - apply Forall_forall. intros b Hb. destruct (In_nth l b a Hb) as [j [Hj E]]. specialize (H 0%nat (S j) a ltac:(cbn; lia)). cbn [nth] in H. rewrite E in H. exact H.
  - apply IH. intros i j d Hij. exact (H (S i) (S j) d ltac:(cbn; lia)).
Qed.
Lemma laid_holds p0 bl i j d p : laid_out p0 bl -> (i < j < length bl)%nat -> holds (nth i bl d) p = true -> holds (nth j bl d) p = true -> False.
Proof.
  intros L H H1 H2. apply holds_spec in H1. apply holds_spec in H2. unfold within in *.
  assert (forall bl p0 i j, laid_out p0 bl -> (i < j < length bl)%nat -> (p0 <= position (nth i bl d) /\ position (nth i bl d) + size (nth i bl d) <= position (nth j bl d))%nat) as G.
  { clear. induction bl as [|b bl IH]; intros p0 i j L H; [cbn in H; lia|]. destruct L as [L1 L2]. destruct j as [|j]; [lia|]. destruct i as [|i].
    - cbn [nth]. split; [lia|]. destruct j as [|j].
      + destruct bl as [|b' bl]; [cbn in H; lia|]. destruct L2 as [L2 _]. cbn. lia.
      + destruct (IH _ 0%nat (S j) L2 ltac:(cbn in H; lia)) as [Ha Hb]. lia.
    - cbn [nth]. destruct (IH _ i j L2 ltac:(cbn in H; lia)). lia. }
  destruct (G bl p0 i j L H). lia.
Qed.
Lemma col_holds bs c c' p : valid bs -> (c < length (cols bs))%nat -> (c' < length (cols bs))%nat -> c <> c' -> holds (col bs c) p = true -> holds (col bs c') p = true -> False.
Proof.
  intros V H H' N. unfold col. destruct (Nat.lt_gt_cases c c') as [[L|L] _]; [exact N| |].
  - apply (laid_holds 0 (cols bs) c c' _ p (v_cols _ V)). lia.
  - intros H1 H2. apply (laid_holds 0 (cols bs) c' c (mkBlock 0 0) p (v_cols _ V)); [lia|exact H2|exact H1].
Qed.
Section PRODUCT.
Variables (bs : Structure) (values : vec).
Hypothesis V : valid bs.
Let row_entry (p q : nat) (row : Row) : R := suml (cells row) (fun c => cell_entry values (block row) (col bs (block_id c)) (cell_position c) p q).
Lemma row_pairs p (f g : Row -> R) : (forall row, holds (block row) p = false -> f row = 0 /\ g row = 0) -> ForallOrdPairs (fun a b => f a * g b = 0 /\ f b * g a = 0) (rows bs).
Proof.
  intro H. apply pairs_of. intros i j d Hij.
  assert (holds (block (nth i (rows bs) d)) p = false \/ holds (block (nth j (rows bs) d)) p = false) as [E|E].
  { destruct (holds (block (nth i (rows bs) d)) p) eqn:E1; [|left; reflexivity]. destruct (holds (block (nth j (rows bs) d)) p) eqn:E2; [|right; reflexivity]. exfalso.
    apply (laid_holds 0 (map block (rows bs)) i j (block d) p (v_rows _ V)); [rewrite map_length; exact Hij| |]; rewrite map_nth; assumption. }
  - destruct (H _ E) as [-> ->]. split; ring.
  - destruct (H _ E) as [-> ->]. split; ring.
Qed.
Lemma row_entry_zero p q row : holds (block row) p = false -> row_entry p q row = 0.
Proof. intro H. apply suml_zero. intros c Hc. unfold cell_entry. rewrite H. reflexivity. Qed.
(* the product of two entries in one row *)
Lemma dense_product p q q' : dense bs values p q * dense bs values p q' = suml (rows bs) (fun row => row_entry p q row * row_entry p q' row).
Proof.
  rewrite !dense_cells. apply (suml_product (rows bs) (row_entry p q) (row_entry p q')). apply (row_pairs p). intros row H. split; apply row_entry_zero; exact H.
Qed.
(* both in the same block column *)
Lemma entry_product row p q q' k : In row (rows bs) -> (k < length (cols bs))%nat -> holds (col bs k) q = true -> holds (col bs k) q' = true ->
  row_entry p q row * row_entry p q' row = suml (cells row) (fun c => cell_entry values (block row) (col bs (block_id c)) (cell_position c) p q * cell_entry values (block row) (col bs (block_id c)) (cell_position c) p q').
Proof.
  intros Hr Hk H1 H2. unfold row_entry. destruct (v_cells _ V row Hr) as [N I].
  apply (suml_product (cells row) (fun c => cell_entry values (block row) (col bs (block_id c)) (cell_position c) p q) (fun c => cell_entry values (block row) (col bs (block_id c)) (cell_position c) p q')).
  apply pairs_of. intros i j d Hij. set (a := nth i (cells row) d). set (b := nth j (cells row) d).
  assert (In a (cells row)) as Ia by (apply nth_In; lia). assert (In b (cells row)) as Ib by (apply nth_In; lia).
  assert (block_id a <> block_id b) as Nab.
  { intro E. apply (NoDup_nth (map block_id (cells row)) (block_id d)) with (i := i) (j := j) in N; [lia| | |]; rewrite ?map_length; try lia. rewrite !map_nth. exact E. }
  assert (forall c r, In c (cells row) -> block_id c <> k -> holds (col bs k) r = true -> cell_entry values (block row) (col bs (block_id c)) (cell_position c) p r = 0) as Z.
  { intros c r Hc Nc Hh. unfold cell_entry. destruct (holds (col bs (block_id c)) r) eqn:E; [|rewrite andb_false_r; reflexivity]. exfalso. exact (col_holds bs _ _ r V (I c Hc) Hk Nc E Hh). }
  destruct (Nat.eq_dec (block_id a) k) as [Ea|Na].
  - rewrite (Z b q Ib) by (congruence || assumption). rewrite (Z b q' Ib) by (congruence || assumption). split; ring.
  - rewrite (Z a q Ia Na H1), (Z a q' Ia Na H2). split; ring.
Qed.
(* the column q is in some block *)
Lemma laid_find p0 bl : laid_out p0 bl -> forall q, (p0 <= q < p0 + total bl)%nat -> exists k, (k < length bl)%nat /\ holds (nth k bl (mkBlock 0 0)) q = true.
Proof.
  revert p0. induction bl as [|b bl IH]; intros p0 L q H; [cbn in H; lia|]. destruct L as [L1 L2]. cbn [total fold_right] in H. fold (total bl) in H.
  destruct (Nat.lt_ge_cases q (p0 + size b)) as [Hq|Hq].
  - exists 0%nat. split; [cbn; lia|]. cbn [nth]. apply holds_spec. unfold within. lia.
  - destruct (IH _ L2 q ltac:(lia)) as [k [Hk E]]. exists (S k). split; [cbn; lia|exact E].
Qed.
Lemma dense_outside p q : (breadth bs <= q)%nat -> dense bs values p q = 0.
Proof.
  intro H. rewrite dense_cells. apply suml_zero. intros row Hr. apply suml_zero. intros c Hc. unfold cell_entry. destruct (holds (col bs (block_id c)) q) eqn:E; [|rewrite andb_false_r; reflexivity].
  exfalso. apply holds_spec in E. unfold within in E. pose proof (col_bound bs (block_id c) V (proj2 (v_cells _ V row Hr) c Hc)). lia.
Qed.
Lemma norm_cells q : suml (rows bs) (fun row => suml (cells row) (fun c => part (cell_norm values (cell_position c) (size (block row)) (size (col bs (block_id c))) (position (col bs (block_id c)))) q)) =
  sumn (height bs) (fun p => dense bs values p q * dense bs values p q).
Proof.
  rewrite (suml_ext (rows bs) _ (fun row => sumn (height bs) (fun p => suml (cells row) (fun c => cell_entry values (block row) (col bs (block_id c)) (cell_position c) p q * cell_entry values (block row) (col bs (block_id c)) (cell_position c) p q)))).
  2:{ intros row Hr. rewrite <- suml_sumn. ext. apply cell_norm_part. apply row_bound; [exact V|exact Hr]. }
  rewrite suml_sumn. apply sumn_ext. intros p Hp. destruct (Nat.lt_ge_cases q (breadth bs)) as [Hq|Hq].
  - destruct (laid_find 0 (cols bs) (v_cols _ V) q) as [k [Hk E]]; [unfold breadth in Hq; lia|]. rewrite dense_product. ext. symmetry. exact (entry_product x p q q k H Hk E E).
  - rewrite (dense_outside p q Hq), Rmult_0_l. apply suml_zero. intros row Hr. apply suml_zero. intros c Hc. unfold cell_entry. destruct (holds (col bs (block_id c)) q) eqn:E; [|rewrite andb_false_r; ring].
    exfalso. apply holds_spec in E. unfold within in E. pose proof (col_bound bs (block_id c) V (proj2 (v_cells _ V row Hr) c Hc)). lia.
Qed.
Lemma norm_sum q : suml (NormTasks bs values) (fun t => suml t (fun u => part u q)) = sumn (height bs) (fun p => dense bs values p q * dense bs values p q).
Proof. unfold NormTasks. rewrite suml_map, <- norm_cells. ext. rewrite suml_map. reflexivity. Qed.
Lemma norm_transpose_sum q : suml (NormTransposeTasks (CreateTranspose bs) values) (fun t => suml t (fun u => part u q)) = sumn (height bs) (fun p => dense bs values p q * dense bs values p q).
Proof.
  unfold NormTransposeTasks. rewrite suml_map, <- norm_cells.
  rewrite (suml_ext (rows (CreateTranspose bs)) _ (fun r => suml (cells r) (fun c => part (cell_norm values (cell_position c) (size (col (CreateTranspose bs) (block_id c))) (size (block r)) (position (block r))) q))).
  2:{ intros. rewrite suml_map. reflexivity. }
  exact (transpose_sum bs (fun cb rb pos => part (cell_norm values pos (size rb) (size cb) (position cb)) q) (ids bs V)).
Qed.
End PRODUCT.

Lemma dense_copy bs values p q : ToDenseMatrix bs values p q = dense bs values p q.
Proof.
  unfold ToDenseMatrix. rewrite dense_cells.
  assert (forall row cs m, fold_left (fun m c => let w := size (col bs (block_id c)) in add_block m (position (block row)) (position (col bs (block_id c))) (size (block row)) w (block_at values (cell_position c) w)) cs m p q
    = m p q + suml cs (fun c => cell_entry values (block row) (col bs (block_id c)) (cell_position c) p q)) as G1.
  { intros row cs. induction cs as [|c cs IH]; intro m; cbn [fold_left suml]; [ring|]. rewrite IH. unfold add_block, cell_entry at 2, block_at. rewrite !holds_inside. destruct (inside _ _ p && inside _ _ q); cbn; ring. }
  assert (forall rs m, fold_left (fun m row => fold_left (fun m c => let w := size (col bs (block_id c)) in add_block m (position (block row)) (position (col bs (block_id c))) (size (block row)) w (block_at values (cell_position c) w)) (cells row) m) rs m p q
    = m p q + suml rs (fun row => suml (cells row) (fun c => cell_entry values (block row) (col bs (block_id c)) (cell_position c) p q))) as G2.
  { induction rs as [|row rs IH]; intro m; cbn [fold_left suml]; [ring|]. rewrite IH, G1. ring. }
  rewrite G2. ring.
Qed.
