(* the diagonal blocks of E'E and F'F; races in the view *)
From Coq Require Import Reals List Arith Bool Lia Lra Permutation.
From Verif Require Import SchurModel SchurProofs BlockSparseModel BlockSparseSpec BlockSparseProofs BlockSparseProofs2 BlockSparseProofs3 BlockSparseProofs4 BlockSparseProofs5 BlockSparseProofs7.
Import ListNotations.
Open Scope R_scope.

Lemma cell_product values rb cb pos n i j : (position rb + size rb <= n)%nat -> (i < size cb)%nat -> (j < size cb)%nat ->
  sumn n (fun p => cell_entry values rb cb pos p (position cb + i) * cell_entry values rb cb pos p (position cb + j)) = mtm (size rb) (block_at values pos (size cb)) (block_at values pos (size cb)) i j.
Proof.
  intros H Hi Hj. unfold cell_entry. assert (holds cb (position cb + i) = true) as -> by (apply holds_spec; unfold within; lia). assert (holds cb (position cb + j) = true) as -> by (apply holds_spec; unfold within; lia).
  replace (position cb + i - position cb)%nat with i by lia. replace (position cb + j - position cb)%nat with j by lia.
  rewrite (sumn_ext n _ (fun p => if inside (position rb) (size rb) p then values (pos + (p - position rb) * size cb + i)%nat * values (pos + (p - position rb) * size cb + j)%nat else 0)).
  2:{ intros p Hp. rewrite andb_true_r, holds_inside. destruct (inside _ _ p); ring. }
  rewrite (sum_block n (position rb) (size rb) (fun p => values (pos + (p - position rb) * size cb + i)%nat * values (pos + (p - position rb) * size cb + j)%nat) H). unfold mtm, block_at. apply sumn_ext. intros k Hk. replace (position rb + k - position rb)%nat with k by lia. reflexivity.
Qed.
Section DIAG.
Variables (bs : Structure) (values : vec).
Hypothesis V : valid bs.
Definition square (k i j : nat) (row : Row) (c : Cell) : R :=
  if (block_id c =? k)%nat then mtm (size (block row)) (block_at values (cell_position c) (size (col bs (block_id c)))) (block_at values (cell_position c) (size (col bs (block_id c)))) i j else 0.
Lemma diag_cells k i j : (k < length (cols bs))%nat -> (i < size (col bs k))%nat -> (j < size (col bs k))%nat ->
  sumn (height bs) (fun p => dense bs values p (position (col bs k) + i) * dense bs values p (position (col bs k) + j)) = suml (rows bs) (fun row => suml (cells row) (square k i j row)).
Proof.
  intros Hk Hi Hj. assert (holds (col bs k) (position (col bs k) + i) = true) as H1 by (apply holds_spec; unfold within; lia). assert (holds (col bs k) (position (col bs k) + j) = true) as H2 by (apply holds_spec; unfold within; lia).
  rewrite (sumn_ext (height bs) _ (fun p => suml (rows bs) (fun row => suml (cells row) (fun c => cell_entry values (block row) (col bs (block_id c)) (cell_position c) p (position (col bs k) + i) * cell_entry values (block row) (col bs (block_id c)) (cell_position c) p (position (col bs k) + j))))).
  2:{ intros p Hp. rewrite (dense_product bs values V). apply suml_ext. intros row Hr. exact (entry_product bs values V row p _ _ k Hr Hk H1 H2). }
  rewrite <- suml_sumn. apply suml_ext. intros row Hr. rewrite <- suml_sumn. apply suml_ext. intros c Hc. unfold square. destruct (Nat.eqb_spec (block_id c) k) as [E|N].
  - rewrite E. apply cell_product; [apply row_bound; [exact V|exact Hr]|exact Hi|exact Hj].
  - apply sumn_zero. intros p Hp. unfold cell_entry. destruct (holds (col bs (block_id c)) (position (col bs k) + i)) eqn:E; [|rewrite andb_false_r; ring]. exfalso. exact (col_holds bs _ _ _ V (ids bs V row c Hr Hc) Hk N E H1).
Qed.
Lemma add_cells k' sel i j row : forall cs (m : matrix), (forall c, In c cs -> sel c = (block_id c =? k')%nat) ->
  fold_left (fun m c => if sel c then let w := size (col bs (block_id c)) in let A := block_at values (cell_position c) w in (fun i j => m i j + mtm (size (block row)) A A i j) else m) cs m i j = m i j + suml cs (square k' i j row).
Proof.
  induction cs as [|c cs IH]; intros m H; cbn [fold_left suml]; [ring|]. rewrite IH by (intros x Hx; apply H; right; exact Hx). unfold square at 2. rewrite (H c (or_introl eq_refl)). destruct (block_id c =? k')%nat; cbv zeta; ring.
Qed.
Lemma add_rows sel pick k i j rs : forall (m : matrix), (forall row c, In row rs -> In c (pick row) -> sel c = (block_id c =? k)%nat) ->
  fold_left (fun m row => fold_left (fun m c => if sel c then let w := size (col bs (block_id c)) in let A := block_at values (cell_position c) w in (fun i j => m i j + mtm (size (block row)) A A i j) else m) (pick row) m) rs m i j
  = m i j + suml rs (fun row => suml (pick row) (square k i j row)).
Proof.
  induction rs as [|row rs IH]; intros m H; cbn [fold_left suml]; [ring|]. rewrite IH by (intros r c Hr Hc; apply (H r c); [right; exact Hr|exact Hc]).
  etransitivity; [apply (f_equal (fun r => r + _)); apply (add_cells k sel i j row (pick row) m); intros c Hc; apply (H row c); [left; reflexivity|exact Hc]|ring].
Qed.
Lemma diagonal_transpose_sum k i j : (k < length (cols bs))%nat -> (i < size (col bs k))%nat -> (j < size (col bs k))%nat ->
  DiagonalTranspose (CreateTranspose bs) values k i j = sumn (height bs) (fun p => dense bs values p (position (col bs k) + i) * dense bs values p (position (col bs k) + j)).
Proof.
  intros Hk Hi Hj. rewrite (diag_cells k i j Hk Hi Hj). unfold DiagonalTranspose. rewrite window_all.
  assert (nth_error (window bs 0 (length (cols bs))) k = Some (mkRow (col bs k) (tcells k (occurrences 0 (rows bs))))) as ->.
  { unfold window. rewrite nth_error_map. rewrite (nth_error_nth' _ 0%nat) by (rewrite seq_length; exact Hk). rewrite seq_nth by exact Hk. reflexivity. }
  cbn [block cells].
  assert (forall cs (m : matrix), fold_left (fun m c => let A := block_at values (cell_position c) (size (col bs k)) in (fun i j => m i j + mtm (size (col (CreateTranspose bs) (block_id c))) A A i j)) cs m i j =
    m i j + suml cs (fun c => mtm (size (col (CreateTranspose bs) (block_id c))) (block_at values (cell_position c) (size (col bs k))) (block_at values (cell_position c) (size (col bs k))) i j)) as ->.
  { induction cs as [|c cs IH]; intro m; cbn [fold_left suml]; [ring|]. rewrite IH. cbv zeta. ring. }
  rewrite Rplus_0_l. pose proof (window_sum bs k 1 (fun cb rb pos => mtm (size rb) (block_at values pos (size cb)) (block_at values pos (size cb)) i j)) as W.
  unfold window in W at 1. cbn [seq map suml block cells] in W. rewrite Rplus_0_r in W. rewrite W. apply suml_ext. intros row Hr. apply suml_ext. intros c Hc. unfold square, inside.
  destruct (Nat.leb_spec k (block_id c)); destruct (Nat.ltb_spec (block_id c) (k + 1)); destruct (Nat.eqb_spec (block_id c) k); cbn [andb]; reflexivity || lia.
Qed.
Variable nelim : nat.
Hypothesis Pt : partitioned nelim bs.
Lemma diagonal_e_sum k i j : (k < nelim)%nat -> (i < size (col bs k))%nat -> (j < size (col bs k))%nat ->
  DiagonalE nelim bs values k i j = sumn (height bs) (fun p => E_of bs values p (position (col bs k) + i) * E_of bs values p (position (col bs k) + j)).
Proof.
  intros Hk Hi Hj. pose proof (pt_nelim _ _ Pt) as Pn. unfold E_of. rewrite (diag_cells k i j) by lia. unfold DiagonalE.
  rewrite (add_rows (fun c => (block_id c =? k)%nat) first_cell k i j (e_rows nelim bs)) by reflexivity. rewrite Rplus_0_l.
  destruct (view_rows nelim bs Pt) as [es [fs [E [-> [_ [_ [He Hf]]]]]]]. rewrite E, suml_app, (suml_zero fs), Rplus_0_r.
  - apply suml_ext. intros row Hr. destruct (He row Hr) as [c [cs [Ec [Hc Hcs]]]]. unfold first_cell. rewrite Ec. cbn [firstn suml]. rewrite (suml_zero cs); [reflexivity|]. intros c' Hc'. specialize (Hcs c' Hc'). unfold square. destruct (Nat.eqb_spec (block_id c') k); [lia|reflexivity].
  - intros row Hr. apply suml_zero. intros c Hc. pose proof (proj2 (Hf row Hr) c Hc). unfold square. destruct (Nat.eqb_spec (block_id c) k); [lia|reflexivity].
Qed.
Lemma diagonal_f_sum k i j : (nelim + k < length (cols bs))%nat -> (i < size (col bs (nelim + k)))%nat -> (j < size (col bs (nelim + k)))%nat ->
  DiagonalF nelim bs values k i j = sumn (height bs) (fun p => F_of nelim bs values p (position (col bs (nelim + k)) - e_columns nelim bs + i) * F_of nelim bs values p (position (col bs (nelim + k)) - e_columns nelim bs + j)).
Proof.
  intros Hk Hi Hj. unfold F_of. destruct (f_col nelim bs V (nelim + k) ltac:(lia)) as [F1 _].
  replace (e_columns nelim bs + (position (col bs (nelim + k)) - e_columns nelim bs + i))%nat with (position (col bs (nelim + k)) + i)%nat by lia.
  replace (e_columns nelim bs + (position (col bs (nelim + k)) - e_columns nelim bs + j))%nat with (position (col bs (nelim + k)) + j)%nat by lia.
  rewrite (diag_cells (nelim + k) i j Hk Hi Hj). unfold DiagonalF.
  rewrite (add_rows (fun c => (block_id c - nelim =? k)%nat) cells (nelim + k) i j (f_rows nelim bs)).
  2:{ intros row c Hr Hc. pose proof (f_rest nelim bs V Pt row c Hr Hc). destruct (Nat.eqb_spec (block_id c - nelim) k); destruct (Nat.eqb_spec (block_id c) (nelim + k)); reflexivity || lia. }
  rewrite (add_rows (fun c => (block_id c - nelim =? k)%nat) (fun row => tl (cells row)) (nelim + k) i j (e_rows nelim bs)).
  2:{ intros row c Hr Hc. pose proof (e_rest nelim bs V Pt row c Hr Hc). destruct (Nat.eqb_spec (block_id c - nelim) k); destruct (Nat.eqb_spec (block_id c) (nelim + k)); reflexivity || lia. }
  rewrite Rplus_0_l. destruct (view_rows nelim bs Pt) as [es [fs [E [-> [-> [_ [He Hf]]]]]]]. rewrite E, suml_app. f_equal. apply suml_ext. intros row Hr. destruct (He row Hr) as [c [cs [Ec [Hc _]]]]. rewrite Ec. cbn [tl suml]. unfold square at 2. destruct (Nat.eqb_spec (block_id c) (nelim + k)); [lia|ring].
Qed.
End DIAG.

(* ---------------- races ---------------- *)
Section RACE.
Variables (nelim : nat) (bs : Structure) (values x : vec).
Hypotheses (V : valid bs) (Pt : partitioned nelim bs).
Lemma laid_skip n : exists p, laid_out p (map block (skipn n (rows bs))).
Proof. pose proof (v_rows _ V) as L. rewrite <- (firstn_skipn n (rows bs)), map_app in L. apply laid_app in L. eexists. exact (proj2 L). Qed.
Lemma laid_first n : laid_out 0 (map block (firstn n (rows bs))).
Proof. pose proof (v_rows _ V) as L. rewrite <- (firstn_skipn n (rows bs)), map_app in L. apply laid_app in L. exact (proj1 L). Qed.
Lemma right_e_race : race_free (RightE nelim bs values x).
Proof.
  apply (keyed_race _ (map block (e_rows nelim bs)) 0); [|apply laid_first]. apply keyed_map. intros row u _ Hu. apply in_map_iff in Hu. destruct Hu as [c [<- _]]. split; reflexivity.
Qed.
Lemma right_f1_race : race_free (RightF1 nelim bs values x).
Proof.
  apply (keyed_race _ (map block (e_rows nelim bs)) 0); [|apply laid_first]. apply keyed_map. intros row u _ Hu. apply in_map_iff in Hu. destruct Hu as [c [<- _]]. split; reflexivity.
Qed.
Lemma right_f2_race : race_free (RightF2 nelim bs values x).
Proof.
  destruct (laid_skip (num_row_blocks_e nelim bs)) as [p L]. apply (keyed_race _ (map block (f_rows nelim bs)) p); [|exact L]. apply keyed_map. intros row u _ Hu. apply in_map_iff in Hu. destruct Hu as [c [<- _]]. split; reflexivity.
Qed.
Lemma left_e_race : race_free (LeftETranspose nelim (num_row_blocks_e nelim bs) (CreateTranspose bs) values x).
Proof.
  apply (keyed_race _ (map block (firstn nelim (rows (CreateTranspose bs)))) 0).
  - apply keyed_map. intros row u _ Hu. apply in_map_iff in Hu. destruct Hu as [c [<- _]]. split; reflexivity.
  - rewrite <- firstn_map, transpose_blocks. pose proof (v_cols _ V) as L. rewrite <- (firstn_skipn nelim (cols bs)) in L. apply laid_app in L. exact (proj1 L).
Qed.
Lemma laid_unshift h bl : forall p, laid_out (h + p) bl -> laid_out p (map (fun b => mkBlock (size b) (position b - h)) bl).
Proof. induction bl as [|b bl IH]; intros p L; [exact I|]. destruct L as [L1 L2]. cbn [map laid_out position size]. split; [lia|]. apply IH. rewrite Nat.add_assoc. exact L2. Qed.
Lemma left_f_race : race_free (LeftFTranspose nelim (num_cols_e nelim bs) (CreateTranspose bs) values x).
Proof.
  apply (keyed_race _ (map (fun r => mkBlock (size (block r)) (position (block r) - num_cols_e nelim bs)) (skipn nelim (rows (CreateTranspose bs)))) 0).
  - apply keyed_map. intros row u _ Hu. apply in_map_iff in Hu. destruct Hu as [c [<- _]]. split; reflexivity.
  - rewrite <- (map_map block (fun b => mkBlock (size b) (position b - num_cols_e nelim bs))). rewrite <- skipn_map, transpose_blocks. apply laid_unshift. pose proof (v_cols _ V) as L. rewrite <- (firstn_skipn nelim (cols bs)) in L. apply laid_app in L. rewrite Nat.add_0_r. exact (proj2 L).
Qed.
End RACE.
