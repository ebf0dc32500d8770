(* the partitioned view *)
From Coq Require Import Reals List Arith Bool Lia Lra Permutation.
From Verif Require Import SchurModel SchurProofs BlockSparseModel BlockSparseSpec BlockSparseProofs BlockSparseProofs2 BlockSparseProofs3 BlockSparseProofs4 BlockSparseProofs5.
Import ListNotations.
Open Scope R_scope.

(* ---------------- part of the columns of the transpose ---------------- *)
Lemma suml_seq_window s m k (g : nat -> R) : suml (seq s m) (fun i => if (k =? i)%nat then g i else 0) = if inside s m k then g k else 0.
Proof.
  revert s. induction m as [|m IH]; intro s; cbn [seq suml].
  - unfold inside. destruct (Nat.leb_spec s k); destruct (Nat.ltb_spec k (s + 0)); cbn [andb]; lia || reflexivity.
  - rewrite IH. unfold inside. destruct (Nat.eqb_spec k s) as [->|].
    + destruct (Nat.leb_spec (S s) s); [lia|]. destruct (Nat.leb_spec s s); [|lia]. destruct (Nat.ltb_spec s (s + S m)); [|lia]. cbn [andb]. ring.
    + destruct (Nat.leb_spec (S s) k); destruct (Nat.leb_spec s k); destruct (Nat.ltb_spec k (S s + m)); destruct (Nat.ltb_spec k (s + S m)); cbn [andb]; try lia; ring.
Qed.
Definition window (bs : Structure) (s m : nat) : list Row := map (fun k => mkRow (col bs k) (tcells k (occurrences 0 (rows bs)))) (seq s m).
Lemma window_sum bs s m (G : Block -> Block -> nat -> R) :
  suml (window bs s m) (fun r => suml (cells r) (fun c => G (block r) (col (CreateTranspose bs) (block_id c)) (cell_position c))) =
  suml (rows bs) (fun row => suml (cells row) (fun c => if inside s m (block_id c) then G (col bs (block_id c)) (block row) (cell_position c) else 0)).
Proof.
  unfold window. rewrite suml_map. cbn [block cells].
  rewrite (suml_ext (seq s m) _ (fun k => suml (occurrences 0 (rows bs)) (fun p => if (block_id (snd p) =? k)%nat then G (col bs k) (nth (fst p) (map block (rows bs)) (mkBlock 0 0)) (cell_position (snd p)) else 0))).
  2:{ intros k Hk. unfold tcells. rewrite suml_map, suml_filter. apply suml_ext. intros p Hp. destruct (block_id (snd p) =? k)%nat; reflexivity. }
  rewrite suml_swap.
  rewrite (suml_ext (occurrences 0 (rows bs)) _ (fun p => if inside s m (block_id (snd p)) then G (col bs (block_id (snd p))) (nth (fst p) (map block (rows bs)) (mkBlock 0 0)) (cell_position (snd p)) else 0)).
  2:{ intros p Hp. apply (suml_seq_window s m (block_id (snd p)) (fun k => G (col bs k) (nth (fst p) (map block (rows bs)) (mkBlock 0 0)) (cell_position (snd p)))). }
  rewrite <- (suml_map (fun p : nat * Cell => if inside s m (block_id (snd p)) then G (col bs (block_id (snd p))) (nth (fst p) (map block (rows bs)) (mkBlock 0 0)) (cell_position (snd p)) else 0) _ (fun r => r)).
  rewrite (occurrences_list (fun i c => if inside s m (block_id c) then G (col bs (block_id c)) (nth i (map block (rows bs)) (mkBlock 0 0)) (cell_position c) else 0)
    (fun row c => if inside s m (block_id c) then G (col bs (block_id c)) (block row) (cell_position c) else 0) (rows bs) (rows bs) 0 [] eq_refl eq_refl).
  - rewrite suml_flat. apply suml_ext. intros row Hr. rewrite suml_map. reflexivity.
  - intros j row c E. rewrite (nth_indep _ _ (block row)) by (rewrite map_length; apply nth_error_Some; congruence). rewrite map_nth, (nth_error_nth _ _ _ E). reflexivity.
Qed.
Lemma window_all bs : rows (CreateTranspose bs) = window bs 0 (length (cols bs)).
Proof. rewrite transpose_rows. reflexivity. Qed.
Lemma window_split bs n : (n <= length (cols bs))%nat -> firstn n (rows (CreateTranspose bs)) = window bs 0 n /\ skipn n (rows (CreateTranspose bs)) = window bs n (length (cols bs) - n).
Proof.
  intro H. rewrite window_all. unfold window. assert (seq 0 (length (cols bs)) = seq 0 n ++ seq n (length (cols bs) - n)) as -> by (change (seq n (length (cols bs) - n)) with (seq (0 + n) (length (cols bs) - n)); rewrite <- (seq_app n (length (cols bs) - n) 0); f_equal; lia). rewrite map_app.
  assert (length (map (fun k => mkRow (col bs k) (tcells k (occurrences 0 (rows bs)))) (seq 0 n)) = n) as Ln by (rewrite map_length, seq_length; reflexivity).
  split.
  - rewrite firstn_app, Ln, Nat.sub_diag, firstn_O, app_nil_r. rewrite <- Ln at 1. apply firstn_all.
  - rewrite skipn_app, Ln, Nat.sub_diag, skipn_O. rewrite <- Ln at 1. rewrite skipn_all. reflexivity.
Qed.

Section VIEW.
Variables (nelim : nat) (bs : Structure) (values : vec).
Hypotheses (V : valid bs) (Pt : partitioned nelim bs).
Let ne := e_columns nelim bs.
Let nf := f_columns nelim bs.
Lemma filter_all {A} (f : A -> bool) l : (forall x, In x l -> f x = true) -> filter f l = l.
Proof. induction l as [|x l IH]; intro H; [reflexivity|]. cbn. rewrite H by (left; reflexivity). f_equal. apply IH. intros y Hy. apply H. right. exact Hy. Qed.
Lemma filter_none {A} (f : A -> bool) l : (forall x, In x l -> f x = false) -> filter f l = [].
Proof. induction l as [|x l IH]; intro H; [reflexivity|]. cbn. rewrite H by (left; reflexivity). apply IH. intros y Hy. apply H. right. exact Hy. Qed.
Lemma view_rows : exists es fs, rows bs = es ++ fs /\ e_rows nelim bs = es /\ f_rows nelim bs = fs /\ num_row_blocks_e nelim bs = length es /\
    (forall row, In row es -> exists c cs, cells row = c :: cs /\ (block_id c < nelim)%nat /\ forall c', In c' cs -> (nelim <= block_id c')%nat) /\
    (forall row, In row fs -> cells row <> [] /\ forall c, In c (cells row) -> (nelim <= block_id c)%nat).
Proof.
  destruct (pt_rows _ _ Pt) as [es [fs [E [He Hf]]]]. exists es, fs. split; [exact E|].
  assert (num_row_blocks_e nelim bs = length es) as N.
  { unfold num_row_blocks_e. rewrite E, filter_app, filter_all, filter_none; [rewrite app_nil_r; reflexivity| |].
    - intros row Hr. destruct (Hf row Hr) as [N0 N1]. unfold starts_in. destruct (cells row) as [|c cs]; [reflexivity|]. apply Nat.ltb_ge. apply N1. left. reflexivity.
    - intros row Hr. destruct (He row Hr) as [c [cs [Ec [Hc _]]]]. unfold starts_in. rewrite Ec. apply Nat.ltb_lt. exact Hc. }
  unfold e_rows, f_rows. rewrite N, E. split; [rewrite firstn_app, Nat.sub_diag, firstn_O, app_nil_r; apply firstn_all|]. split; [rewrite skipn_app, Nat.sub_diag, skipn_O, skipn_all; reflexivity|]. split; [reflexivity|]. split; assumption.
Qed.
Lemma columns_total : (ne + nf = breadth bs)%nat.
Proof. unfold ne, nf, e_columns, f_columns, breadth. rewrite <- total_app, firstn_skipn. reflexivity. Qed.
Lemma nth_first {A} (l : list A) n i d : (i < n)%nat -> nth i (firstn n l) d = nth i l d.
Proof. revert n i. induction l as [|x l IH]; intros n i H; [rewrite firstn_nil; destruct i; reflexivity|]. destruct n; [lia|]. destruct i; [reflexivity|]. cbn. apply IH. lia. Qed.
Lemma nth_last {A} (l : list A) n i d : nth i (skipn n l) d = nth (n + i) l d.
Proof. revert l. induction n as [|n IH]; intro l; [reflexivity|]. destruct l as [|x l]; [destruct i; reflexivity|]. exact (IH l). Qed.
Lemma e_col k : (k < nelim)%nat -> (position (col bs k) + size (col bs k) <= ne)%nat.
Proof.
  intro H. pose proof (v_cols _ V) as L. rewrite <- (firstn_skipn nelim (cols bs)) in L. apply laid_app in L. destruct L as [L _]. pose proof (pt_nelim _ _ Pt) as Pn.
  pose proof (laid_bound 0 _ k (mkBlock 0 0) L ltac:(rewrite firstn_length_le; lia)) as B. rewrite nth_first in B by exact H. exact B.
Qed.
Lemma f_col k : (nelim <= k < length (cols bs))%nat -> (ne <= position (col bs k))%nat /\ (position (col bs k) - ne + size (col bs k) <= nf)%nat.
Proof.
  intro H. pose proof (v_cols _ V) as L. rewrite <- (firstn_skipn nelim (cols bs)) in L. apply laid_app in L. destruct L as [_ L]. fold (e_columns nelim bs) in L. fold ne in L. cbn [Nat.add] in L.
  assert (k - nelim < length (skipn nelim (cols bs)))%nat as Lk by (rewrite skipn_length; lia).
  pose proof (laid_bound ne _ (k - nelim) (mkBlock 0 0) L Lk) as B. rewrite nth_last in B. replace (nelim + (k - nelim))%nat with k in B by lia. fold (f_columns nelim bs) in B. fold nf in B. fold (col bs k) in B.
  assert (forall bl p0 i d, laid_out p0 bl -> (i < length bl)%nat -> (p0 <= position (nth i bl d))%nat) as G.
  { clear. induction bl as [|b bl IH]; intros p0 i d L H; [cbn in H; lia|]. destruct L as [L1 L2]. destruct i as [|i]; cbn [nth]; [lia|]. specialize (IH _ i d L2 ltac:(cbn in H; lia)). lia. }
  pose proof (G _ _ _ (mkBlock 0 0) L Lk) as B2. rewrite nth_last in B2. replace (nelim + (k - nelim))%nat with k in B2 by lia. fold (col bs k) in B2. lia.
Qed.
(* E and F entries: only the e cells and only the f cells *)
Let ce (row : Row) (p q : nat) (c : Cell) : R := cell_entry values (block row) (col bs (block_id c)) (cell_position c) p q.
Lemma ce_f row p q c : (q < ne)%nat -> (nelim <= block_id c < length (cols bs))%nat -> ce row p q c = 0.
Proof.
  intros Hq Hc. unfold ce, cell_entry. destruct (holds (col bs (block_id c)) q) eqn:E; [|rewrite andb_false_r; reflexivity]. exfalso. apply holds_spec in E. unfold within in E. destruct (f_col _ Hc). lia.
Qed.
Lemma ce_e row p q c : (ne <= q)%nat -> (block_id c < nelim)%nat -> ce row p q c = 0.
Proof.
  intros Hq Hc. unfold ce, cell_entry. destruct (holds (col bs (block_id c)) q) eqn:E; [|rewrite andb_false_r; reflexivity]. exfalso. apply holds_spec in E. unfold within in E. pose proof (e_col _ Hc). lia.
Qed.
Lemma dense_e p q : suml (e_rows nelim bs) (fun row => suml (first_cell row) (ce row p q)) = if (q <? ne)%nat then dense bs values p q else 0.
Proof.
  destruct view_rows as [es [fs [E [-> [Ef [_ [He Hf]]]]]]]. destruct (Nat.ltb_spec q ne) as [Hq|Hq].
  - rewrite dense_cells, E, suml_app, (suml_zero fs).
    + rewrite Rplus_0_r. apply suml_ext. intros row Hr. destruct (He row Hr) as [c [cs [Ec [Hc Hcs]]]]. unfold first_cell. rewrite Ec. cbn [firstn suml]. rewrite (suml_zero cs); [reflexivity|]. intros c' Hc'. apply (ce_f row p q c' Hq). split; [exact (Hcs c' Hc')|]. apply (ids bs V row); [rewrite E; apply in_or_app; left; exact Hr|rewrite Ec; right; exact Hc'].
    + intros row Hr. apply suml_zero. intros c Hc. apply (ce_f row p q c Hq). split; [exact (proj2 (Hf row Hr) c Hc)|]. apply (ids bs V row); [rewrite E; apply in_or_app; right; exact Hr|exact Hc].
  - apply suml_zero. intros row Hr. apply suml_zero. intros c Hc. destruct (He row Hr) as [c0 [cs [Ec [Hc0 _]]]]. unfold first_cell in Hc. rewrite Ec in Hc. destruct Hc as [<-|[]]. exact (ce_e row p q c0 Hq Hc0).
Qed.
Lemma dense_f p q : suml (e_rows nelim bs) (fun row => suml (tl (cells row)) (ce row p (ne + q))) + suml (f_rows nelim bs) (fun row => suml (cells row) (ce row p (ne + q))) = dense bs values p (ne + q).
Proof.
  destruct view_rows as [es [fs [E [-> [-> [_ [He Hf]]]]]]]. rewrite dense_cells, E, suml_app. f_equal. apply suml_ext. intros row Hr. destruct (He row Hr) as [c [cs [Ec [Hc Hcs]]]]. rewrite Ec. cbn [tl suml].
  change (cell_entry values (block row) (col bs (block_id c)) (cell_position c) p (ne + q)) with (ce row p (ne + q) c). rewrite (ce_e row p (ne + q) c) by (lia || exact Hc). rewrite Rplus_0_l. reflexivity.
Qed.
Lemma in_e row : In row (e_rows nelim bs) -> In row (rows bs). Proof. intro H. rewrite <- (firstn_skipn (num_row_blocks_e nelim bs) (rows bs)). apply in_or_app. left. exact H. Qed.
Lemma in_f row : In row (f_rows nelim bs) -> In row (rows bs). Proof. intro H. rewrite <- (firstn_skipn (num_row_blocks_e nelim bs) (rows bs)). apply in_or_app. right. exact H. Qed.
Lemma e_first row c : In row (e_rows nelim bs) -> In c (first_cell row) -> (block_id c < nelim)%nat.
Proof. destruct view_rows as [es [fs [E [-> [_ [_ [He _]]]]]]]. intros Hr Hc. destruct (He row Hr) as [c0 [cs [Ec [Hc0 _]]]]. unfold first_cell in Hc. rewrite Ec in Hc. destruct Hc as [<-|[]]. exact Hc0. Qed.
Lemma e_rest row c : In row (e_rows nelim bs) -> In c (tl (cells row)) -> (nelim <= block_id c < length (cols bs))%nat.
Proof.
  intros Hr Hc. assert (In c (cells row)) as Hin by (destruct (cells row); [contradiction|right; exact Hc]). split; [|exact (ids bs V row c (in_e row Hr) Hin)].
  destruct view_rows as [es [fs [E [Ee [_ [_ [He _]]]]]]]. rewrite Ee in Hr. destruct (He row Hr) as [c0 [cs [Ec [_ Hcs]]]]. rewrite Ec in Hc. exact (Hcs c Hc).
Qed.
Lemma f_rest row c : In row (f_rows nelim bs) -> In c (cells row) -> (nelim <= block_id c < length (cols bs))%nat.
Proof.
  intros Hr Hc. split; [|exact (ids bs V row c (in_f row Hr) Hc)]. destruct view_rows as [es [fs [E [_ [Ef [_ [_ Hf]]]]]]]. rewrite Ef in Hr. exact (proj2 (Hf row Hr) c Hc).
Qed.
(* shifted columns *)
Lemma ce_shift row p q c : (ne <= position (col bs (block_id c)))%nat ->
  cell_entry values (block row) (mkBlock (size (col bs (block_id c))) (position (col bs (block_id c)) - ne)) (cell_position c) p q = ce row p (ne + q) c.
Proof.
  intro H. unfold ce, cell_entry. set (cb := col bs (block_id c)) in *. assert (holds (mkBlock (size cb) (position cb - ne)) q = holds cb (ne + q)) as ->.
  { unfold holds. cbn [position size]. destruct (Nat.leb_spec (position cb - ne) q); destruct (Nat.leb_spec (position cb) (ne + q)); destruct (Nat.ltb_spec q (position cb - ne + size cb)); destruct (Nat.ltb_spec (ne + q) (position cb + size cb)); cbn [andb]; reflexivity || lia. }
  destruct (holds (block row) p && holds cb (ne + q)) eqn:E; [|reflexivity]. cbn [size position]. f_equal. apply andb_true_iff in E. destruct E as [_ E]. apply holds_spec in E. unfold within in E. clearbody cb. clear - E H. generalize ((p - position (block row)) * size cb)%nat. intro. lia.
Qed.

Variable x : vec.
Lemma right_e_sum p : suml (RightE nelim bs values x) (fun t => suml t (fun u => part u p)) = sumn ne (fun q => E_of bs values p q * x q).
Proof.
  unfold RightE. rewrite suml_map.
  rewrite (sumn_ext ne _ (fun q => suml (e_rows nelim bs) (fun row => suml (first_cell row) (fun c => ce row p q c * x q)))).
  2:{ intros q Hq. unfold E_of. rewrite (suml_ext _ _ (fun row => suml (first_cell row) (ce row p q) * x q)) by (intros; apply suml_scal_r). rewrite suml_scal_r, dense_e. destruct (Nat.ltb_spec q ne); [reflexivity|lia]. }
  rewrite <- suml_sumn. apply suml_ext. intros row Hr. rewrite suml_map, <- suml_sumn. apply suml_ext. intros c Hc. apply cell_mv_part. apply e_col. exact (e_first row c Hr Hc).
Qed.
Lemma right_f_row p row cs : (forall c, In c cs -> (nelim <= block_id c < length (cols bs))%nat) ->
  suml (RightFRow nelim bs values x row cs) (fun u => part u p) = sumn nf (fun q => suml cs (ce row p (ne + q)) * x q).
Proof.
  intro H. unfold RightFRow. rewrite suml_map. rewrite (sumn_ext nf _ (fun q => suml cs (fun c => ce row p (ne + q) c * x q))) by (intros; symmetry; apply suml_scal_r). rewrite <- suml_sumn. apply suml_ext. intros c Hc. destruct (f_col _ (H c Hc)) as [F1 F2].
  change (num_cols_e nelim bs) with ne.
  rewrite (sumn_ext nf _ (fun q => cell_entry values (block row) (mkBlock (size (col bs (block_id c))) (position (col bs (block_id c)) - ne)) (cell_position c) p q * x q)) by (intros; rewrite ce_shift by exact F1; reflexivity).
  exact (cell_mv_part values x (block row) (mkBlock (size (col bs (block_id c))) (position (col bs (block_id c)) - ne)) (cell_position c) nf p F2).
Qed.
Lemma right_f_sum p : suml (RightF1 nelim bs values x) (fun t => suml t (fun u => part u p)) + suml (RightF2 nelim bs values x) (fun t => suml t (fun u => part u p)) = sumn nf (fun q => F_of nelim bs values p q * x q).
Proof.
  unfold RightF1, RightF2. rewrite !suml_map.
  rewrite (suml_ext (e_rows nelim bs) _ (fun row => sumn nf (fun q => suml (tl (cells row)) (ce row p (ne + q)) * x q))) by (intros row Hr; apply right_f_row; intros c Hc; exact (e_rest row c Hr Hc)).
  rewrite (suml_ext (f_rows nelim bs) _ (fun row => sumn nf (fun q => suml (cells row) (ce row p (ne + q)) * x q))) by (intros row Hr; apply right_f_row; intros c Hc; exact (f_rest row c Hr Hc)).
  rewrite !suml_sumn, <- sumn_plus. apply sumn_ext. intros q Hq. rewrite !suml_scal_r, <- Rmult_plus_distr_r, dense_f. reflexivity.
Qed.
Lemma left_e_cells q : suml (e_rows nelim bs) (fun row => suml (first_cell row) (fun c => part (cell_mtv values (cell_position c) (size (block row)) (size (col bs (block_id c))) x (position (block row)) (position (col bs (block_id c)))) q)) = if (q <? ne)%nat then sumn (height bs) (fun p => E_of bs values p q * x p) else 0.
Proof.
  transitivity (sumn (height bs) (fun p => (if (q <? ne)%nat then dense bs values p q else 0) * x p)).
  - rewrite (sumn_ext (height bs) _ (fun p => suml (e_rows nelim bs) (fun row => suml (first_cell row) (fun c => ce row p q c * x p)))).
    2:{ intros p Hp. rewrite <- dense_e, <- suml_scal_r. apply suml_ext. intros. rewrite <- suml_scal_r. reflexivity. }
    rewrite <- suml_sumn. apply suml_ext. intros row Hr. rewrite <- suml_sumn. apply suml_ext. intros c Hc. apply cell_mtv_part. apply row_bound; [exact V|exact (in_e row Hr)].
  - destruct (q <? ne)%nat; [reflexivity|]. apply sumn_zero. intros. ring.
Qed.
Lemma left_e_sum q : suml (LeftE nelim bs values x) (fun t => suml t (fun u => part u q)) = if (q <? ne)%nat then sumn (height bs) (fun p => E_of bs values p q * x p) else 0.
Proof. unfold LeftE. rewrite suml_map, <- left_e_cells. apply suml_ext. intros. rewrite suml_map. reflexivity. Qed.
Lemma before_all n l : (forall c, In c l -> (block_id c < n)%nat) -> before n l = l.
Proof. induction l as [|c l IH]; intro H; [reflexivity|]. cbn [before]. destruct (Nat.leb_spec n (block_id c)) as [L|L]; [specialize (H c (or_introl eq_refl)); lia|]. f_equal. apply IH. intros y Hy. apply H. right. exact Hy. Qed.
Lemma left_e_transpose_sum q : suml (LeftETranspose nelim (num_row_blocks_e nelim bs) (CreateTranspose bs) values x) (fun t => suml t (fun u => part u q)) = if (q <? ne)%nat then sumn (height bs) (fun p => E_of bs values p q * x p) else 0.
Proof.
  unfold LeftETranspose. rewrite suml_map, <- left_e_cells. rewrite (proj1 (window_split bs nelim (pt_nelim _ _ Pt))).
  rewrite (suml_ext (window bs 0 nelim) _ (fun r => suml (cells r) (fun c => part (cell_mtv values (cell_position c) (size (col (CreateTranspose bs) (block_id c))) (size (block r)) x (position (col (CreateTranspose bs) (block_id c))) (position (block r))) q))).
  2:{ intros r Hr. rewrite before_all; [rewrite suml_map; reflexivity|]. intros c Hc. unfold window in Hr. apply in_map_iff in Hr. destruct Hr as [k [<- Hk]]. apply in_seq in Hk. cbn [cells] in Hc. unfold tcells in Hc. apply in_map_iff in Hc. destruct Hc as [p [<- Hp]]. apply filter_In in Hp. destruct Hp as [Hp Hid]. apply Nat.eqb_eq in Hid. cbn [block_id].
      destruct view_rows as [es [fs [E [_ [_ [N [_ Hf]]]]]]]. rewrite N. rewrite E, occurrences_app in Hp. apply in_app_or in Hp. destruct Hp as [Hp|Hp]; [pose proof (occurrence_bounds _ _ _ Hp); lia|].
      exfalso. destruct (occurrence_row _ _ _ Hp) as [row [_ [H2 [_ H4]]]]. pose proof (proj2 (Hf row H4) _ H2). lia. }
  rewrite (window_sum bs 0 nelim (fun cb rb pos => part (cell_mtv values pos (size rb) (size cb) x (position rb) (position cb)) q)).
  destruct view_rows as [es [fs [E [-> [_ [_ [He Hf]]]]]]]. rewrite E, suml_app, (suml_zero fs), Rplus_0_r.
  - apply suml_ext. intros row Hr. destruct (He row Hr) as [c [cs [Ec [Hc Hcs]]]]. unfold first_cell. rewrite Ec. cbn [firstn suml]. assert (inside 0 nelim (block_id c) = true) as -> by (apply inside_spec; lia). rewrite (suml_zero cs); [reflexivity|]. intros c' Hc'. specialize (Hcs c' Hc'). destruct (inside 0 nelim (block_id c')) eqn:I; [apply inside_spec in I; lia|reflexivity].
  - intros row Hr. apply suml_zero. intros c Hc. pose proof (proj2 (Hf row Hr) c Hc). destruct (inside 0 nelim (block_id c)) eqn:I; [apply inside_spec in I; lia|reflexivity].
Qed.
Lemma left_f_row q row cs : (position (block row) + size (block row) <= height bs)%nat -> (forall c, In c cs -> (nelim <= block_id c < length (cols bs))%nat) ->
  suml cs (fun c => part (cell_mtv values (cell_position c) (size (block row)) (size (col bs (block_id c))) x (position (block row)) (position (col bs (block_id c)) - ne)) q) = sumn (height bs) (fun p => suml cs (ce row p (ne + q)) * x p).
Proof.
  intros B H. rewrite (sumn_ext (height bs) _ (fun p => suml cs (fun c => ce row p (ne + q) c * x p))) by (intros; symmetry; apply suml_scal_r). rewrite <- suml_sumn. apply suml_ext. intros c Hc. destruct (f_col _ (H c Hc)) as [F1 F2].
  rewrite (sumn_ext (height bs) _ (fun p => cell_entry values (block row) (mkBlock (size (col bs (block_id c))) (position (col bs (block_id c)) - ne)) (cell_position c) p q * x p)) by (intros; rewrite ce_shift by exact F1; reflexivity).
  exact (cell_mtv_part values x (block row) (mkBlock (size (col bs (block_id c))) (position (col bs (block_id c)) - ne)) (cell_position c) (height bs) q B).
Qed.
Lemma left_f_cells q :
  suml (e_rows nelim bs) (fun row => suml (tl (cells row)) (fun c => part (cell_mtv values (cell_position c) (size (block row)) (size (col bs (block_id c))) x (position (block row)) (position (col bs (block_id c)) - ne)) q)) +
  suml (f_rows nelim bs) (fun row => suml (cells row) (fun c => part (cell_mtv values (cell_position c) (size (block row)) (size (col bs (block_id c))) x (position (block row)) (position (col bs (block_id c)) - ne)) q)) =
  sumn (height bs) (fun p => F_of nelim bs values p q * x p).
Proof.
  rewrite (suml_ext (e_rows nelim bs) _ (fun row => sumn (height bs) (fun p => suml (tl (cells row)) (ce row p (ne + q)) * x p))) by (intros row Hr; apply left_f_row; [apply row_bound; [exact V|exact (in_e row Hr)]|intros c Hc; exact (e_rest row c Hr Hc)]).
  rewrite (suml_ext (f_rows nelim bs) _ (fun row => sumn (height bs) (fun p => suml (cells row) (ce row p (ne + q)) * x p))) by (intros row Hr; apply left_f_row; [apply row_bound; [exact V|exact (in_f row Hr)]|intros c Hc; exact (f_rest row c Hr Hc)]).
  rewrite !suml_sumn, <- sumn_plus. apply sumn_ext. intros p Hp. rewrite !suml_scal_r, <- Rmult_plus_distr_r, dense_f. reflexivity.
Qed.
Lemma left_f_sum q : suml (LeftF nelim bs values x) (fun t => suml t (fun u => part u q)) = sumn (height bs) (fun p => F_of nelim bs values p q * x p).
Proof.
  unfold LeftF. rewrite suml_app, !suml_map, <- left_f_cells. f_equal; apply suml_ext; intros; unfold LeftFRow; rewrite suml_map; reflexivity.
Qed.
Lemma left_f_transpose_sum q : suml (LeftFTranspose nelim (num_cols_e nelim bs) (CreateTranspose bs) values x) (fun t => suml t (fun u => part u q)) = sumn (height bs) (fun p => F_of nelim bs values p q * x p).
Proof.
  unfold LeftFTranspose. change (num_cols_e nelim bs) with ne. rewrite suml_map, <- left_f_cells. rewrite (proj2 (window_split bs nelim (pt_nelim _ _ Pt))).
  rewrite (suml_ext (window bs nelim (length (cols bs) - nelim)) _ (fun r => suml (cells r) (fun c => part (cell_mtv values (cell_position c) (size (col (CreateTranspose bs) (block_id c))) (size (block r)) x (position (col (CreateTranspose bs) (block_id c))) (position (block r) - ne)) q))) by (intros; rewrite suml_map; reflexivity).
  rewrite (window_sum bs nelim (length (cols bs) - nelim) (fun cb rb pos => part (cell_mtv values pos (size rb) (size cb) x (position rb) (position cb - ne)) q)).
  assert (forall row cs, (forall c, In c cs -> (nelim <= block_id c < length (cols bs))%nat) -> suml cs (fun c => if inside nelim (length (cols bs) - nelim) (block_id c) then part (cell_mtv values (cell_position c) (size (block row)) (size (col bs (block_id c))) x (position (block row)) (position (col bs (block_id c)) - ne)) q else 0) =
    suml cs (fun c => part (cell_mtv values (cell_position c) (size (block row)) (size (col bs (block_id c))) x (position (block row)) (position (col bs (block_id c)) - ne)) q)) as G.
  { intros row cs H. apply suml_ext. intros c Hc. specialize (H c Hc). assert (inside nelim (length (cols bs) - nelim) (block_id c) = true) as -> by (apply inside_spec; lia). reflexivity. }
  rewrite <- (firstn_skipn (num_row_blocks_e nelim bs) (rows bs)) at 1. rewrite suml_app. f_equal.
  - change (firstn (num_row_blocks_e nelim bs) (rows bs)) with (e_rows nelim bs). apply suml_ext. intros row Hr. rewrite <- (G row (tl (cells row)) (fun c Hc => e_rest row c Hr Hc)). pose proof (e_first row) as F. unfold first_cell in F. destruct (cells row) as [|c cs]; [reflexivity|]. cbn [tl suml]. specialize (F c Hr (or_introl eq_refl)). destruct (inside nelim (length (cols bs) - nelim) (block_id c)) eqn:I; [apply inside_spec in I; lia|]. ring.
  - change (skipn (num_row_blocks_e nelim bs) (rows bs)) with (f_rows nelim bs). apply suml_ext. intros row Hr. apply G. intros c Hc. exact (f_rest row c Hr Hc).
Qed.
End VIEW.
