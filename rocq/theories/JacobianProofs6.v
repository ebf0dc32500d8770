(* C66: evaluating the block sparse Jacobian *)
From Coq Require Import Reals ZArith List Arith Bool Lia Permutation Sorted.
From Verif Require Import SchurModel SchurProofs SparseModel SparseProofs SparseProofs2 BlockSparseModel BlockSparseSpec BlockSparseProofs BlockSparseProofs2 BlockSparseProofs4 JacobianModel JacobianSpec JacobianProofs JacobianProofs2 JacobianProofs3 JacobianProofs5.
Import ListNotations.
Open Scope R_scope.

Definition fits (p : Program) (layout : list (list nat)) : Prop := Forall2 (fun b l => length l = length (active 0 (r_args b))) (p_blocks p) layout.
(* ---------------------------------------------------------- rows and columns *)
Lemma cols_laid l : forall pos, laid_out pos (map (fun x => mkBlock (fst x) (snd x)) (BlocksOf pos l)).
Proof. induction l as [|t l IH]; intros pos; cbn; auto. Qed.
Lemma cols_nth l : forall pos v, nth v (map (fun x => mkBlock (fst x) (snd x)) (BlocksOf pos l)) (mkBlock 0 0) = if (v <? length l)%nat then mkBlock (nth v l 0%nat) (pos + list_sum (firstn v l)) else mkBlock 0 0.
Proof.
  induction l as [|t l IH]; intros pos [|v]; cbn [BlocksOf map nth length fst snd]; try reflexivity.
  - cbn [firstn]. change (list_sum []) with 0%nat. now rewrite Nat.add_0_r.
  - rewrite IH. change (S v <? S (length l))%nat with (v <? length l)%nat. destruct (v <? length l)%nat; [|auto]. f_equal. cbn [firstn]. rewrite list_sum_cons. lia.
Qed.
Section Block.
Context (p : Program) (layout : list (list nat)) (W : well_formed p) (FT : fits p layout).
Let bs := JacobianStructure p layout.
Lemma col_size v : size (col bs v) = tangent p v.
Proof. unfold col, bs, JacobianStructure. cbn [cols]. rewrite cols_nth. unfold tangent. destruct (Nat.ltb_spec v (length (p_tangents p))); [auto|]. now rewrite nth_overflow by lia. Qed.
Lemma col_position v : (v < length (p_tangents p))%nat -> position (col bs v) = column p v.
Proof. intros H. unfold col, bs, JacobianStructure. cbn [cols]. rewrite cols_nth. destruct (Nat.ltb_spec v (length (p_tangents p))); [auto|lia]. Qed.
Lemma cols_count : length (cols bs) = length (p_tangents p).
Proof. unfold bs, JacobianStructure. cbn [cols]. rewrite map_length. generalize 0%nat. induction (p_tangents p) as [|t l IH]; intros pos; cbn; auto. Qed.
Lemma rows_nth_gen blocks lay : forall pos i row, Forall2 (fun b l => length l = length (active 0 (r_args b))) blocks lay ->
  nth_error (CellRows blocks lay pos) i = Some row <-> exists b l, nth_error blocks i = Some b /\ nth_error lay i = Some l /\
    row = mkRow (mkBlock (r_num b) (pos + rb blocks i)) (sort_cells (map (fun x => mkCell (fst x) (nth (snd x) l 0%nat)) (numbered (active 0 (r_args b))))).
Proof.
  revert lay. induction blocks as [|b blocks IH]; intros lay pos i row F; inversion F as [|? l ? lay' L F']; subst; cbn [CellRows].
  - split; [destruct i; discriminate|]. intros [b [l [H _]]]. destruct i; discriminate.
  - destruct i as [|i]; cbn [nth_error].
    + rewrite rb_0, Nat.add_0_r. split; [intros H; injection H as <-; eauto|]. intros [b' [l' [H [H' ->]]]]. injection H as <-. injection H' as <-. auto.
    + rewrite (IH lay' (pos + r_num b)%nat i row F'). rewrite rb_S. rewrite Nat.add_assoc. tauto.
Qed.
Lemma rows_nth i row : nth_error (rows bs) i = Some row <-> exists b l, nth_error (p_blocks p) i = Some b /\ nth_error layout i = Some l /\ row = mkRow (mkBlock (r_num b) (rows_before p i)) (map (of_pair l) (pairs b)).
Proof.
  unfold bs, JacobianStructure. cbn [rows]. rewrite (rows_nth_gen _ _ 0 i row FT). split; intros [b [l [B [L ->]]]]; exists b, l; (split; [auto|]); (split; [auto|]); (rewrite cells_eq; [auto|apply W; eapply nth_error_In; eauto]).
Qed.
Lemma layout_nth i b : nth_error (p_blocks p) i = Some b -> exists l, nth_error layout i = Some l /\ length l = length (active 0 (r_args b)).
Proof.
  intros H. unfold fits in FT. revert i H. clear bs. induction FT as [|b' l bl lay L F IH]; intros [|i] H; try discriminate; cbn [nth_error] in *.
  - injection H as ->. eauto.
  - auto.
Qed.
Lemma structure_valid : valid bs /\ height bs = num_rows_of p /\ breadth bs = num_columns_of p /\ increasing_cells bs.
Proof.
  assert (CS : forall row, In row (rows bs) -> exists b, In b (p_blocks p) /\ exists l, cells row = map (of_pair l) (pairs b)).
  { intros row I. apply In_nth_error in I. destruct I as [i I]. apply rows_nth in I. destruct I as [b [l [B [_ ->]]]]. exists b. split; [eapply nth_error_In; eauto|]. exists l. auto. }
  assert (RL : forall blocks lay pos, Forall2 (fun b l => length l = length (active 0 (r_args b))) blocks lay -> laid_out pos (map block (CellRows blocks lay pos)) /\ total (map block (CellRows blocks lay pos)) = list_sum (map r_num blocks)).
  { clear. intros blocks lay pos F. revert pos. induction F as [|b l blocks lay L F IH]; intros pos; [cbn; auto|]. cbn [CellRows map laid_out block position size total fold_right]. destruct (IH (pos + r_num b)%nat) as [A B]. split; [auto|]. fold (total (map block (CellRows blocks lay (pos + r_num b)))). rewrite B. reflexivity. }
  destruct (RL (p_blocks p) layout 0%nat FT) as [RA RB]. split; [|split; [exact RB|split]].
  - constructor; [apply cols_laid|exact RA|]. intros row I. destruct (CS row I) as [b [B [l C]]]. rewrite C. rewrite map_map. change (fun x => block_id (of_pair l x)) with (fun x : nat * nat => fst x). destruct (W b B) as [N H]. split.
    + eapply Permutation_NoDup; [apply Permutation_sym; exact (pairs_keys b)|exact N].
    + intros c J. apply in_map_iff in J. destruct J as [x [<- J]]. rewrite cols_count. cbn [of_pair block_id]. apply H. apply (Permutation_in _ (pairs_keys b)). now apply in_map.
  - unfold breadth, bs, JacobianStructure. cbn [cols]. unfold num_columns_of. generalize 0%nat. induction (p_tangents p) as [|t l IH]; intros pos; [auto|]. cbn [BlocksOf map total fold_right size fst snd]. fold (total (map (fun x => mkBlock (fst x) (snd x)) (BlocksOf (pos + t) l))). rewrite IH. auto.
  - intros row I. destruct (CS row I) as [b [B [l C]]]. rewrite C, map_map. change (fun x => block_id (of_pair l x)) with (fun x : nat * nat => fst x). unfold pairs. apply sort_keys_sorted. rewrite numbered_fst, active_keys. apply W. exact B.
Qed.
Lemma tagged_extents nelim : map snd (tagged p nelim (rows bs)) = extents bs.
Proof.
  unfold tagged, extents. rewrite map_flat_map. rewrite !flat_map_concat_map. f_equal. apply map_ext. intros row. rewrite map_map. cbn [snd]. apply map_ext. intros c. now rewrite col_size.
Qed.
Lemma tagged_class nelim e : map snd (filter (fun x => Bool.eqb (fst x) e) (tagged p nelim (rows bs))) = class_extents nelim e bs.
Proof.
  unfold tagged, class_extents. induction (rows bs) as [|row rs IH]; [auto|]. cbn [flat_map]. rewrite filter_app, map_app, IH. f_equal. induction (cells row) as [|c cs IHc]; [auto|]. cbn [map filter fst]. destruct (Bool.eqb (block_id c <? nelim)%nat e); cbn [map snd]; [|auto]. rewrite IHc. now rewrite col_size.
Qed.
Lemma sums_tagged nelim blocks lay : forall pos, Forall2 (fun b l => length l = length (active 0 (r_args b))) blocks lay -> Forall (block_ok p) blocks ->
  sum_of true (tagged p nelim (CellRows blocks lay pos)) = e_of p nelim blocks /\ sum_of false (tagged p nelim (CellRows blocks lay pos)) = f_of p nelim blocks.
Proof.
  intros pos F. revert pos. induction F as [|b l blocks lay L F IH]; intros pos OK; [cbn; auto|]. inversion OK as [|? ? O1 O2]; subst. cbn [CellRows tagged flat_map]. fold (tagged p nelim (CellRows blocks lay (pos + r_num b))). cbn [block cells size]. rewrite cells_eq by apply O1. rewrite map_map. cbn [of_pair block_id cell_position].
  destruct (IH (pos + r_num b)%nat O2) as [A B]. unfold sum_of in *. rewrite !map_app, !list_sum_app, A, B, !map_map. cbn [fst snd].
  unfold e_of, f_of. cbn [map]. rewrite !list_sum_cons. rewrite <- (sizeE_pairs p nelim b). destruct (widths p nelim b) as [_ <-]. split; f_equal; unfold sizeE, sizeF; f_equal; apply map_ext; intros x; destruct (fst x <? nelim)%nat; auto.
Qed.

(* ---------------------------------------------------------- stores *)
Lemma pairs_combine (l : list nat) act : length l = length act -> map (fun x => (fst x, nth (snd x) l 0%nat)) (numbered act) = combine (map fst act) l.
Proof.
  unfold numbered. intros L. assert (G : forall act (l pre : list nat), length l = length act -> map (fun x => (fst x, nth (snd x) (pre ++ l) 0%nat)) (combine (map fst act) (seq (length pre) (length act))) = combine (map (@fst nat nat) act) l).
  { induction act0 as [|a act0 IH]; intros [|y l0] pre L0; try discriminate; [auto|]. cbn [map length seq combine fst snd]. rewrite nth_middle. f_equal. cbn [length] in L0. specialize (IH l0 (pre ++ [y]) ltac:(lia)). rewrite app_length in IH. cbn [length] in IH. rewrite Nat.add_1_r, <- app_assoc in IH. exact IH. }
  exact (G act l [] L).
Qed.
Lemma store_indices num args jac : forall l j, length l = length (active j args) -> map fst (EvaluateStores p num j args (BlockPrepare args l) jac) = flat_map (fun x => seq (snd x) (num * tangent p (fst x))) (combine (map fst (active j args)) l).
Proof.
  induction args as [|[t|v] args IH]; intros l j L; [auto| |]; cbn [active BlockPrepare EvaluateStores].
  - cbn [active] in L. cbn [app]. now apply IH.
  - cbn [active length] in L. destruct l as [|y l]; [discriminate|]. cbn [hd tl map combine flat_map fst snd]. rewrite map_app, map_map. cbn [fst arg_tangent]. rewrite IH by (cbn in L; lia). f_equal.
    assert (G : forall n s, map (fun t => (y + t)%nat) (seq s n) = seq (y + s) n) by (induction n as [|n IHn]; intros s; [auto|]; cbn [seq map]; rewrite IHn; f_equal; f_equal; lia). rewrite G, Nat.add_0_r. auto.
Qed.
Lemma store_values num args jac : forall l j0, length l = length (active j0 args) -> forall n v j t, nth_error (active j0 args) n = Some (v, j) -> (t < num * tangent p v)%nat -> In ((nth n l 0 + t)%nat, jac j t) (EvaluateStores p num j0 args (BlockPrepare args l) jac).
Proof.
  induction args as [|[tt|w] args IH]; intros l j0 L n v j t N T.
  - destruct n; discriminate.
  - cbn [active BlockPrepare EvaluateStores app] in *. eapply IH; eauto.
  - cbn [active BlockPrepare EvaluateStores] in *. destruct l as [|y l]; [discriminate|]. cbn [hd tl]. apply in_or_app. destruct n as [|n]; cbn [nth_error] in N.
    + left. injection N as -> ->. cbn [nth arg_tangent]. apply in_map_iff. exists t. split; [auto|apply in_seq; lia].
    + right. cbn [nth]. eapply IH; eauto.
Qed.
Definition bbody (jac : nat -> nat -> vec) (x : nat * (RBlock * list nat)) : list Store := EvaluateStores p (r_num (fst (snd x))) 0 (r_args (fst (snd x))) (BlockPrepare (r_args (fst (snd x))) (snd (snd x))) (jac (fst x)).
Lemma block_tasks jac : BlockTasks p layout jac = map (bbody jac) (combine (seq 0 (length (p_blocks p))) (combine (p_blocks p) layout)).
Proof. unfold BlockTasks. apply map_ext. intros [i [b l]]. reflexivity. Qed.
Lemma tasks_perm jac : Permutation (map fst (concat (BlockTasks p layout jac))) (flat_map (fun x => seq (fst x) (snd x)) (extents bs)).
Proof.
  rewrite block_tasks. unfold extents, bs, JacobianStructure. cbn [rows].
  assert (CS : forall row, map (fun c => (cell_position c, (size (block row) * size (col (JacobianStructure p layout) (block_id c)))%nat)) (cells row) = map (fun c => (cell_position c, (size (block row) * tangent p (block_id c))%nat)) (cells row)) by (intros row; apply map_ext; intros c; fold bs; now rewrite col_size).
  assert (G : forall blocks lay s pos, Forall2 (fun b l => length l = length (active 0 (r_args b))) blocks lay -> Forall (block_ok p) blocks ->
    Permutation (map fst (concat (map (bbody jac) (combine (seq s (length blocks)) (combine blocks lay))))) (flat_map (fun x => seq (fst x) (snd x)) (flat_map (fun row => map (fun c => (cell_position c, (size (block row) * tangent p (block_id c))%nat)) (cells row)) (CellRows blocks lay pos)))).
  { clear. intros blocks lay s pos F. revert s pos. induction F as [|b l blocks lay L F IH]; intros s pos OK; [constructor|]. inversion OK as [|? ? O1 O2]; subst. cbn [length seq combine map concat CellRows flat_map]. rewrite map_app, flat_map_app. apply Permutation_app; [|now apply IH].
    unfold bbody. cbn [fst snd]. rewrite store_indices by auto. cbn [block cells size]. rewrite cells_eq by apply O1. rewrite map_map. cbn [of_pair block_id cell_position].
    rewrite <- pairs_combine by auto. rewrite !flat_map_concat_map, !map_map. cbn [fst snd]. unfold pairs.
    rewrite <- !flat_map_concat_map. apply Permutation_flat_map. apply Permutation_sym, sort_keys_perm. }
  specialize (G (p_blocks p) layout 0%nat 0%nat FT ltac:(apply Forall_forall; intros b B; now apply W)).
  rewrite (flat_map_concat_map _ (CellRows (p_blocks p) layout 0)). rewrite (map_ext _ _ CS). rewrite <- (flat_map_concat_map _ (CellRows (p_blocks p) layout 0)). exact G.
Qed.
Lemma apart_nodup l : ForallOrdPairs apart l -> NoDup (flat_map (fun x => seq (fst x) (snd x)) l).
Proof.
  induction 1 as [|x l F H IH]; cbn [flat_map]; [constructor|]. apply NoDup_app_intro; [apply seq_NoDup|auto|]. intros a A B. apply in_flat_map in B. destruct B as [y [Y B]]. rewrite Forall_forall in F. specialize (F y Y). apply in_seq in A, B. unfold apart in F. lia.
Qed.
Lemma block_separate jac : disjoint bs -> contained bs (area bs) -> separate (BlockTasks p layout jac) (area bs).
Proof.
  intros D C. assert (P := tasks_perm jac). split.
  - eapply Permutation_NoDup; [apply Permutation_sym; exact P|]. now apply apart_nodup.
  - intros [a x] I. apply (in_map fst) in I. apply (Permutation_in _ P) in I. apply in_flat_map in I. destruct I as [y [Y A]]. apply in_seq in A. unfold contained in C. rewrite Forall_forall in C. specialize (C y Y). cbn [fst] in *. lia.
Qed.
Lemma combine_nth_error {A B} (l : list A) (l' : list B) i a b : nth_error l i = Some a -> nth_error l' i = Some b -> nth_error (combine l l') i = Some (a, b).
Proof. revert l l'. induction i as [|i IH]; intros [|x l] [|y l'] H H'; try discriminate; cbn in *; [congruence|auto]. Qed.
Lemma task_store jac i b l j v n t : nth_error (p_blocks p) i = Some b -> nth_error layout i = Some l -> nth_error (active 0 (r_args b)) n = Some (v, j) -> (t < r_num b * tangent p v)%nat ->
  In ((nth n l 0 + t)%nat, jac i j t) (concat (BlockTasks p layout jac)).
Proof.
  intros B L N T. rewrite block_tasks. apply in_concat. exists (bbody jac (i, (b, l))). split.
  - apply in_map. eapply nth_error_In. apply combine_nth_error; [|apply combine_nth_error; eauto]. rewrite (nth_error_nth' _ 0%nat) by (rewrite seq_length; apply nth_error_Some; congruence). rewrite seq_nth by (apply nth_error_Some; congruence). reflexivity.
  - unfold bbody. cbn [fst snd]. destruct (layout_nth i b B) as [l' [L' LL]]. rewrite L in L'. injection L' as <-. eapply store_values; eauto.
Qed.

(* ---------------------------------------------------------- the matrix *)
Lemma suml_one {A} (l : list A) f i x : nth_error l i = Some x -> (forall j y, j <> i -> nth_error l j = Some y -> f y = 0) -> suml l f = f x.
Proof.
  revert i. induction l as [|a l IH]; intros [|i] H Z; try discriminate; cbn [nth_error] in H; cbn [suml].
  - injection H as ->. rewrite suml_zero; [ring|]. intros y Y. apply In_nth_error in Y. destruct Y as [j J]. apply (Z (S j) y); [lia|exact J].
  - rewrite (IH i H); [|intros j y J Y; apply (Z (S j) y); [lia|exact Y]]. rewrite (Z 0%nat a) by (auto; lia). ring.
Qed.
Lemma row_dense values i b l k q : nth_error (p_blocks p) i = Some b -> nth_error layout i = Some l -> (k < r_num b)%nat ->
  dense bs values (rows_before p i + k) q = suml (pairs b) (fun x => if holds (col bs (fst x)) q then values (nth (snd x) l 0 + k * tangent p (fst x) + (q - position (col bs (fst x))))%nat else 0).
Proof.
  intros B L K. unfold dense. rewrite (suml_one (rows bs) _ i (mkRow (mkBlock (r_num b) (rows_before p i)) (map (of_pair l) (pairs b)))).
  - cbn [block cells]. rewrite suml_map. apply suml_ext. intros x X. cbn [of_pair block_id cell_position position]. replace (holds (mkBlock (r_num b) (rows_before p i)) (rows_before p i + k)) with true.
    + cbn [andb]. destruct (holds (col bs (fst x)) q); [|auto]. rewrite col_size. f_equal. f_equal. f_equal. f_equal. lia.
    + symmetry. apply holds_spec. unfold within. cbn [position size]. lia.
  - apply rows_nth. eauto.
  - intros j row J R. apply rows_nth in R. destruct R as [b' [l' [B' [_ ->]]]]. apply suml_zero. intros c _. cbn [block].
    replace (holds (mkBlock (r_num b') (rows_before p j)) (rows_before p i + k)) with false; [auto|]. symmetry. apply not_true_iff_false. intros H. apply holds_spec in H. unfold within in H. cbn [position size] in H. change (rows_before p j) with (rb (p_blocks p) j) in H. change (rows_before p i) with (rb (p_blocks p) i) in H.
    destruct (Nat.lt_trichotomy i j) as [Q|[Q|Q]]; [generalize (rb_mono (p_blocks p) i j b Q B); lia|congruence|generalize (rb_mono (p_blocks p) j i b' Q B'); lia].
Qed.
Lemma column_apart v w c : (v < length (p_tangents p))%nat -> (w < length (p_tangents p))%nat -> (column p v <= c < column p v + tangent p v)%nat -> (column p w <= c < column p w + tangent p w)%nat -> v = w.
Proof. intros V V' H H'. destruct (Nat.lt_trichotomy v w) as [Q|[Q|Q]]; [generalize (column_mono p v w Q ltac:(lia)); lia|auto|generalize (column_mono p w v Q ltac:(lia)); lia]. Qed.
Lemma holds_column v c : (v < length (p_tangents p))%nat -> holds (col bs v) c = true <-> (column p v <= c < column p v + tangent p v)%nat.
Proof. intros V. rewrite holds_spec. unfold within. rewrite col_size, col_position by auto. tauto. Qed.
Lemma stores_jacobian jac l0 v0 : disjoint bs -> contained bs (area bs) -> interleaving (BlockTasks p layout jac) l0 -> is_jacobian p jac (dense bs (puts l0 v0)).
Proof.
  intros D C IL. assert (SEP := block_separate jac D C). destruct SEP as [ND _]. assert (P := interleaving_perm _ _ IL). assert (FU : functional l0) by (eapply functional_perm; [apply Permutation_sym; exact P|]; now apply functional_nodup).
  intros i b k B K. destruct (layout_nth i b B) as [l [L LL]]. destruct (W b (nth_error_In _ _ B)) as [N H]. assert (PK : forall x, In x (pairs b) -> (fst x < length (p_tangents p))%nat) by (intros x X; apply H; apply (Permutation_in _ (pairs_keys b)); now apply in_map). split.
  - intros j v u J U. rewrite (row_dense _ i b l k _ B L K). assert (V : In v (indices (r_args b))) by (apply indices_in; eauto).
    assert (AC : exists n, nth_error (active 0 (r_args b)) n = Some (v, j)) by (apply In_nth_error; apply active_in; rewrite Nat.sub_0_r; split; [lia|auto]). destruct AC as [n AC].
    assert (IN : In (v, n) (pairs b)). { apply (Permutation_in _ (Permutation_sym (sort_keys_perm _))). unfold numbered. eapply (nth_error_In _ n). apply combine_nth_error; [rewrite nth_error_map, AC; reflexivity|]. assert (n < length (active 0 (r_args b)))%nat by (apply nth_error_Some; congruence). rewrite (nth_error_nth' _ 0%nat) by (rewrite seq_length; auto). rewrite seq_nth by auto. auto. }
    apply In_nth_error in IN. destruct IN as [q IN]. rewrite (suml_one (pairs b) _ q (v, n) IN).
    + cbn [fst snd]. rewrite (proj2 (holds_column v (column p v + u) (H v V))) by lia. rewrite (col_position v (H v V)). replace (column p v + u - column p v)%nat with u by lia. rewrite <- Nat.add_assoc. apply puts_in; [auto|]. apply (Permutation_in _ (Permutation_sym P)). eapply task_store; eauto. nia.
    + intros q' [w m] Q Y. cbn [fst snd]. destruct (holds (col bs w) (column p v + u)) eqn:HH; [|auto]. exfalso. assert (WL : (w < length (p_tangents p))%nat) by (apply (PK (w, m)); eapply nth_error_In; eauto). apply (holds_column w _ WL) in HH.
      assert (v = w) by (eapply (column_apart v w (column p v + u)); auto; lia). subst w. apply Q.
      assert (NF : NoDup (map fst (pairs b))) by (eapply Permutation_NoDup; [apply Permutation_sym; exact (pairs_keys b)|exact N]). rewrite NoDup_nth_error in NF. apply NF; [rewrite map_length; apply nth_error_Some; congruence|]. rewrite !nth_error_map, Y, IN. auto.
  - intros c Hc. rewrite (row_dense _ i b l k _ B L K). apply suml_zero. intros x X. destruct (holds (col bs (fst x)) c) eqn:HH; [|auto]. exfalso. apply (holds_column _ _ (PK x X)) in HH. apply (Hc (fst x)); [|auto]. apply (Permutation_in _ (pairs_keys b)). now apply in_map.
Qed.
End Block.

(* ---------------------------------------------------------- creation *)
Lemma area_sum bs : area bs = list_sum (map snd (extents bs)).
Proof. unfold area. induction (extents bs) as [|x l IH]; [auto|]. cbn [fold_right map]. rewrite list_sum_cons, IH. auto. Qed.
Lemma sum_both l : list_sum (map snd (map snd l)) = (sum_of true l + sum_of false l)%nat.
Proof. induction l as [|[t x] l IH]; [auto|]. rewrite !sum_cons. cbn [map snd fst]. rewrite list_sum_cons. destruct t; cbn [Bool.eqb]; lia. Qed.
Lemma e_of_zero p bs : e_of p 0 bs = 0%nat.
Proof.
  unfold e_of. induction bs as [|b l IH]; [auto|]. cbn [map]. rewrite list_sum_cons, IH. unfold e_width. replace (filter (fun v => (v <? 0)%nat) (indices (r_args b))) with (@nil nat); [cbn; lia|]. induction (indices (r_args b)); cbn; auto.
Qed.
Lemma create_block p nelim junk : well_formed p -> small_blocks p -> (Z.of_nat (e_entries p nelim) <= INT_MAX)%Z ->
  if (INT_MAX <? Z.of_nat (num_blocks p))%Z || (INT_MAX <? Z.of_nat (num_entries p))%Z then CreateBlock p nelim junk = TooMany
  else exists layout, CreateBlock p nelim junk = Made (layout, Construct (JacobianStructure p layout) junk) /\ fits p layout /\ good (Construct (JacobianStructure p layout) junk) /\
    area (JacobianStructure p layout) = num_entries p /\
    sequential 0 (class_extents nelim true (JacobianStructure p layout)) /\ sequential (e_entries p nelim) (class_extents nelim false (JacobianStructure p layout)) /\
    (nelim = 0%nat -> packed (JacobianStructure p layout)).
Proof.
  intros W SB LE. unfold CreateBlock, BuildLayout. assert (OK : Forall (block_ok p) (p_blocks p)) by (apply Forall_forall; intros b B; now apply W).
  generalize (first_loop p nelim (p_blocks p) SB 0 0 LE ltac:(cbn; unfold INT_MAX; lia)). change (Z.of_nat 0) with 0%Z. rewrite !Nat.add_0_l. intros ->. change (blocks_of (p_blocks p)) with (num_blocks p). destruct (Z.ltb_spec INT_MAX (Z.of_nat (num_blocks p))) as [Q|Q]; [reflexivity|]. cbn [orb].
  generalize (second_loop p nelim (p_blocks p) SB OK 0 (e_of p nelim (p_blocks p)) 0 LE LE). change (Z.of_nat 0) with 0%Z. rewrite e_f_entries. fold (num_entries p). cbv beta iota.
  destruct (Z.ltb_spec INT_MAX (Z.of_nat (num_entries p))) as [Q'|Q']; [intros ->; auto|]. intros [layout [-> [FT SQ]]]. exists layout. split; [auto|]. split; [exact FT|].
  change (CellRows (p_blocks p) layout 0) with (rows (JacobianStructure p layout)) in SQ. destruct (sums_tagged p nelim (p_blocks p) layout 0 FT OK) as [SE SF]. change (CellRows (p_blocks p) layout 0) with (rows (JacobianStructure p layout)) in SE, SF.
  destruct (structure_valid p layout W FT) as [V _].
  assert (AR : area (JacobianStructure p layout) = num_entries p).
  { rewrite area_sum, <- (tagged_extents p layout nelim). unfold num_entries. rewrite <- (e_f_entries p nelim), <- SE, <- SF. apply sum_both. }
  assert (EA : (e_of p nelim (p_blocks p) + sum_of false (tagged p nelim (rows (JacobianStructure p layout))) = num_entries p)%nat) by (rewrite SF; apply e_f_entries).
  split; [|split; [exact AR|]].
  - apply construct_good; [exact V| |].
    + unfold disjoint. rewrite <- (tagged_extents p layout nelim). eapply seqs_apart; [exact SQ|]. rewrite SE. cbn. lia.
    + unfold contained. rewrite AR, <- EA, <- (tagged_extents p layout nelim). apply (seqs_contained _ 0); [exact SQ|]. rewrite SE. cbn. lia.
  - destruct (seqs_class _ _ _ SQ) as [A B]. rewrite !tagged_class in A, B. split; [exact A|]. split; [exact B|]. intros ->. unfold packed. rewrite <- (tagged_extents p layout 0). assert (E0 := e_of_zero p (p_blocks p)).
    rewrite E0 in SQ. apply (seqs_packed _ 0 SQ). intros x X. unfold tagged in X. apply in_flat_map in X. destruct X as [row [_ X]]. apply in_map_iff in X. destruct X as [c [<- _]]. reflexivity.
Qed.
