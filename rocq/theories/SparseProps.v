(* C45: the sparse matrix formats represent the same linear map. *)

From Coq Require Import List Arith Bool Reals Permutation Sorted Lia Lra.
From Verif Require Import SparseModel SparseSpec SparseProofs SparseProofs2 SparseProofs3
  SparseProofs4 SparseProofs5.
Import ListNotations.
Local Open Scope R_scope.

(* ------------------------------------------------------------------ *)
(* Triplets                                                            *)

(* The AllTripletsWithinBounds check accepts exactly the well-formed
   matrices. *)
Theorem triplet_bounds_check : forall nr nc es,
  within_bounds (triplet_of nr nc es) = true <-> t_valid (triplet_of nr nc es).
Proof.
  intros nr nc es. unfold within_bounds, t_valid, t_entries. cbn [t_num_rows t_num_cols t_nnz t_data triplet_of].
  rewrite firstn_all, forallb_forall, Forall_forall. split.
  - intros H. split; [lia|]. intros e I. apply (In_nth _ _ cell0) in I as (i & Hi & <-).
    specialize (H i). unfold t_cell in H. cbn [t_data] in H.
    rewrite andb_true_iff, !Nat.ltb_lt in H. apply H. apply in_range_range. lia.
  - intros [_ H] i I. apply in_range_range in I. rewrite andb_true_iff, !Nat.ltb_lt.
    apply (H (nth i es cell0)). apply nth_In. lia.
Qed.
Print Assumptions triplet_bounds_check.

(* y += A x and y += A^T x; repeated positions add up *)
Theorem triplet_products : forall t x y, t_valid t ->
  (forall i, t_right t x y i = y i + sum_below (t_num_cols t) (fun c => t_matrix t i c * x c)) /\
  (forall j, t_left t x y j = y j + sum_below (t_num_rows t) (fun r => t_matrix t r j * x r)).
Proof. intros t x y V. split; intros; [now apply t_right_eq|now apply t_left_eq]. Qed.
Print Assumptions triplet_products.

Theorem triplet_dense_and_norms : forall t, t_valid t ->
  (forall r c, t_dense t r c = t_matrix t r c) /\
  (no_duplicates (t_entries t) -> forall x c, (c < t_num_cols t)%nat ->
     t_squared_norm t x c = sum_below (t_num_rows t) (fun r => t_matrix t r c * t_matrix t r c)).
Proof.
  intros t V. split.
  - intros. now apply t_dense_eq.
  - intros N x c Hc. rewrite t_norm_eq by auto. destruct (Nat.ltb_spec c (t_num_cols t)); [auto|lia].
Qed.
Print Assumptions triplet_dense_and_norms.

Theorem triplet_scaled : forall t scale, t_valid t ->
  t_valid (t_scale t scale) /\
  forall r c, t_matrix (t_scale t scale) r c = t_matrix t r c * scale c.
Proof.
  intros t scale V. split.
  - split.
    + unfold t_scale. cbn [t_nnz t_data].
      destruct (fold_set_each (fun _ e => scale_cell scale e) cell0 (t_nnz t) (t_data t)) as [L _];
        [apply V|].
      etransitivity; [apply V|]. apply Nat.eq_le_incl. symmetry. exact L.
    + rewrite t_scale_entries by auto. apply Forall_map. eapply Forall_impl; [|apply V].
      intros e [H1 H2]. split; [exact H1|exact H2].
  - intros r c. unfold t_matrix. rewrite t_scale_entries by auto. apply matrix_of_scale.
Qed.
Print Assumptions triplet_scaled.

(* [A; B] *)
Theorem triplet_rows_appended : forall t b, t_valid t -> t_valid b ->
  t_num_cols b = t_num_cols t ->
  exists t', t_append_rows t b = Some t' /\ t_valid t' /\
    t_num_rows t' = (t_num_rows t + t_num_rows b)%nat /\ t_num_cols t' = t_num_cols t /\
    (forall r c, (r < t_num_rows t)%nat -> t_matrix t' r c = t_matrix t r c) /\
    (forall r c, t_matrix t' (t_num_rows t + r) c = t_matrix b r c).
Proof.
  intros t b V W C. unfold t_append_rows. rewrite C, Nat.eqb_refl. cbn [negb].
  destruct (t_append_total (t_num_rows t) 0 (t_num_rows t + t_num_rows b) (t_num_cols t) t b) as [t' E].
  exists t'. split; [auto|].
  destruct (t_append_entries _ _ _ _ _ _ _ V W E) as (N1 & N2 & L & EN).
  split.
  { split; [auto|]. rewrite EN, N1, N2. apply Forall_app. split.
    - eapply Forall_impl; [|apply V]. intros e [H1 H2]. split; lia.
    - apply Forall_map. eapply Forall_impl; [|apply W]. intros e [H1 H2].
      unfold shift_cell. split; unfold c_row, c_col in *; cbn [fst snd]; lia. }
  split; [auto|]. split; [auto|]. unfold t_matrix. rewrite EN. split; intros r c.
  - intros Hr. rewrite matrix_of_app, matrix_of_shift. destruct (Nat.leb_spec (t_num_rows t) r); [lia|].
    cbn [andb]. lra.
  - rewrite matrix_of_app, matrix_of_shift. destruct (Nat.leb_spec (t_num_rows t) (t_num_rows t + r)); [|lia].
    cbn [andb Nat.leb]. rewrite Nat.sub_0_r. replace (t_num_rows t + r - t_num_rows t)%nat with r by lia.
    enough (matrix_of (t_entries t) (t_num_rows t + r) c = 0) by lra.
    rewrite matrix_of_suml. apply suml_zero. intros e He. apply t_in in He; auto.
    destruct (Nat.eqb_spec (c_row e) (t_num_rows t + r)); [lia|auto].
Qed.
Print Assumptions triplet_rows_appended.

(* [A B] *)
Theorem triplet_cols_appended : forall t b, t_valid t -> t_valid b ->
  t_num_rows b = t_num_rows t ->
  exists t', t_append_cols t b = Some t' /\ t_valid t' /\
    t_num_rows t' = t_num_rows t /\ t_num_cols t' = (t_num_cols t + t_num_cols b)%nat /\
    (forall r c, (c < t_num_cols t)%nat -> t_matrix t' r c = t_matrix t r c) /\
    (forall r c, t_matrix t' r (t_num_cols t + c) = t_matrix b r c).
Proof.
  intros t b V W C. unfold t_append_cols. rewrite C, Nat.eqb_refl. cbn [negb].
  destruct (t_append_total 0 (t_num_cols t) (t_num_rows t) (t_num_cols t + t_num_cols b) t b) as [t' E].
  exists t'. split; [auto|].
  destruct (t_append_entries _ _ _ _ _ _ _ V W E) as (N1 & N2 & L & EN).
  split.
  { split; [auto|]. rewrite EN, N1, N2. apply Forall_app. split.
    - eapply Forall_impl; [|apply V]. intros e [H1 H2]. split; lia.
    - apply Forall_map. eapply Forall_impl; [|apply W]. intros e [H1 H2].
      unfold shift_cell. split; unfold c_row, c_col in *; cbn [fst snd]; lia. }
  split; [auto|]. split; [auto|]. unfold t_matrix. rewrite EN. split; intros r c.
  - intros Hr. rewrite matrix_of_app, matrix_of_shift. destruct (Nat.leb_spec (t_num_cols t) c); [lia|].
    rewrite andb_false_r. lra.
  - rewrite matrix_of_app, matrix_of_shift. destruct (Nat.leb_spec (t_num_cols t) (t_num_cols t + c)); [|lia].
    cbn [andb Nat.leb]. rewrite Nat.sub_0_r. replace (t_num_cols t + c - t_num_cols t)%nat with c by lia.
    enough (matrix_of (t_entries t) r (t_num_cols t + c) = 0) by lra.
    rewrite matrix_of_suml. apply suml_zero. intros e He. apply t_in in He; auto.
    destruct (Nat.eqb_spec (c_col e) (t_num_cols t + c)); [lia|]. now rewrite andb_false_r.
Qed.
Print Assumptions triplet_cols_appended.

Local Lemma filter_len {A} (P : A -> bool) l : (length (filter P l) <= length l)%nat.
Proof. induction l as [|a l IH]; cbn [filter length]; [lia|]. destruct (P a); cbn [length]; lia. Qed.

(* the upper left corner; new rows and columns are empty *)
Theorem triplet_resized : forall t nr nc, t_valid t ->
  t_valid (t_resize t nr nc) /\
  t_num_rows (t_resize t nr nc) = nr /\ t_num_cols (t_resize t nr nc) = nc /\
  forall r c, t_matrix (t_resize t nr nc) r c =
    if (r <? nr)%nat && (c <? nc)%nat then t_matrix t r c else 0.
Proof.
  intros t nr nc V.
  assert (X : t_num_rows (t_resize t nr nc) = nr /\ t_num_cols (t_resize t nr nc) = nc /\
     (t_nnz (t_resize t nr nc) <= length (t_data (t_resize t nr nc)))%nat /\
     t_entries (t_resize t nr nc) =
       filter (fun e => (c_row e <? nr)%nat && (c_col e <? nc)%nat) (t_entries t)).
  { unfold t_resize. destruct (Nat.leb_spec (t_num_rows t) nr), (Nat.leb_spec (t_num_cols t) nc);
      cbn [andb].
    { split; [auto|]. split; [auto|]. split; [apply V|].
      change (t_entries (mktriplet nr nc (t_nnz t) (t_data t))) with (t_entries t).
      destruct V as [_ V]. induction V as [|e es [H1 H2] V IH]; cbn [filter]; [auto|].
      destruct (Nat.ltb_spec (c_row e) nr), (Nat.ltb_spec (c_col e) nc); try lia.
      cbn [andb]. congruence. }
    all: destruct (resize_loop nr nc (t_nnz t) (t_data t) (proj1 V)) as (d' & E & L & F & _); cbv zeta in *;
      rewrite E; cbn [t_num_rows t_num_cols t_nnz t_data];
      set (keep := filter _ _) in *;
      assert (LK : (length keep <= t_nnz t)%nat)
        by (unfold keep; etransitivity; [apply filter_len|]; rewrite firstn_length; lia);
      (split; [auto|]); (split; [auto|]); (split; [destruct V; lia|]);
      unfold t_entries; cbn [t_nnz t_data];
      replace (t_nnz t - (t_nnz t - length keep))%nat with (length keep) by lia; exact F. }
  destruct X as (X1 & X2 & X3 & X4). split.
  { split; [auto|]. rewrite X1, X2, X4. apply Forall_forall. intros e I. apply filter_In in I as [_ I].
    apply andb_true_iff in I as [I1 I2]. apply Nat.ltb_lt in I1, I2. split; auto. }
  split; [auto|]. split; [auto|]. intros r c. unfold t_matrix. rewrite X4.
  apply (matrix_of_filter (fun a b => (a <? nr)%nat && (b <? nc)%nat)).
Qed.
Print Assumptions triplet_resized.

Theorem triplet_diagonal : forall values n,
  t_valid (t_diagonal values n) /\
  forall r c, t_matrix (t_diagonal values n) r c =
    if Nat.eqb r c && (r <? n)%nat then values r else 0.
Proof.
  intros values n.
  assert (E : t_entries (t_diagonal values n) = map (fun i => (i, i, values i)) (range 0 n)).
  { unfold t_entries. cbn [t_diagonal t_nnz t_data]. apply firstn_all2.
    rewrite map_length, range_length. lia. }
  split.
  - split.
    + cbn [t_diagonal t_nnz t_data]. rewrite map_length, range_length. lia.
    + rewrite E. apply Forall_map, Forall_forall. intros i I. apply in_range_range in I.
      split; cbn; lia.
  - intros r c. unfold t_matrix. rewrite E, matrix_of_suml, suml_map, range_0.
    unfold c_row, c_col, c_val. cbn [fst snd].
    destruct (Nat.ltb_spec r n).
    + transitivity (if Nat.eqb r c then values r else 0); [|].
      2:{ destruct (Nat.eqb r c); reflexivity. }
      rewrite <- (suml_delta n r (fun i => if Nat.eqb i c then values i else 0)) by auto.
      apply suml_ext. intros i _. rewrite (Nat.eqb_sym i r).
      destruct (Nat.eqb_spec r i) as [->|]; cbn [andb]; reflexivity.
    + rewrite andb_false_r. apply suml_zero. intros i I. apply in_seq in I.
      destruct (Nat.eqb_spec i r); [lia|reflexivity].
Qed.
Print Assumptions triplet_diagonal.

Theorem triplet_zeroed : forall t r c, t_matrix (t_set_zero t) r c = 0.
Proof. reflexivity. Qed.

(* ------------------------------------------------------------------ *)
(* Compressed rows                                                     *)

(* y += A x for every order in which the rows are processed in parallel; with
   triangular storage A is the symmetric matrix. *)
Theorem crs_right_product : forall m order x y i, m_valid m ->
  Permutation order (seq 0 (m_num_rows m)) ->
  (m_storage m <> Unsymmetric -> sorted_rows m /\ m_num_rows m = m_num_cols m) ->
  right_multiply m order x y i =
  y i + sum_below (m_num_cols m) (fun c => full_matrix m i c * x c).
Proof.
  intros m order x y i V P S. unfold right_multiply, full_matrix.
  destruct (m_storage m) eqn:E; [now apply right_unsym| |];
    (destruct S as [S1 S2]; [discriminate|]);
    (rewrite sym_right; auto; [|congruence]); unfold full_matrix; now rewrite E.
Qed.
Print Assumptions crs_right_product.

Theorem crs_left_product : forall m x y j, m_valid m ->
  (m_storage m <> Unsymmetric -> sorted_rows m /\ m_num_rows m = m_num_cols m) ->
  left_multiply m x y j =
  y j + sum_below (m_num_rows m) (fun r => full_matrix m r j * x r).
Proof.
  intros m x y j V S. unfold left_multiply, full_matrix.
  destruct (m_storage m) eqn:E; [now apply left_unsym| |];
    (destruct S as [S1 S2]; [discriminate|]);
    (rewrite crs_right_product; auto; [|rewrite range_0; apply Permutation_refl]);
    f_equal; rewrite S2, !sum_below_suml; apply suml_ext; intros c _; f_equal;
    unfold full_matrix; rewrite E;
    destruct (Nat.leb_spec c j), (Nat.leb_spec j c); auto; try lia;
    replace c with j by lia; auto.
Qed.
Print Assumptions crs_left_product.

Theorem crs_column_norms : forall m x c, m_valid m -> no_duplicates (m_entries m) ->
  (m_storage m <> Unsymmetric -> sorted_rows m /\ m_num_rows m = m_num_cols m) ->
  (c < m_num_cols m)%nat ->
  squared_column_norm m x c =
  sum_below (m_num_rows m) (fun r => full_matrix m r c * full_matrix m r c).
Proof.
  intros m x c V N S Hc. unfold squared_column_norm. cbv zeta.
  assert (Z : (if (c <? m_num_cols m)%nat then 0 else x c) = 0)
    by (destruct (Nat.ltb_spec c (m_num_cols m)); [auto|lia]).
  destruct (m_storage m) eqn:E.
  - rewrite norm_unsym by auto. rewrite Z, Rplus_0_l. unfold full_matrix. now rewrite E.
  - destruct S as [S1 S2]; [discriminate|].
    rewrite norm_sym; auto; [|congruence]. rewrite Z. lra.
  - destruct S as [S1 S2]; [discriminate|].
    rewrite norm_sym; auto; [|congruence]. rewrite Z. lra.
Qed.
Print Assumptions crs_column_norms.

Theorem crs_scaled : forall m scale, m_valid m ->
  m_valid (scale_columns m scale) /\ m_storage (scale_columns m scale) = m_storage m /\
  forall r c, m_matrix (scale_columns m scale) r c = m_matrix m r c * scale c.
Proof.
  intros m scale V. split; [now apply scale_valid|]. split; [reflexivity|].
  intros r c. unfold m_matrix. rewrite scale_entries by auto. apply matrix_of_scale.
Qed.
Print Assumptions crs_scaled.

Theorem crs_dense : forall m r c, m_valid m -> no_duplicates (m_entries m) ->
  to_dense m r c = m_matrix m r c.
Proof. intros. now apply to_dense_eq. Qed.
Print Assumptions crs_dense.

Theorem crs_zeroed : forall m r c, m_matrix (set_zero m) r c = 0.
Proof.
  intros m r c. unfold m_matrix. rewrite matrix_of_suml. apply suml_zero. intros e I.
  rewrite m_entries_pairs in I. apply in_map_iff in I as (p & <- & _).
  unfold cell_of, c_val. cbn [snd]. unfold val_at, set_zero, with_values. cbn [m_values].
  assert (G : forall l i, nth i (map (fun _ : R => 0) l) 0 = 0).
  { induction l as [|a l IH]; intros [|i]; cbn; auto. }
  rewrite G. now destruct (_ && _).
Qed.
Print Assumptions crs_zeroed.

(* FromTripletSparseMatrix and its transposing variant: for every order that
   std::sort may produce the result is a well-formed matrix with sorted rows,
   with exactly the entries of the triplets. *)
Theorem conversion_from_triplets : forall tr t index, t_valid t -> sorts tr t index ->
  exists m, from_triplet tr t index = Some m /\ m_valid m /\ m_storage m = Unsymmetric /\
    sorted_rows m /\
    m_num_rows m = (if tr then t_num_cols t else t_num_rows t) /\
    m_num_cols m = (if tr then t_num_rows t else t_num_cols t) /\
    (forall r c, m_matrix m r c = if tr then t_matrix t c r else t_matrix t r c) /\
    (no_duplicates (t_entries t) -> no_duplicates (m_entries m)).
Proof.
  intros tr t index V S.
  destruct (from_triplet_shape tr t index V S) as (m & E & N1 & N2 & ST & VM & RE).
  pose proof (from_triplet_entries tr t index m V S E) as P. cbv zeta in *.
  exists m. split; [auto|]. split; [auto|]. split; [auto|]. split; [|split; [auto|split; [auto|split]]].
  - intros r Hr. rewrite RE by congruence. rewrite map_map. cbn [fst].
    destruct S as [_ S]. apply ss_map.
    set (L := map (fun i => swap_cell tr (t_cell t i)) index) in *. clear - S.
    induction S as [|e L S IH F]; cbn [filter]; [constructor|].
    destruct (Nat.eqb_spec (c_row e) r) as [Q|]; [|auto]. constructor; [auto|].
    rewrite Forall_forall in *. intros e' I. apply filter_In in I as [I Q'].
    apply Nat.eqb_eq in Q'. destruct (F e' I) as [?|[_ ?]]; [lia|auto].
  - intros r c. unfold m_matrix. rewrite (matrix_of_perm _ _ r c P). apply swap_cell_matrix.
  - intros N. eapply no_dup_perm; [symmetry; exact P|]. now apply no_dup_swap.
Qed.
Print Assumptions conversion_from_triplets.

(* Consequently both formats give the same products. *)
Corollary same_products : forall t index m order x y, t_valid t -> sorts false t index ->
  from_triplet false t index = Some m -> Permutation order (seq 0 (m_num_rows m)) ->
  (forall i, right_multiply m order x y i = t_right t x y i) /\
  (forall j, left_multiply m x y j = t_left t x y j).
Proof.
  intros t index m order x y V S E P.
  destruct (conversion_from_triplets false t index V S) as (m' & E' & VM & ST & _ & N1 & N2 & MM & _).
  rewrite E in E'. injection E' as <-.
  assert (FM : forall r c, full_matrix m r c = t_matrix t r c).
  { intros. unfold full_matrix. now rewrite ST, MM. }
  split; intros k.
  - rewrite crs_right_product; auto; [|congruence]. rewrite t_right_eq, N2 by auto. f_equal.
    rewrite !sum_below_suml. apply suml_ext. intros. now rewrite FM.
  - rewrite crs_left_product; auto; [|congruence]. rewrite t_left_eq, N1 by auto. f_equal.
    rewrite !sum_below_suml. apply suml_ext. intros. now rewrite FM.
Qed.
Print Assumptions same_products.

(* Transpose: the entries are exchanged; triangular storage changes side, so
   that a symmetric matrix stays the same. *)
Theorem transposed : forall m, m_valid m ->
  let t := transpose m in
  m_valid t /\ sorted_rows t /\ m_num_rows t = m_num_cols m /\ m_num_cols t = m_num_rows m /\
  (forall r c, m_matrix t r c = m_matrix m c r) /\
  (forall r c, full_matrix t r c = full_matrix m c r) /\
  (no_duplicates (m_entries m) -> no_duplicates (m_entries t)).
Proof.
  intros m V t. destruct (transpose_shape m V) as (T1 & T2 & T3 & _). fold t in T1, T2, T3.
  assert (MM : forall r c, m_matrix t r c = m_matrix m c r) by (intros; now apply transpose_matrix).
  split; [auto|]. split; [now apply transpose_sorted|]. split; [auto|]. split; [auto|].
  split; [auto|]. split.
  - intros r c. unfold full_matrix.
    assert (ST : m_storage t = match m_storage m with
       Unsymmetric => Unsymmetric | Lower => Upper | Upper => Lower end).
    { unfold t, transpose. destruct (transpose_arrays m) as [[? ?] ?].
      now destruct (m_row_blocks m). }
    rewrite ST. destruct (m_storage m); [apply MM| |];
      rewrite !MM; destruct (Nat.leb_spec r c), (Nat.leb_spec c r); auto; try lia;
      replace r with c by lia; auto.
  - intros N. eapply no_dup_perm; [symmetry; now apply transpose_entries|].
    apply (no_dup_swap true). auto.
Qed.
Print Assumptions transposed.

Theorem rows_deleted : forall m delta m', m_valid m -> delete_rows m delta = Some m' ->
  m_valid m' /\ m_num_rows m' = (m_num_rows m - delta)%nat /\ m_num_cols m' = m_num_cols m /\
  forall r c, m_matrix m' r c = if (r <? m_num_rows m - delta)%nat then m_matrix m r c else 0.
Proof.
  intros m delta m' V E. destruct (delete_shape m delta m' V E) as (D & _ & _ & N1 & N2 & VM & RE).
  split; [auto|]. split; [auto|]. split; [auto|]. intros r c. rewrite !m_matrix_row, N1.
  destruct (Nat.ltb_spec r (m_num_rows m - delta)); [|auto].
  destruct (Nat.ltb_spec r (m_num_rows m)); [|lia]. now rewrite RE by lia.
Qed.
Print Assumptions rows_deleted.

(* the row blocks that are kept are exactly those of the remaining rows *)
Theorem rows_deleted_blocks : forall m delta m' k, delete_rows m delta = Some m' ->
  (k <= length (m_row_blocks m))%nat -> Forall (fun b => (0 < fst b)%nat) (m_row_blocks m) ->
  total_size (firstn k (m_row_blocks m)) = (m_num_rows m - delta)%nat ->
  m_row_blocks m' = firstn k (m_row_blocks m).
Proof.
  intros m delta m' k E K P T. unfold delete_rows in E.
  destruct (delta <=? m_num_rows m)%nat; [|discriminate]. cbn [negb] in E.
  destruct (m_storage m); [|discriminate..]. injection E as <-. cbn [m_row_blocks].
  destruct (m_row_blocks m) as [|b bs] eqn:B; [now destruct k|].
  now rewrite (keep_blocks_spec _ 0 _ k).
Qed.
Print Assumptions rows_deleted_blocks.

Theorem rows_appended : forall m b m', m_valid m -> m_valid b -> append_rows m b = Some m' ->
  m_valid m' /\ m_num_rows m' = (m_num_rows m + m_num_rows b)%nat /\
  m_num_cols m' = m_num_cols m /\ m_num_cols b = m_num_cols m /\
  (forall r c, (r < m_num_rows m)%nat -> m_matrix m' r c = m_matrix m r c) /\
  (forall r c, m_matrix m' (m_num_rows m + r) c = m_matrix b r c).
Proof.
  intros m b m' V W E.
  destruct (append_shape m b m' V W E) as (N1 & N2 & N3 & _ & _ & VM & R1 & R2).
  split; [auto|]. split; [auto|]. split; [auto|]. split; [auto|]. split.
  - intros r c Hr. rewrite !m_matrix_row, N1.
    destruct (Nat.ltb_spec r (m_num_rows m + m_num_rows b)), (Nat.ltb_spec r (m_num_rows m)); try lia.
    now rewrite R1.
  - intros r c. rewrite !m_matrix_row, N1.
    destruct (Nat.ltb_spec (m_num_rows m + r) (m_num_rows m + m_num_rows b)),
      (Nat.ltb_spec r (m_num_rows b)); try lia; [|auto]. now rewrite R2.
Qed.
Print Assumptions rows_appended.

(* Deleting the appended rows gives the matrix back. *)
Corollary append_then_delete : forall m b m1 m2, m_valid m -> m_valid b ->
  append_rows m b = Some m1 -> delete_rows m1 (m_num_rows b) = Some m2 ->
  m_num_rows m2 = m_num_rows m /\ m_num_cols m2 = m_num_cols m /\
  forall r c, m_matrix m2 r c = m_matrix m r c.
Proof.
  intros m b m1 m2 V W E1 E2.
  destruct (rows_appended m b m1 V W E1) as (V1 & N1 & N2 & _ & M1 & _).
  destruct (rows_deleted m1 _ m2 V1 E2) as (V2 & N3 & N4 & M2).
  assert (Q : (m_num_rows m1 - m_num_rows b = m_num_rows m)%nat) by lia.
  split; [lia|]. split; [congruence|]. intros r c. rewrite M2, Q.
  destruct (Nat.ltb_spec r (m_num_rows m)); [auto|].
  rewrite m_matrix_row. destruct (Nat.ltb_spec r (m_num_rows m)); [lia|auto].
Qed.
Print Assumptions append_then_delete.

Theorem crs_diagonal_matrix : forall d n,
  exists m, crs_diagonal d n = Some m /\ m_valid m /\ m_storage m = Unsymmetric /\
    m_num_rows m = n /\ m_num_cols m = n /\
    forall r c, m_matrix m r c = if Nat.eqb r c && (r <? n)%nat then d r else 0.
Proof.
  intros d n. destruct (crs_diagonal_shape d n) as (m & E & N1 & N2 & ST & V & RE).
  exists m. split; [auto|]. split; [auto|]. split; [auto|]. split; [auto|]. split; [auto|].
  intros r c. rewrite m_matrix_row, N1. destruct (Nat.ltb_spec r n).
  - rewrite RE by auto. rewrite andb_true_r. unfold rowval. cbn [suml fst snd].
    destruct (Nat.eqb r c); lra.
  - now rewrite andb_false_r.
Qed.
Print Assumptions crs_diagonal_matrix.

(* CreateBlockDiagonalMatrix: full square blocks along the diagonal, with the
   given values (or zeros) on the diagonal of the matrix. *)
Theorem block_diagonal_matrix : forall diag blocks, consecutive 0 blocks ->
  exists m, block_diagonal diag blocks = Some m /\ m_valid m /\ m_storage m = Unsymmetric /\
    sorted_rows m /\
    m_num_rows m = total_size blocks /\ m_num_cols m = total_size blocks /\
    m_row_blocks m = blocks /\ m_col_blocks m = blocks /\
    (forall r c, m_matrix m r c =
       match diag with
       | Some d => if Nat.eqb r c && (r <? total_size blocks)%nat then d r else 0
       | None => 0
       end) /\
    (forall r c, (r < total_size blocks)%nat ->
       (In c (map fst (row_entries m r)) <->
        exists b, In b blocks /\ (snd b <= r < snd b + fst b)%nat /\ (snd b <= c < snd b + fst b)%nat)).
Proof.
  intros diag blocks C.
  destruct (block_diagonal_shape diag blocks C) as (m & E & N1 & N2 & ST & B1 & B2 & V & RE).
  exists m. split; [auto|]. split; [auto|]. split; [auto|]. split.
  { intros r Hr. rewrite N1 in Hr. destruct (RE r Hr) as (b & _ & _ & _ & ->).
    rewrite map_map. cbn [fst]. rewrite map_id. unfold range.
    assert (G : forall n a, StronglySorted le (seq a n)).
    { clear. induction n as [|n IH]; intros a; cbn [seq]; constructor; [apply IH|].
      apply Forall_forall. intros x I. apply in_seq in I. lia. }
    apply G. }
  split; [auto|]. split; [auto|]. split; [auto|]. split; [auto|]. split.
  - intros r c. rewrite m_matrix_row, N1. destruct (Nat.ltb_spec r (total_size blocks)) as [Hr|].
    2:{ destruct diag; [now rewrite andb_false_r|auto]. }
    destruct (RE r Hr) as (b & _ & H1 & _ & ->).
    unfold rowval. rewrite suml_map. cbn [fst snd].
    transitivity (if Nat.eqb r c then dval diag r else 0).
    2:{ unfold dval. destruct diag; [now rewrite andb_true_r|now destruct (Nat.eqb r c)]. }
    rewrite <- (range_app (snd b) r (snd b + fst b)), (range_cons r) by lia.
    rewrite suml_app. cbn [suml]. rewrite Nat.eqb_refl.
    rewrite !suml_zero; [destruct (Nat.eqb r c); lra| |];
      intros i I; apply in_range_range in I; destruct (Nat.eqb_spec i r); try lia;
      now destruct (Nat.eqb i c).
  - intros r c Hr. destruct (RE r Hr) as (b & IB & H1 & _ & ->). rewrite map_map. cbn [fst].
    rewrite map_id, in_range_range. split.
    + intros Hc. exists b. auto.
    + intros (b' & IB' & H1' & Hc'). replace b with b'; [auto|].
      clear - C IB IB' H1 H1'. revert C. generalize 0%nat. intros pos C.
      assert (G : forall bs pos, consecutive pos bs -> forall x, In x bs -> (pos <= snd x)%nat).
      { clear. induction bs as [|y bs IH]; intros pos C x I; [destruct I|].
        destruct C as [P C]. destruct I as [<-|I]; [lia|]. specialize (IH _ C x I). lia. }
      revert pos C IB IB'. induction blocks as [|y bs IH]; intros pos C IB IB'; [destruct IB|].
      destruct C as [P C]. destruct IB as [<-|IB], IB' as [<-|IB']; auto.
      * pose proof (G _ _ C b' IB'). lia.
      * pose proof (G _ _ C b IB). lia.
      * now apply (IH _ C).
Qed.
Print Assumptions block_diagonal_matrix.

(* ------------------------------------------------------------------ *)
(* Claims that do not hold                                             *)

(* With a repeated position, ToDenseMatrix of the compressed row matrix keeps
   one of the values while the triplet matrix, and the product with a vector,
   use the sum. *)
Definition twice : triplet := triplet_of 1 1 [(0%nat, 0%nat, 1); (0%nat, 0%nat, 2)].

Theorem to_dense_duplicates_refuted :
  t_valid twice /\ sorts false twice [0%nat; 1%nat] /\
  exists m, from_triplet false twice [0%nat; 1%nat] = Some m /\
    m_matrix m 0 0 = 3 /\ t_dense twice 0 0 = 3 /\ to_dense m 0 0 = 2.
Proof.
  assert (V : t_valid twice).
  { split; [cbn; lia|]. repeat constructor. }
  assert (S : sorts false twice [0%nat; 1%nat]).
  { split; [apply Permutation_refl|]. cbn. constructor; [constructor; [constructor|constructor]|].
    constructor; [|constructor]. right. cbn. lia. }
  split; [auto|]. split; [auto|].
  destruct (conversion_from_triplets false twice _ V S) as (m & E & _ & _ & _ & _ & _ & MM & _).
  exists m. split; [auto|]. split; [|split].
  - rewrite MM. unfold t_matrix. cbn. lra.
  - rewrite t_dense_eq by auto. unfold t_matrix. cbn. lra.
  - cbn in E. injection E as <-. reflexivity.
Qed.
Print Assumptions to_dense_duplicates_refuted.

(* ScaleColumns only touches the stored triangle: the symmetric matrix is not
   multiplied by the diagonal matrix. *)
Definition one_above : crs := mkcrs 2 2 [0; 1; 1]%nat [1]%nat [1] Upper [] [].

Theorem scale_triangular_refuted :
  m_valid one_above /\ sorted_rows one_above /\ no_duplicates (m_entries one_above) /\
  let scale := fun c : nat => if Nat.eqb c 0 then 1 else 2 in
  full_matrix (scale_columns one_above scale) 1 0 <> full_matrix one_above 1 0 * scale 0%nat.
Proof.
  split; [|split; [|split]].
  - constructor; [reflexivity|reflexivity| |cbn; lia|reflexivity|].
    + intros [|[|r]] H; cbn in *; lia.
    + intros [|i] H; cbn in *; lia.
  - intros [|[|r]] H; cbn in *; [repeat constructor|constructor|lia].
  - repeat constructor; cbn; tauto.
  - cbn. lra.
Qed.
Print Assumptions scale_triangular_refuted.

(* AppendRows copies the row blocks of the second matrix without moving their
   positions: the resulting block structure is not consecutive. *)
Theorem append_rows_block_positions_refuted :
  exists m b m', m_valid m /\ m_valid b /\
    consecutive 0 (m_row_blocks m) /\ consecutive 0 (m_row_blocks b) /\
    append_rows m b = Some m' /\ ~ consecutive 0 (m_row_blocks m').
Proof.
  set (m := mkcrs 1 1 [0; 1]%nat [0]%nat [1] Unsymmetric [(1, 0)]%nat [(1, 0)]%nat).
  assert (V : m_valid m).
  { constructor; [reflexivity|reflexivity| |cbn; lia|reflexivity|].
    - intros [|r] H; cbn in *; lia.
    - intros [|i] H; cbn in *; lia. }
  exists m, m.
  destruct (append_rows m m) as [m'|] eqn:E; [|discriminate].
  exists m'. split; [auto|]. split; [auto|]. split; [cbn; auto|]. split; [cbn; auto|].
  split; [auto|]. cbn in E. injection E as <-. cbn. intros (_ & H & _). discriminate.
Qed.
Print Assumptions append_rows_block_positions_refuted.

(* ------------------------------------------------------------------ *)
(* Examples                                                            *)

(* [[0 5] [7 0] [0 0]] with the entries given out of order *)
Definition ex_t : triplet := triplet_of 3 2 [(1%nat, 0%nat, 7); (0%nat, 1%nat, 5)].

Lemma ex_valid : t_valid ex_t.
Proof. split; [cbn; lia|]. repeat constructor. Qed.

Lemma ex_sorts : sorts false ex_t [1%nat; 0%nat].
Proof.
  split; [apply perm_swap|]. cbn. constructor; [constructor; [constructor|constructor]|].
  constructor; [left; cbn; lia|constructor].
Qed.

Example ex_convert : exists m, from_triplet false ex_t [1%nat; 0%nat] = Some m /\
  m_rows m = [0; 1; 2; 2]%nat /\ m_cols m = [1; 0]%nat /\ m_matrix m 0 1 = 5 /\ m_matrix m 1 0 = 7 /\
  m_rows (transpose m) = [0; 1; 2]%nat /\ m_cols (transpose m) = [1; 0]%nat /\
  m_matrix (transpose m) 1 0 = 5.
Proof.
  eexists. split; [cbn; reflexivity|]. split; [reflexivity|]. split; [reflexivity|].
  split; [cbn; lra|]. split; [cbn; lra|]. split; [reflexivity|]. split; [reflexivity|]. cbn. lra.
Qed.

Example ex_product : t_right ex_t (fun i => INR i + 1) (fun _ => 0) 0 = 10.
Proof. cbn. lra. Qed.

Example ex_resize : t_matrix (t_resize ex_t 1 2) 0 1 = 5 /\ t_nnz (t_resize ex_t 1 2) = 1%nat.
Proof. cbn. split; [lra|reflexivity]. Qed.

Example ex_append : exists t', t_append_rows ex_t (triplet_of 1 2 [(0%nat, 1%nat, 9)]) = Some t' /\
  t_matrix t' 3 1 = 9 /\ t_num_rows t' = 4%nat.
Proof. eexists. split; [cbn; reflexivity|]. split; [cbn; lra|reflexivity]. Qed.

Example ex_symmetric :
  right_multiply one_above [0; 1]%nat (fun i => if Nat.eqb i 0 then 10 else 100) (fun _ => 0) 0 = 100 /\
  right_multiply one_above [0; 1]%nat (fun i => if Nat.eqb i 0 then 10 else 100) (fun _ => 0) 1 = 10.
Proof. cbn. split; lra. Qed.

Example ex_block_diagonal : exists m,
  block_diagonal (Some (fun i => INR i + 1)) [(1, 0); (2, 1)]%nat = Some m /\
  m_rows m = [0; 1; 3; 5]%nat /\ m_cols m = [0; 1; 2; 1; 2]%nat /\ m_matrix m 2 2 = 3 /\ m_matrix m 1 2 = 0.
Proof.
  eexists. split; [cbn; reflexivity|]. split; [reflexivity|]. split; [reflexivity|].
  split; cbn; lra.
Qed.

Example ex_delete_append : exists m m1 m2,
  crs_diagonal (fun i => INR i + 1) 2 = Some m /\ append_rows m m = Some m1 /\
  delete_rows m1 2 = Some m2 /\ m_rows m1 = [0; 1; 2; 3; 4]%nat /\ m_matrix m1 3 1 = 2 /\
  m_rows m2 = [0; 1; 2]%nat.
Proof.
  eexists. eexists. eexists. split; [cbn; reflexivity|]. split; [cbn; reflexivity|].
  split; [cbn; reflexivity|]. split; [reflexivity|]. split; [cbn; lra|reflexivity].
Qed.
