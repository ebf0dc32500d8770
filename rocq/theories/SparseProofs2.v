(* Lemmas for C45: compressed rows. *)

From Coq Require Import List Arith Bool Reals Permutation Sorted Lia Lra.
From Verif Require Import SparseModel SparseSpec SparseProofs.
Import ListNotations.
Local Open Scope R_scope.

Lemma v_vals m : m_valid m -> (num_nonzeros m <= length (m_values m))%nat.
Proof. intros V. rewrite (v_same m V). apply (v_cols m V). Qed.

Lemma rows_mono m a b : m_valid m -> (a <= b)%nat -> (b <= m_num_rows m)%nat ->
  (row_at m a <= row_at m b)%nat.
Proof.
  intros V H. induction H as [|b H IH]; intros L; [auto|].
  pose proof (v_mono m V b). assert (row_at m a <= row_at m b)%nat by (apply IH; lia). lia.
Qed.

Lemma rows_le_nnz m a : m_valid m -> (a <= m_num_rows m)%nat -> (row_at m a <= num_nonzeros m)%nat.
Proof. intros V H. apply rows_mono; auto. Qed.

Lemma row_range_lt m r i : m_valid m -> (r < m_num_rows m)%nat -> In i (row_range m r) ->
  (i < num_nonzeros m)%nat.
Proof.
  intros V H I. apply in_range_range in I.
  pose proof (rows_le_nnz m (S r) V). lia.
Qed.

Lemma ranges_concat m n : m_valid m -> (n <= m_num_rows m)%nat ->
  flat_map (row_range m) (seq 0 n) = range 0 (row_at m n).
Proof.
  intros V. induction n as [|n IH]; intros H.
  - cbn [seq flat_map]. rewrite (v_zero m V). reflexivity.
  - rewrite seq_S, flat_map_app, IH by lia. cbn [flat_map Nat.add]. rewrite app_nil_r.
    apply range_app. pose proof (v_mono m V n). lia.
Qed.

(* (row, idx) pairs in storage order *)
Definition pairs_over (m : crs) (order : list nat) : list (nat * nat) :=
  flat_map (fun r => map (pair r) (row_range m r)) order.
Definition pairs (m : crs) : list (nat * nat) := pairs_over m (seq 0 (m_num_rows m)).

Definition cell_of (m : crs) (p : nat * nat) : cell :=
  (fst p, col_at m (snd p), val_at m (snd p)).

Lemma m_entries_pairs m : m_entries m = map (cell_of m) (pairs m).
Proof.
  unfold m_entries, pairs, pairs_over. generalize (seq 0 (m_num_rows m)). intros l.
  induction l as [|r l IH]; cbn [flat_map]; [auto|]. rewrite map_app, IH. f_equal.
  unfold row_entries. rewrite !map_map. reflexivity.
Qed.

Lemma pairs_over_perm m l1 l2 : Permutation l1 l2 -> Permutation (pairs_over m l1) (pairs_over m l2).
Proof.
  unfold pairs_over. intros H. now apply Permutation_flat_map.
Qed.

Lemma pairs_snd m : m_valid m -> map snd (pairs m) = range 0 (num_nonzeros m).
Proof.
  intros V. unfold num_nonzeros. rewrite <- (ranges_concat m (m_num_rows m) V (le_n _)).
  unfold pairs, pairs_over. generalize (seq 0 (m_num_rows m)). intros l.
  induction l as [|r l IH]; cbn [flat_map]; [auto|]. rewrite map_app, IH. f_equal.
  rewrite map_map. cbn. apply map_id.
Qed.

Lemma pairs_in m p : m_valid m -> In p (pairs m) ->
  (fst p < m_num_rows m)%nat /\ (snd p < num_nonzeros m)%nat.
Proof.
  intros V I. unfold pairs, pairs_over in I. apply in_flat_map in I as (r & R & I).
  apply in_seq in R. apply in_map_iff in I as (i & <- & I). cbn. split; [lia|].
  eapply row_range_lt; eauto. lia.
Qed.

Lemma entries_in m e : m_valid m -> In e (m_entries m) ->
  (c_row e < m_num_rows m)%nat /\ (c_col e < m_num_cols m)%nat.
Proof.
  intros V I. rewrite m_entries_pairs in I. apply in_map_iff in I as (p & <- & I).
  apply pairs_in in I; auto. unfold cell_of, c_row, c_col. cbn. split; [tauto|].
  apply (v_bound m V). tauto.
Qed.

(* ---- multiplication, unsymmetric ---- *)

Lemma right_fold m x order y :
  fold_left (right_row m x) order y =
  fold_left (fun y p => add_at y (fst p) (val_at m (snd p) * x (col_at m (snd p))))
    (pairs_over m order) y.
Proof.
  unfold pairs_over. rewrite fold_left_flat_map. apply fold_left_ext. intros s r _.
  unfold right_row. now rewrite fold_left_map.
Qed.

Lemma right_unsym m order x y i : m_valid m -> Permutation order (seq 0 (m_num_rows m)) ->
  fold_left (right_row m x) order y i =
  y i + sum_below (m_num_cols m) (fun c => m_matrix m i c * x c).
Proof.
  intros V P. rewrite right_fold, fold_add_at. f_equal.
  rewrite (suml_perm _ _ _ (pairs_over_perm m _ _ P)). fold (pairs m).
  unfold m_matrix. rewrite matrix_row_sum by (intros e He; now apply (entries_in m)).
  rewrite m_entries_pairs, suml_map. reflexivity.
Qed.

Lemma left_unsym m x y j : m_valid m ->
  fold_left (fun y r =>
     fold_left (fun y idx => add_at y (col_at m idx) (val_at m idx * x r)) (row_range m r) y)
    (range 0 (m_num_rows m)) y j =
  y j + sum_below (m_num_rows m) (fun r => m_matrix m r j * x r).
Proof.
  intros V.
  transitivity (fold_left (fun y p => add_at y (col_at m (snd p)) (val_at m (snd p) * x (fst p)))
                  (pairs m) y j).
  - unfold pairs, pairs_over. rewrite fold_left_flat_map, range_0.
    apply (f_equal (fun g : nat -> R => g j)).
    apply fold_left_ext. intros s r _. now rewrite fold_left_map.
  - rewrite fold_add_at. f_equal. unfold m_matrix.
    rewrite matrix_col_sum by (intros e He; now apply (entries_in m)).
    rewrite m_entries_pairs, suml_map. reflexivity.
Qed.

(* ---- symmetric storage ---- *)

Definition in_triangle (m : crs) (r c : nat) : bool :=
  match m_storage m with Upper => (r <=? c)%nat | _ => (c <=? r)%nat end.

Lemma skip_lower_filter m r l : StronglySorted le (map (col_at m) l) ->
  skip_lower m r l = filter (fun i => (r <=? col_at m i)%nat) l.
Proof.
  induction l as [|i l IH]; cbn [map skip_lower filter]; intros S; [auto|].
  inversion S as [|? ? S' F]; subst.
  destruct (Nat.ltb_spec (col_at m i) r), (Nat.leb_spec r (col_at m i)); try lia.
  - now apply IH.
  - f_equal. clear IH S S'. rewrite Forall_map in F.
    induction l as [|j l IHl]; [auto|]. inversion F; subst. cbn [filter].
    destruct (Nat.leb_spec r (col_at m j)); [|lia]. f_equal. auto.
Qed.

Lemma take_lower_filter m r l : StronglySorted le (map (col_at m) l) ->
  take_lower m r l = filter (fun i => (col_at m i <=? r)%nat) l.
Proof.
  induction l as [|i l IH]; cbn [map take_lower filter]; intros S; [auto|].
  inversion S as [|? ? S' F]; subst.
  destruct (Nat.leb_spec (col_at m i) r).
  - f_equal. auto.
  - clear IH S S'. rewrite Forall_map in F.
    induction l as [|j l IHl]; [auto|]. inversion F; subst. cbn [filter].
    destruct (Nat.leb_spec (col_at m j) r); [lia|]. auto.
Qed.

Lemma sym_range_filter m r : sorted_rows m -> (r < m_num_rows m)%nat ->
  sym_range m r = filter (fun i => in_triangle m r (col_at m i)) (row_range m r).
Proof.
  intros S H. specialize (S r H). unfold row_entries in S. rewrite map_map in S. cbn [fst] in S.
  unfold sym_range, in_triangle. destruct (m_storage m).
  - now apply take_lower_filter.
  - now apply take_lower_filter.
  - now apply skip_lower_filter.
Qed.

(* the pairs visited *)
Definition sym_pairs (m : crs) : list (nat * nat) :=
  flat_map (fun r => map (pair r) (sym_range m r)) (seq 0 (m_num_rows m)).

Lemma sym_pairs_filter m : sorted_rows m ->
  sym_pairs m = filter (fun p => in_triangle m (fst p) (col_at m (snd p))) (pairs m).
Proof.
  intros S. unfold sym_pairs, pairs, pairs_over.
  assert (G : forall l, Forall (fun r => (r < m_num_rows m)%nat) l ->
     flat_map (fun r => map (pair r) (sym_range m r)) l =
     filter (fun p => in_triangle m (fst p) (col_at m (snd p)))
       (flat_map (fun r => map (pair r) (row_range m r)) l)).
  { induction 1 as [|r l H F IH]; cbn [flat_map]; [auto|]. rewrite filter_app, IH. f_equal.
    rewrite sym_range_filter by auto. generalize (row_range m r). intros rr.
    induction rr as [|i rr IHr]; cbn [map filter fst snd]; [auto|].
    destruct (in_triangle m r (col_at m i)); cbn [map]; now rewrite IHr. }
  apply G. apply Forall_forall. intros r I. apply in_seq in I. lia.
Qed.

Definition swap (e : cell) : cell := (c_col e, c_row e, c_val e).
Definition off_diagonal (e : cell) : bool := negb (Nat.eqb (c_row e) (c_col e)).

(* all entries of the matrix meant by triangular storage *)
Definition tri_entries (m : crs) : list cell :=
  filter (fun e => in_triangle m (c_row e) (c_col e)) (m_entries m).
Definition sym_entries (m : crs) : list cell :=
  tri_entries m ++ map swap (filter off_diagonal (tri_entries m)).

Lemma tri_entries_pairs m : sorted_rows m -> tri_entries m = map (cell_of m) (sym_pairs m).
Proof.
  intros S. unfold tri_entries. rewrite m_entries_pairs, sym_pairs_filter by auto.
  generalize (pairs m). intros l. induction l as [|p l IH]; cbn [map filter]; [auto|].
  change (c_row (cell_of m p)) with (fst p). change (c_col (cell_of m p)) with (col_at m (snd p)).
  destruct (in_triangle m (fst p) (col_at m (snd p))); cbn [map]; now rewrite IH.
Qed.

Lemma matrix_of_swap es r c : matrix_of (map swap es) r c = matrix_of es c r.
Proof.
  induction es as [|e es IH]; cbn [map matrix_of]; [auto|]. rewrite IH.
  unfold swap, c_row, c_col, c_val. cbn [fst snd]. now rewrite andb_comm.
Qed.

Lemma full_matrix_entries m r c : m_storage m <> Unsymmetric ->
  full_matrix m r c = matrix_of (sym_entries m) r c.
Proof.
  intros H. unfold sym_entries. rewrite matrix_of_app, matrix_of_swap.
  rewrite (matrix_of_filter (fun a b => negb (Nat.eqb a b)) (tri_entries m)).
  unfold tri_entries. rewrite !(matrix_of_filter (in_triangle m)).
  unfold full_matrix, in_triangle, m_matrix. destruct (m_storage m); [congruence| |].
  - destruct (Nat.eqb_spec c r), (Nat.leb_spec c r), (Nat.leb_spec r c); cbn [negb]; subst;
      try lia; lra.
  - destruct (Nat.eqb_spec c r), (Nat.leb_spec c r), (Nat.leb_spec r c); cbn [negb]; subst;
      try lia; lra.
Qed.

Lemma sym_entries_in m e : m_valid m -> m_num_rows m = m_num_cols m -> In e (sym_entries m) ->
  (c_row e < m_num_rows m)%nat /\ (c_col e < m_num_cols m)%nat.
Proof.
  intros V SQ I. unfold sym_entries in I. apply in_app_or in I as [I|I].
  - apply filter_In in I as [I _]. now apply entries_in.
  - apply in_map_iff in I as (e' & <- & I). apply filter_In in I as [I _].
    apply filter_In in I as [I _]. apply entries_in in I; auto.
    unfold swap, c_row, c_col in *. cbn. lia.
Qed.

(* two additions per visited entry *)
Lemma fold_two {A} (r c : A -> nat) (f g : A -> R) l : forall y j,
  fold_left (fun y a => let y := add_at y (r a) (f a) in
                        if Nat.eqb (r a) (c a) then y else add_at y (c a) (g a)) l y j =
  y j + suml (fun a => (if Nat.eqb (r a) j then f a else 0) +
                       (if negb (Nat.eqb (r a) (c a)) && Nat.eqb (c a) j then g a else 0)) l.
Proof.
  induction l as [|a l IH]; intros y j; [cbn; lra|]. cbn [suml].
  rewrite <- Rplus_assoc.
  etransitivity; [exact (IH _ j)|]. f_equal. cbv zeta.
  unfold add_at. destruct (Nat.eqb_spec (r a) (c a)); rewrite !(Nat.eqb_sym j);
    destruct (Nat.eqb_spec (r a) j), (Nat.eqb_spec (c a) j); cbn [negb andb]; try lia; lra.
Qed.

Lemma suml_sym (f : cell -> R) m :
  suml f (sym_entries m) =
  suml (fun e => f e + (if off_diagonal e then f (swap e) else 0)) (tri_entries m).
Proof.
  unfold sym_entries. rewrite suml_app, suml_map, suml_plus. f_equal.
  induction (tri_entries m) as [|e l IH]; cbn [filter suml]; [auto|].
  destruct (off_diagonal e); cbn [suml]; rewrite IH; lra.
Qed.

Lemma sym_right m x y i : m_valid m -> sorted_rows m -> m_num_rows m = m_num_cols m ->
  m_storage m <> Unsymmetric ->
  fold_left (sym_right_row m x) (range 0 (m_num_rows m)) y i =
  y i + sum_below (m_num_cols m) (fun c => full_matrix m i c * x c).
Proof.
  intros V S SQ NS.
  transitivity (fold_left (fun y p =>
     let y := add_at y (fst p) (val_at m (snd p) * x (col_at m (snd p))) in
     if Nat.eqb (fst p) (col_at m (snd p)) then y
     else add_at y (col_at m (snd p)) (val_at m (snd p) * x (fst p))) (sym_pairs m) y i).
  { unfold sym_pairs. rewrite fold_left_flat_map, range_0.
    apply (f_equal (fun g : nat -> R => g i)). apply fold_left_ext.
    intros s r _. unfold sym_right_row. now rewrite fold_left_map. }
  rewrite (fold_two fst (fun p => col_at m (snd p))
            (fun p => val_at m (snd p) * x (col_at m (snd p)))
            (fun p => val_at m (snd p) * x (fst p))). f_equal.
  transitivity (sum_below (m_num_cols m) (fun c => matrix_of (sym_entries m) i c * x c)).
  - rewrite matrix_row_sum by (intros e He; now apply (sym_entries_in m)).
    rewrite suml_sym, tri_entries_pairs, suml_map by auto. apply suml_ext. intros p _.
    unfold off_diagonal, swap, cell_of, c_row, c_col, c_val. cbn [fst snd].
    destruct (Nat.eqb (fst p) (col_at m (snd p))); cbn [negb andb]; reflexivity.
  - rewrite !sum_below_suml. apply suml_ext. intros c _. now rewrite full_matrix_entries.
Qed.

Lemma no_dup_filter P es : no_duplicates es -> no_duplicates (filter P es).
Proof.
  unfold no_duplicates. induction es as [|e es IH]; cbn [map filter]; intros H; [auto|].
  inversion H as [|? ? NI ND]; subst. destruct (P e); cbn [map]; [|auto]. constructor; [|auto].
  intros I. apply NI. apply in_map_iff in I as (e' & E & I). apply filter_In in I as [I _].
  rewrite <- E. now apply in_map.
Qed.

Lemma NoDup_app_intro {A} (a b : list A) : NoDup a -> NoDup b ->
  (forall x, In x a -> In x b -> False) -> NoDup (a ++ b).
Proof.
  induction a as [|x a IH]; intros Na Nb D; cbn; [auto|].
  inversion Na; subst. constructor.
  - intros I. apply in_app_or in I as [I|I]; [auto|]. eapply D; [left; eauto|eauto].
  - apply IH; auto. intros z Z1 Z2. eapply D; [right; eauto|eauto].
Qed.

Lemma sym_no_dup m : no_duplicates (m_entries m) -> m_storage m <> Unsymmetric ->
  no_duplicates (sym_entries m).
Proof.
  intros ND NS. unfold no_duplicates, sym_entries. rewrite map_app.
  apply NoDup_app_intro.
  - now apply no_dup_filter.
  - rewrite map_map. cbn.
    assert (H : NoDup (map fst (filter off_diagonal (tri_entries m))))
      by (now apply no_dup_filter, no_dup_filter).
    revert H. generalize (filter off_diagonal (tri_entries m)). intros l.
    induction l as [|e l IH]; cbn [map]; intros H; [constructor|].
    inversion H as [|? ? NI ND']; subst. constructor; [|auto].
    intros I. apply NI. apply in_map_iff in I as (e' & E & I).
    apply in_map_iff. exists e'. split; [|auto].
    destruct e as [[? ?] ?], e' as [[? ?] ?]. unfold c_row, c_col in E. cbn in *. congruence.
  - intros [r c] I1 I2. rewrite map_map in I2. cbn in I2.
    apply in_map_iff in I1 as (e1 & E1 & I1). apply in_map_iff in I2 as (e2 & E2 & I2).
    apply filter_In in I1 as [_ T1]. apply filter_In in I2 as [I2 O2].
    apply filter_In in I2 as [_ T2].
    destruct e1 as [[? ?] ?], e2 as [[? ?] ?]. unfold off_diagonal, in_triangle, c_row, c_col in *.
    cbn in *. injection E1 as -> ->. injection E2 as -> ->.
    apply negb_true_iff, Nat.eqb_neq in O2.
    destruct (m_storage m); try congruence; apply Nat.leb_le in T1, T2; lia.
Qed.

(* ---- norms ---- *)

Lemma norm_unsym m x c : m_valid m -> no_duplicates (m_entries m) ->
  fold_left (fun x idx => add_at x (col_at m idx) (val_at m idx * val_at m idx))
    (range 0 (num_nonzeros m)) x c =
  x c + sum_below (m_num_rows m) (fun r => m_matrix m r c * m_matrix m r c).
Proof.
  intros V ND. rewrite fold_add_at. f_equal. rewrite <- pairs_snd by auto.
  rewrite suml_map. unfold m_matrix. rewrite <- suml_square_col; auto.
  - rewrite m_entries_pairs, suml_map. reflexivity.
  - intros e He. now apply (entries_in m).
Qed.

Lemma norm_sym m x c : m_valid m -> sorted_rows m -> m_num_rows m = m_num_cols m ->
  no_duplicates (m_entries m) -> m_storage m <> Unsymmetric ->
  fold_left (fun x r => fold_left (fun x idx =>
              let c := col_at m idx in
              let v2 := val_at m idx * val_at m idx in
              let x := add_at x c v2 in
              if Nat.eqb r c then x else add_at x r v2)
            (sym_range m r) x) (range 0 (m_num_rows m)) x c =
  x c + sum_below (m_num_rows m) (fun r => full_matrix m r c * full_matrix m r c).
Proof.
  intros V S SQ ND NS.
  transitivity (fold_left (fun y p =>
     let y := add_at y (col_at m (snd p)) (val_at m (snd p) * val_at m (snd p)) in
     if Nat.eqb (col_at m (snd p)) (fst p) then y
     else add_at y (fst p) (val_at m (snd p) * val_at m (snd p))) (sym_pairs m) x c).
  { unfold sym_pairs. rewrite fold_left_flat_map, range_0.
    apply (f_equal (fun g : nat -> R => g c)). apply fold_left_ext.
    intros s r _. rewrite fold_left_map. apply fold_left_ext. intros s' i _. cbn [fst snd].
    cbv zeta. now rewrite (Nat.eqb_sym r). }
  rewrite (fold_two (fun p => col_at m (snd p)) fst
            (fun p => val_at m (snd p) * val_at m (snd p))
            (fun p => val_at m (snd p) * val_at m (snd p))). f_equal.
  transitivity (sum_below (m_num_rows m)
     (fun r => matrix_of (sym_entries m) r c * matrix_of (sym_entries m) r c)).
  - rewrite <- suml_square_col.
    + rewrite suml_sym, tri_entries_pairs, suml_map by auto. apply suml_ext. intros p _.
      unfold off_diagonal, swap, cell_of, c_row, c_col, c_val. cbn [fst snd].
      rewrite (Nat.eqb_sym (fst p) (col_at m (snd p))).
      destruct (Nat.eqb (col_at m (snd p)) (fst p)); cbn [negb andb]; reflexivity.
    + now apply sym_no_dup.
    + intros e He. now apply (sym_entries_in m).
  - rewrite !sum_below_suml. apply suml_ext. intros r _. now rewrite full_matrix_entries.
Qed.

(* ---- scaling ---- *)

Lemma fold_set_each {A} (f : nat -> A -> A) (d : A) n : forall l, (n <= length l)%nat ->
  length (fold_left (fun l i => set_nth l i (f i (nth i l d))) (range 0 n) l) = length l /\
  forall i, nth i (fold_left (fun l i => set_nth l i (f i (nth i l d))) (range 0 n) l) d =
            if (i <? n)%nat then f i (nth i l d) else nth i l d.
Proof.
  induction n as [|n IH]; intros l H; [cbn; auto|].
  destruct (IH l) as [L E]; [lia|].
  rewrite range_S, fold_left_app by lia. cbn [fold_left]. split.
  - now rewrite set_nth_length.
  - intros i. destruct (Nat.eq_dec n i) as [<-|NE].
    + rewrite set_nth_same by lia. rewrite E. destruct (Nat.ltb_spec n n); [lia|].
      destruct (Nat.ltb_spec n (S n)); [auto|lia].
    + rewrite set_nth_other by auto. rewrite E.
      destruct (Nat.ltb_spec i n), (Nat.ltb_spec i (S n)); auto; lia.
Qed.

Lemma scale_entries m scale : m_valid m ->
  m_entries (scale_columns m scale) = map (scale_cell scale) (m_entries m).
Proof.
  intros V. rewrite !m_entries_pairs, map_map.
  change (pairs (scale_columns m scale)) with (pairs m). apply map_ext_in. intros p I.
  apply pairs_in in I as [_ I]; auto.
  unfold cell_of, scale_cell, c_row, c_col, c_val. cbn [fst snd].
  change (col_at (scale_columns m scale)) with (col_at m). f_equal.
  unfold val_at, scale_columns, with_values. cbn [m_values].
  destruct (fold_set_each (fun i v => v * scale (col_at m i)) 0 (num_nonzeros m) (m_values m)
             (v_vals m V)) as [_ E].
  rewrite E. destruct (Nat.ltb_spec (snd p) (num_nonzeros m)); [auto|lia].
Qed.

Lemma scale_valid m scale : m_valid m -> m_valid (scale_columns m scale).
Proof.
  intros V. destruct (fold_set_each (fun i v => v * scale (col_at m i)) 0 (num_nonzeros m)
    (m_values m) (v_vals m V)) as [L _].
  destruct V. constructor; auto. cbn [m_values scale_columns with_values].
  change (num_nonzeros (scale_columns m scale)) with (num_nonzeros m). rewrite L. auto.
Qed.

(* ---- dense ---- *)

Lemma to_dense_eq m r c : m_valid m -> no_duplicates (m_entries m) ->
  to_dense m r c = m_matrix m r c.
Proof.
  intros V ND. unfold m_matrix.
  transitivity (fold_left (fun (d : nat -> nat -> R) e =>
     fun r' c' => if Nat.eqb r' (c_row e) && Nat.eqb c' (c_col e) then c_val e else d r' c')
     (m_entries m) (fun _ _ => 0) r c).
  { rewrite m_entries_pairs, fold_left_map. unfold to_dense, pairs, pairs_over.
    rewrite fold_left_flat_map, range_0.
    apply (f_equal (fun g : nat -> nat -> R => g r c)). apply fold_left_ext.
    intros s r' _. now rewrite fold_left_map. }
  assert (G : forall es (d : nat -> nat -> R), no_duplicates es ->
    fold_left (fun (d : nat -> nat -> R) e =>
     fun r' c' => if Nat.eqb r' (c_row e) && Nat.eqb c' (c_col e) then c_val e else d r' c')
     es d r c = if existsb (fun e => Nat.eqb (c_row e) r && Nat.eqb (c_col e) c) es
                then matrix_of es r c else d r c).
  { induction es as [|e es IH]; intros d N; cbn [fold_left existsb matrix_of]; [auto|].
    assert (N' : no_duplicates es) by (unfold no_duplicates in *; now inversion N).
    rewrite IH by auto. rewrite (Nat.eqb_sym r), (Nat.eqb_sym c).
    destruct (Nat.eqb (c_row e) r && Nat.eqb (c_col e) c) eqn:E; cbn [orb].
    - assert (A : ~ In (r, c) (map fst es)).
      { unfold no_duplicates in N. inversion N as [|? ? NI _]; subst.
        apply andb_true_iff in E as [E1 E2]. apply Nat.eqb_eq in E1, E2.
        intros I. apply NI. destruct e as [[? ?] ?]. unfold c_row, c_col in *. cbn in *. now subst. }
      rewrite matrix_of_absent by auto.
      replace (existsb _ es) with false; [lra|]. symmetry. apply not_true_is_false. intros X.
      apply existsb_exists in X as (e' & I & X). apply A.
      apply andb_true_iff in X as [X1 X2]. apply Nat.eqb_eq in X1, X2.
      apply in_map_iff. exists e'. split; [|auto]. destruct e' as [[? ?] ?].
      unfold c_row, c_col in *. cbn in *. now subst.
    - destruct (existsb _ es); [lra|auto]. }
  rewrite G by auto. destruct (existsb _ _) eqn:X; [auto|].
  symmetry. apply matrix_of_absent. intros I. apply in_map_iff in I as (e & E & I).
  assert (Y : existsb (fun e => Nat.eqb (c_row e) r && Nat.eqb (c_col e) c) (m_entries m) = true);
    [|congruence].
  apply existsb_exists. exists e. split; [auto|]. destruct e as [[? ?] ?].
  unfold c_row, c_col. cbn in *. injection E as -> ->. now rewrite !Nat.eqb_refl.
Qed.
