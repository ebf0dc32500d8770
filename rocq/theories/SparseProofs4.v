(* Lemmas for C45: transpose, conversion from triplets, diagonal matrices. *)

From Coq Require Import List Arith Bool Reals Permutation Sorted Lia Lra.
From Verif Require Import SparseModel SparseSpec SparseProofs SparseProofs2 SparseProofs3.
Import ListNotations.
Local Open Scope R_scope.

(* ---- transpose ---- *)

Definition pcol (m : crs) (p : nat * nat) : nat := col_at m (snd p).

Lemma transpose_fold m l : forall tr tc tv,
  fold_left (fun st p => transpose_step m (fst p) st (snd p)) l (tr, tc, tv) =
  (fst (fold_left (scatter (pcol m) fst) l (tr, tc)),
   snd (fold_left (scatter (pcol m) fst) l (tr, tc)),
   snd (fold_left (scatter (pcol m) (fun p => val_at m (snd p))) l (tr, tv))).
Proof.
  induction l as [|p l IH]; intros tr tc tv; cbn [fold_left]; [reflexivity|].
  unfold transpose_step at 2. rewrite IH. reflexivity.
Qed.

Lemma pairs_length m : m_valid m -> length (pairs m) = num_nonzeros m.
Proof.
  intros V. rewrite <- (map_length snd), pairs_snd by auto. rewrite range_length. lia.
Qed.

Lemma transpose_shape m : m_valid m ->
  let t := transpose m in
  m_num_rows t = m_num_cols m /\ m_num_cols t = m_num_rows m /\ m_valid t /\
  (forall c, (c < m_num_cols m)%nat ->
     row_entries t c = map (fun p => (fst p, val_at m (snd p)))
                         (filter (fun p => Nat.eqb (pcol m p) c) (pairs m))).
Proof.
  intros V t.
  assert (KEY : forall p, In p (pairs m) -> (pcol m p < m_num_cols m)%nat).
  { intros p I. apply (v_bound m V). now apply pairs_in in I. }
  set (E := pairs m) in *. set (n := m_num_cols m) in *.
  assert (LE : length E = num_nonzeros m) by now apply pairs_length.
  destruct (starts_spec (pcol m) n E KEY) as [L0 S0].
  set (tr0 := cumulate n (fold_left (fun a x => incr a (S (pcol m x))) E (repeat 0%nat (S n)))) in *.
  cbv zeta in L0, S0.
  assert (TR0 : cumulate n (fold_left (fun a idx => incr a (S (col_at m idx)))
                   (range 0 (num_nonzeros m)) (repeat 0%nat (S n))) = tr0).
  { unfold tr0. rewrite <- pairs_snd by auto. fold E. now rewrite fold_left_map. }
  destruct (scatter_spec (pcol m) fst 0%nat n E KEY E [] tr0 (repeat 0%nat (num_nonzeros m)))
    as (A1 & A2 & A3 & A4 & A5); auto; try lia.
  { now rewrite repeat_length. }
  { intros k Hk. rewrite S0 by lia. cbn. lia. }
  { intros k j _ Hj. cbn in Hj. lia. }
  destruct (scatter_spec (pcol m) (fun p => val_at m (snd p)) 0 n E KEY E [] tr0
              (repeat 0 (num_nonzeros m))) as (_ & B2 & _ & _ & B5); auto; try lia.
  { now rewrite repeat_length. }
  { intros k Hk. rewrite S0 by lia. cbn. lia. }
  { intros k j _ Hj. cbn in Hj. lia. }
  set (s1 := fold_left (scatter (pcol m) fst) E (tr0, repeat 0%nat (num_nonzeros m))) in *.
  set (s2 := fold_left (scatter (pcol m) (fun p => val_at m (snd p))) E
               (tr0, repeat 0 (num_nonzeros m))) in *.
  destruct (shift_back n (fst s1)) as (H1 & H2 & H3); [lia|]. cbv zeta in H1, H2, H3.
  set (tr2 := fold_left _ (rev (range 1 n)) (fst s1)) in *.
  set (tr3 := set_nth tr2 0 0%nat).
  assert (AR : transpose_arrays m = (tr3, snd s1, snd s2)).
  { unfold transpose_arrays. fold n. rewrite TR0.
    replace (fold_left (fun st r => fold_left (transpose_step m r) (row_range m r) st)
      (range 0 (m_num_rows m)) (tr0, repeat 0%nat (num_nonzeros m), repeat 0 (num_nonzeros m)))
      with (fold_left (fun st p => transpose_step m (fst p) st (snd p)) E
              (tr0, repeat 0%nat (num_nonzeros m), repeat 0 (num_nonzeros m))).
    2:{ unfold E, pairs, pairs_over. rewrite fold_left_flat_map, range_0. apply fold_left_ext.
        intros s r _. now rewrite fold_left_map. }
    rewrite transpose_fold. reflexivity. }
  assert (T1 : m_num_rows t = n /\ m_num_cols t = m_num_rows m /\ m_rows t = tr3 /\
               m_cols t = snd s1 /\ m_values t = snd s2).
  { unfold t, transpose. rewrite AR. destruct (m_row_blocks m); repeat split. }
  destruct T1 as (T1 & T2 & T3 & T4 & T5).
  assert (RA : forall i, (i <= n)%nat -> row_at t i = start (pcol m) i E).
  { intros i Hi. unfold row_at. rewrite T3. unfold tr3.
    destruct (Nat.eq_dec i 0) as [->|].
    - rewrite set_nth_same by lia. now rewrite start_0.
    - rewrite set_nth_other by lia. destruct (Nat.eq_dec i n) as [->|].
      + rewrite H3 by lia. rewrite A4 by lia. apply S0. lia.
      + rewrite H2 by lia. rewrite A3 by lia. destruct i as [|i]; [lia|].
        rewrite start_S. now replace (S i - 1)%nat with i by lia. }
  assert (NN : num_nonzeros t = length E).
  { unfold num_nonzeros. rewrite T1, RA by lia. now apply start_all. }
  assert (RE : forall c, (c < n)%nat ->
     row_entries t c = map (fun p => (fst p, val_at m (snd p)))
                         (filter (fun p => Nat.eqb (pcol m p) c) E)).
  { intros c Hc. unfold row_entries, row_range. rewrite !RA by lia. rewrite start_S.
    apply (list_of_range _ _ _ _ (0%nat, 0)).
    - now rewrite map_length.
    - intros j Hj.
      change (col_at t (start (pcol m) c E + j))
        with (nth (start (pcol m) c E + j) (m_cols t) 0%nat).
      change (val_at t (start (pcol m) c E + j))
        with (nth (start (pcol m) c E + j) (m_values t) 0).
      rewrite T4, T5, A5, B5 by auto.
      fold (cnt (pcol m) c E) in Hj. unfold cnt in Hj.
      set (F := filter (fun p => Nat.eqb (pcol m p) c) E) in *.
      rewrite (nth_indep (map fst F) 0%nat (fst (0%nat, 0%nat))) by (rewrite map_length; lia).
      rewrite (nth_indep (map _ F) 0 ((fun p : nat * nat => val_at m (snd p)) (0%nat, 0%nat)))
        by (rewrite map_length; lia).
      rewrite (nth_indep (map _ F) (0%nat, 0)
                ((fun p : nat * nat => (fst p, val_at m (snd p))) (0%nat, 0%nat)))
        by (rewrite map_length; lia).
      rewrite (map_nth (fun p : nat * nat => (fst p, val_at m (snd p)))).
      rewrite (map_nth (fun p : nat * nat => val_at m (snd p))), map_nth. reflexivity. }
  split; [auto|]. split; [auto|]. split; [|auto].
  constructor.
  - rewrite T1, T3. unfold tr3. rewrite set_nth_length. lia.
  - rewrite RA by lia. apply start_0.
  - rewrite T1. intros r Hr. rewrite !RA by lia. apply start_mono. lia.
  - rewrite NN, T4. lia.
  - rewrite T4, T5. lia.
  - rewrite NN, T2. intros i Hi.
    (* every position belongs to some row *)
    assert (X : exists c, (c < n)%nat /\ In i (row_range t c)).
    { assert (I : In i (range 0 (row_at t n))).
      { apply in_range_range. rewrite RA by lia. rewrite (start_all _ n) by auto. lia. }
      clear - I RA T1. revert I.
      assert (G : forall k, (k <= n)%nat -> In i (range 0 (row_at t k)) ->
                exists c, (c < k)%nat /\ In i (row_range t c)).
      { induction k as [|k IH]; intros Hk I.
        - rewrite RA, start_0 in I by lia. destruct I.
        - apply in_range_range in I. destruct (Nat.lt_ge_cases i (row_at t k)).
          + destruct IH as (c & Hc & Ic); [lia|apply in_range_range; lia|]. exists c. split; [lia|auto].
          + exists k. split; [lia|]. apply in_range_range. lia. }
      apply G. lia. }
    destruct X as (c & Hc & I).
    assert (J : In (col_at t i, val_at t i) (row_entries t c)).
    { unfold row_entries. apply in_map_iff. exists i. auto. }
    rewrite RE in J by auto. apply in_map_iff in J as (p & P & J). apply filter_In in J as [J _].
    injection P as P _. rewrite <- P. now apply (pairs_in m p V).
Qed.

Lemma rowval_map_filter m c r : m_valid m ->
  rowval (map (fun p => (fst p, val_at m (snd p))) (filter (fun p => Nat.eqb (pcol m p) c) (pairs m))) r
  = m_matrix m r c.
Proof.
  intros V. unfold m_matrix. rewrite m_entries_pairs, matrix_of_suml, suml_map.
  unfold rowval. rewrite suml_map. cbn [fst snd]. unfold cell_of, c_row, c_col, c_val.
  cbn [fst snd]. generalize (pairs m). intros l. induction l as [|p l IH]; cbn [filter suml]; [auto|].
  unfold pcol at 1. rewrite (andb_comm (Nat.eqb (fst p) r)).
  destruct (Nat.eqb (col_at m (snd p)) c); cbn [suml andb fst snd]; rewrite IH; lra.
Qed.

Lemma transpose_matrix m r c : m_valid m -> m_matrix (transpose m) c r = m_matrix m r c.
Proof.
  intros V. destruct (transpose_shape m V) as (T1 & T2 & _ & RE). cbv zeta in *.
  rewrite m_matrix_row, T1. destruct (Nat.ltb_spec c (m_num_cols m)).
  - rewrite RE by auto. now apply rowval_map_filter.
  - symmetry. unfold m_matrix. rewrite matrix_of_suml. apply suml_zero. intros e He.
    apply entries_in in He as [_ He]; auto.
    destruct (Nat.eqb_spec (c_col e) c); [lia|]. now rewrite andb_false_r.
Qed.

Lemma ss_filter {A} (R : A -> A -> Prop) P l : StronglySorted R l -> StronglySorted R (filter P l).
Proof.
  induction 1 as [|a l S IH F]; cbn; [constructor|]. destruct (P a); [|auto].
  constructor; [auto|]. rewrite Forall_forall in *. intros x I. apply filter_In in I. now apply F.
Qed.

Lemma ss_map {A B} (R : B -> B -> Prop) (f : A -> B) l :
  StronglySorted (fun a b => R (f a) (f b)) l -> StronglySorted R (map f l).
Proof.
  induction 1 as [|a l S IH F]; cbn; constructor; [auto|]. now rewrite Forall_map.
Qed.

Lemma pairs_sorted m : StronglySorted (fun p q : nat * nat => (fst p <= fst q)%nat) (pairs m).
Proof.
  unfold pairs, pairs_over. generalize (m_num_rows m). intros n.
  assert (G : forall s, StronglySorted (fun p q : nat * nat => (fst p <= fst q)%nat)
     (flat_map (fun r => map (pair r) (row_range m r)) (seq s n)) /\
     Forall (fun p : nat * nat => (s <= fst p)%nat)
       (flat_map (fun r => map (pair r) (row_range m r)) (seq s n))).
  { induction n as [|n IH]; intros s; cbn [seq flat_map]; [split; constructor|].
    destruct (IH (S s)) as [S1 F1].
    assert (F2 : Forall (fun p : nat * nat => (s <= fst p)%nat)
       (flat_map (fun r => map (pair r) (row_range m r)) (seq (S s) n))).
    { eapply Forall_impl; [|exact F1]. cbn. intros; lia. }
    split.
    - generalize (row_range m s). intros l. induction l as [|i l IHl]; cbn [map app]; [auto|].
      constructor; [auto|]. apply Forall_app. split; [|exact F2].
      apply Forall_map, Forall_forall. intros x _. cbn. lia.
    - apply Forall_app. split; [|auto]. apply Forall_map, Forall_forall. intros x _. cbn. lia. }
  apply (G 0%nat).
Qed.

Lemma transpose_sorted m : m_valid m -> sorted_rows (transpose m).
Proof.
  intros V. destruct (transpose_shape m V) as (T1 & _ & _ & RE). cbv zeta in *.
  intros c Hc. rewrite T1 in Hc. rewrite RE by auto. rewrite map_map. cbn [fst].
  apply ss_map. apply ss_filter. apply pairs_sorted.
Qed.

(* ---- from triplets ---- *)

Lemma fold_triple {S A B C} (f : A -> S -> A) (g : B -> S -> B) (h : C -> S -> C) l : forall a b c,
  fold_left (fun (st : A * B * C) i => let '(a, b, c) := st in (f a i, g b i, h c i)) l (a, b, c) =
  (fold_left f l a, fold_left g l b, fold_left h l c).
Proof. induction l as [|x l IH]; intros a b c; cbn [fold_left]; [auto|]. apply IH. Qed.

Lemma fill_all {A} (g : nat -> A) (d : A) n :
  fold_left (fun l i => set_nth l i (g i)) (range 0 n) (repeat d n) = map g (range 0 n).
Proof.
  destruct (fold_set_each (fun i _ => g i) d n (repeat d n)) as [L E].
  { rewrite repeat_length. lia. }
  apply (nth_ext_len d).
  - rewrite L, repeat_length, map_length, range_length. lia.
  - rewrite L, repeat_length. intros i Hi. rewrite E. destruct (Nat.ltb_spec i n); [|lia].
    rewrite (nth_indep _ d (g 0%nat)) by (rewrite map_length, range_length; lia).
    rewrite map_nth. f_equal. unfold range. rewrite seq_nth; lia.
Qed.

Lemma sorted_block r L : StronglySorted before L ->
  skipn (start c_row r L) (firstn (start c_row (S r) L) L) =
  filter (fun e => Nat.eqb (c_row e) r) L.
Proof.
  induction 1 as [|e L S IH F]; [reflexivity|].
  unfold start in *. cbn [filter].
  assert (LATER : forall e', In e' L -> (c_row e <= c_row e')%nat).
  { rewrite Forall_forall in F. intros e' I. destruct (F e' I) as [?|[? _]]; lia. }
  assert (NONE : forall k, (k <= c_row e)%nat -> filter (fun a => (c_row a <? k)%nat) L = []).
  { intros k Hk. clear - LATER Hk. induction L as [|a L IH]; cbn [filter]; [auto|].
    destruct (Nat.ltb_spec (c_row a) k).
    - specialize (LATER a (or_introl eq_refl)). lia.
    - apply IH. intros. apply LATER. now right. }
  destruct (Nat.ltb_spec (c_row e) r), (Nat.ltb_spec (c_row e) (Datatypes.S r)),
    (Nat.eqb_spec (c_row e) r); try lia; cbn [length firstn skipn].
  - exact IH.
  - rewrite NONE in * by lia. cbn [length skipn] in *. now rewrite IH.
  - rewrite !NONE in * by lia. cbn [length skipn firstn] in *. exact IH.
Qed.

Lemma from_triplet_shape tr t index : t_valid t -> sorts tr t index ->
  let nr := if tr then t_num_cols t else t_num_rows t in
  let nc := if tr then t_num_rows t else t_num_cols t in
  let L := map (fun i => swap_cell tr (t_cell t i)) index in
  exists m, from_triplet tr t index = Some m /\ m_num_rows m = nr /\ m_num_cols m = nc /\
    m_storage m = Unsymmetric /\ m_valid m /\
    (forall r, (r < nr)%nat -> row_entries m r =
       map (fun e => (c_col e, c_val e)) (filter (fun e => Nat.eqb (c_row e) r) L)).
Proof.
  intros V [PERM SORT] nr nc L.
  assert (LI : length index = t_nnz t) by (rewrite (Permutation_length PERM); apply seq_length).
  assert (LL : length L = t_nnz t) by (unfold L; now rewrite map_length).
  assert (PL : Permutation L (map (swap_cell tr) (t_entries t))).
  { unfold L. rewrite <- (t_cells t V), map_map, range_0. now apply Permutation_map. }
  assert (BND : forall e, In e L -> (c_row e < nr)%nat /\ (c_col e < nc)%nat).
  { intros e I. apply (Permutation_in _ PL) in I. apply in_map_iff in I as (e' & <- & I).
    apply (t_in t) in I; auto. unfold nr, nc, swap_cell. destruct tr; cbn [c_row c_col fst snd]; auto.
    unfold c_row, c_col in *. cbn. tauto. }
  unfold from_triplet. fold nr nc.
  destruct (Nat.eqb_spec nr 0) as [Z|NZ].
  { exists (crs_empty nr nc (t_nnz t)).
    assert (t_nnz t = 0%nat).
    { destruct L as [|e L0]; [cbn in LL; lia|]. destruct (BND e (or_introl eq_refl)). lia. }
    split; [auto|]. split; [auto|]. split; [auto|]. split; [auto|]. split.
    - rewrite Z, H. constructor; cbn; auto; try lia.
    - intros r Hr. lia. }
  cbn [m_rows m_cols m_values crs_empty].
  assert (S0 : set_nth (repeat 0%nat (S nr)) 0 0%nat = repeat 0%nat (S nr)) by reflexivity.
  rewrite S0. clear S0.
  assert (NL : forall i, (i < t_nnz t)%nat ->
     swap_cell tr (t_cell t (nth i index 0%nat)) = nth i L (swap_cell tr (t_cell t 0%nat))).
  { intros i Hi. unfold L. now rewrite (map_nth (fun i => swap_cell tr (t_cell t i))). }
  set (e0 := swap_cell tr (t_cell t 0%nat)) in *.
  assert (FOLD : fold_left (fill_step tr t index) (range 0 (length index))
       (repeat 0%nat (S nr), repeat 0%nat (t_nnz t), repeat 0 (t_nnz t)) =
     (fold_left (fun a e => incr a (S (c_row e))) L (repeat 0%nat (S nr)),
      map c_col L, map c_val L)).
  { unfold fill_step.
    rewrite (fold_triple
      (fun rows i => incr rows (S (c_row (swap_cell tr (t_cell t (nth i index 0%nat))))))
      (fun cols i => set_nth cols i (c_col (swap_cell tr (t_cell t (nth i index 0%nat)))))
      (fun vals i => set_nth vals i (c_val (swap_cell tr (t_cell t (nth i index 0%nat)))))).
    rewrite LI, !fill_all.
    assert (ML : map (fun i => swap_cell tr (t_cell t (nth i index 0%nat))) (range 0 (t_nnz t)) = L).
    { rewrite (map_nth_range (fun i => swap_cell tr (t_cell t i)) 0%nat index 0 (t_nnz t)) by lia.
      cbn [skipn]. rewrite firstn_all2 by lia. reflexivity. }
    f_equal; [f_equal|].
    - rewrite <- ML, fold_left_map. reflexivity.
    - rewrite <- ML, map_map. reflexivity.
    - rewrite <- ML, map_map. reflexivity. }
  rewrite FOLD. clear FOLD.
  destruct (starts_spec c_row nr L) as [LR SR]. { intros e I. now apply BND. }
  cbv zeta in LR, SR.
  set (rows := cumulate nr _) in *.
  set (m := mkcrs nr nc rows (map c_col L) (map c_val L) Unsymmetric [] []).
  assert (RA : forall i, (i <= nr)%nat -> row_at m i = start c_row i L) by exact SR.
  assert (NN : num_nonzeros m = t_nnz t).
  { unfold num_nonzeros. cbn [m_num_rows m]. rewrite RA by lia.
    rewrite (start_all _ nr); [auto|]. intros e I. now apply BND. }
  fold m. rewrite NN, Nat.eqb_refl. exists m. split; [auto|]. split; [auto|]. split; [auto|].
  split; [auto|].
  assert (CV : forall i, (i < t_nnz t)%nat ->
      col_at m i = c_col (nth i L cell0) /\ val_at m i = c_val (nth i L cell0)).
  { intros i Hi. unfold col_at, val_at, m. cbn [m_cols m_values]. split.
    - exact (map_nth c_col L cell0 i).
    - exact (map_nth c_val L cell0 i). }
  split.
  - constructor.
    + exact LR.
    + rewrite RA by lia. apply start_0.
    + cbn [m_num_rows m]. intros r Hr. rewrite !RA by lia. apply start_mono. lia.
    + rewrite NN. cbn [m_cols m]. rewrite map_length. lia.
    + cbn [m_cols m_values m]. now rewrite !map_length.
    + rewrite NN. intros i Hi. destruct (CV i Hi) as [-> _]. cbn [m_num_cols m].
      apply BND. apply nth_In. lia.
  - intros r Hr. unfold row_entries, row_range. rewrite !RA by lia.
    rewrite <- sorted_block by auto.
    rewrite <- (map_nth_range (fun e => (c_col e, c_val e)) cell0 L).
    2:{ pose proof (start_mono c_row (S r) nr L Hr) as M.
        rewrite (start_all c_row nr) in M; [lia|]. intros e I. now apply BND. }
    apply map_ext_in. intros i I. apply in_range_range in I.
    assert (i < t_nnz t)%nat.
    { pose proof (start_mono c_row (S r) nr L Hr) as M.
      rewrite (start_all c_row nr) in M; [lia|]. intros e I'. now apply BND. }
    destruct (CV i H) as [-> ->]. reflexivity.
Qed.

Lemma rowval_filter L r c :
  rowval (map (fun e => (c_col e, c_val e)) (filter (fun e => Nat.eqb (c_row e) r) L)) c =
  matrix_of L r c.
Proof.
  unfold rowval. rewrite suml_map. cbn [fst snd].
  induction L as [|e L IH]; cbn [filter matrix_of suml]; [auto|].
  destruct (Nat.eqb (c_row e) r); cbn [suml andb]; rewrite IH; lra.
Qed.

Lemma swap_cell_matrix tr es r c :
  matrix_of (map (swap_cell tr) es) r c = if tr then matrix_of es c r else matrix_of es r c.
Proof.
  destruct tr; unfold swap_cell.
  - apply matrix_of_swap.
  - now rewrite map_id.
Qed.
