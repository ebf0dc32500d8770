(* Lemmas for C45: diagonal and block diagonal matrices. *)

From Coq Require Import List Arith Bool Reals Permutation Sorted Lia Lra.
From Verif Require Import SparseModel SparseSpec SparseProofs SparseProofs2 SparseProofs3 SparseProofs4.
Import ListNotations.
Local Open Scope R_scope.

(* ---- a matrix given by the list of its rows ---- *)

Definition starts_of (rows : list (list (nat * R))) : list nat :=
  map (fun i => length (concat (firstn i rows))) (range 0 (S (length rows))).

Lemma starts_of_nth rows i : (i <= length rows)%nat ->
  nth i (starts_of rows) 0%nat = length (concat (firstn i rows)).
Proof.
  intros Hi. unfold starts_of.
  rewrite (nth_indep _ 0%nat (length (concat (firstn 0 rows)))) by (rewrite map_length, range_length; lia).
  rewrite (map_nth (fun i => length (concat (firstn i rows)))).
  unfold range. rewrite seq_nth by lia. reflexivity.
Qed.

Lemma concat_firstn_S (rows : list (list (nat * R))) i : (i < length rows)%nat ->
  concat (firstn (S i) rows) = concat (firstn i rows) ++ nth i rows [].
Proof.
  revert i. induction rows as [|r rows IH]; intros i Hi; [cbn in Hi; lia|].
  destruct i; [cbn; now rewrite app_nil_r|]. cbn [length] in Hi.
  change (r ++ concat (firstn (S i) rows) = (r ++ concat (firstn i rows)) ++ nth i rows []).
  rewrite IH by lia. now rewrite app_assoc.
Qed.

Lemma rows_list_shape n rows (m : crs) :
  m_num_rows m = length rows -> m_num_cols m = n -> m_rows m = starts_of rows ->
  m_cols m = map fst (concat rows) -> m_values m = map snd (concat rows) ->
  (forall l cv, In l rows -> In cv l -> (fst cv < n)%nat) ->
  m_valid m /\ (forall r, (r < length rows)%nat -> row_entries m r = nth r rows []) /\
  num_nonzeros m = length (concat rows).
Proof.
  intros NR NC RO CO VA BD.
  assert (RA : forall i, (i <= length rows)%nat -> row_at m i = length (concat (firstn i rows))).
  { intros i Hi. unfold row_at. rewrite RO. now apply starts_of_nth. }
  assert (NN : num_nonzeros m = length (concat rows)).
  { unfold num_nonzeros. rewrite NR, RA by lia. now rewrite firstn_all. }
  split; [|split; [|auto]].
  - constructor.
    + rewrite RO, NR. unfold starts_of. rewrite map_length, range_length. lia.
    + rewrite RA by lia. reflexivity.
    + rewrite NR. intros r Hr. rewrite !RA by lia. rewrite concat_firstn_S, app_length by auto. lia.
    + rewrite NN, CO, map_length. lia.
    + rewrite CO, VA. now rewrite !map_length.
    + rewrite NN, NC. intros i Hi. unfold col_at. rewrite CO.
      assert (J : In (nth i (concat rows) (0%nat, 0)) (concat rows)) by (apply nth_In; auto).
      pose proof (map_nth fst (concat rows) (0%nat, 0) i) as Q. cbn [fst] in Q. rewrite Q.
      apply in_concat in J as (l & I1 & I2). now apply (BD l).
  - intros r Hr. unfold row_entries, row_range. rewrite !RA by lia.
    rewrite concat_firstn_S, app_length by auto.
    apply (list_of_range _ _ _ _ (0%nat, 0)); [auto|].
    intros j Hj. unfold col_at, val_at. rewrite CO, VA.
    set (k := (length (concat (firstn r rows)) + j)%nat).
    pose proof (map_nth fst (concat rows) (0%nat, 0) k) as Q1. cbn [fst] in Q1. rewrite Q1.
    pose proof (map_nth snd (concat rows) (0%nat, 0) k) as Q2. cbn [snd] in Q2. rewrite Q2.
    unfold k. clear k Q1 Q2.
    rewrite <- surjective_pairing.
    assert (SP : concat rows = concat (firstn r rows) ++ nth r rows [] ++ concat (skipn (S r) rows)).
    { transitivity (concat (firstn (S r) rows ++ skipn (S r) rows)); [now rewrite firstn_skipn|].
      now rewrite concat_app, concat_firstn_S, <- app_assoc. }
    rewrite SP, app_nth2 by lia.
    replace (length (concat (firstn r rows)) + j - length (concat (firstn r rows)))%nat with j by lia.
    now rewrite app_nth1 by auto.
Qed.

(* ---- the diagonal matrix ---- *)

Lemma diag_rows n : forall a, (n < length a)%nat ->
  let a' := fold_left (fun l i => set_nth l (S i) (S i)) (range 0 n) a in
  length a' = length a /\
  forall i, nth i a' 0%nat = if (1 <=? i)%nat && (i <=? n)%nat then i else nth i a 0%nat.
Proof.
  induction n as [|n IH]; intros a Ha a'.
  - split; [reflexivity|]. intros i. destruct (Nat.leb_spec 1 i), (Nat.leb_spec i 0); cbn; auto; lia.
  - unfold a'. rewrite range_S, fold_left_app by lia. cbn [fold_left].
    destruct (IH a) as [L E]; [lia|]. cbv zeta in *. split; [now rewrite set_nth_length|].
    intros i. destruct (Nat.eq_dec i (S n)) as [->|].
    + rewrite set_nth_same by lia. rewrite Nat.leb_refl. reflexivity.
    + rewrite set_nth_other, E by lia.
      destruct (Nat.leb_spec 1 i), (Nat.leb_spec i n), (Nat.leb_spec i (S n)); cbn [andb]; auto; lia.
Qed.

Lemma crs_diagonal_shape d n : exists m, crs_diagonal d n = Some m /\
  m_num_rows m = n /\ m_num_cols m = n /\ m_storage m = Unsymmetric /\ m_valid m /\
  (forall r, (r < n)%nat -> row_entries m r = [(r, d r)]).
Proof.
  unfold crs_diagonal.
  rewrite (fold_triple (fun rows i => set_nth rows (S i) (S i)) (fun cols i => set_nth cols i i)
             (fun vals i => set_nth vals i (d i))).
  rewrite (fill_all (fun i => i)), fill_all.
  change (set_nth (repeat 0%nat (S n)) 0 0%nat) with (repeat 0%nat (S n)).
  destruct (diag_rows n (repeat 0%nat (S n))) as [L E]; [rewrite repeat_length; lia|].
  cbv zeta in *. rewrite repeat_length in L. set (rows := fold_left _ _ _) in *.
  set (m := mkcrs _ _ _ _ _ _ _ _).
  set (rl := map (fun r => [(r, d r)]) (range 0 n)).
  assert (LR : length rl = n) by (unfold rl; rewrite map_length, range_length; lia).
  assert (CC : forall k, (k <= n)%nat -> concat (firstn k rl) = map (fun r => (r, d r)) (range 0 k)).
  { intros k Hk. unfold rl. rewrite firstn_map.
    replace (firstn k (range 0 n)) with (range 0 k).
    2:{ rewrite <- (range_app 0 k n) by lia. rewrite firstn_app, range_length.
        rewrite firstn_all2 by (rewrite range_length; lia).
        replace (k - (k - 0))%nat with 0%nat by lia. cbn. now rewrite app_nil_r. }
    generalize (range 0 k). intros l. induction l; cbn; congruence. }
  assert (RS : rows = starts_of rl).
  { apply (nth_ext_len 0%nat).
    - unfold starts_of. rewrite map_length, range_length. lia.
    - rewrite L. intros i Hi. rewrite E, starts_of_nth, CC by lia.
      rewrite map_length, range_length.
      destruct (Nat.leb_spec 1 i), (Nat.leb_spec i n); cbn [andb]; try lia.
      rewrite nth_repeat. lia. }
  assert (CA : concat rl = map (fun r => (r, d r)) (range 0 n)).
  { rewrite <- (firstn_all rl), LR. now apply CC. }
  destruct (rows_list_shape n rl m) as (V & RE & NN).
  { now rewrite LR. }
  { reflexivity. }
  { exact RS. }
  { rewrite CA, map_map. reflexivity. }
  { rewrite CA, map_map. reflexivity. }
  { intros l cv I1 I2. unfold rl in I1. apply in_map_iff in I1 as (r & <- & I1).
    apply in_range_range in I1. destruct I2 as [<-|[]]. cbn. lia. }
  rewrite NN, CA, map_length, range_length, Nat.sub_0_r, Nat.eqb_refl.
  exists m. split; [auto|]. split; [auto|]. split; [auto|]. split; [auto|]. split; [auto|].
  intros r Hr. rewrite RE by lia. unfold rl.
  rewrite (nth_indep _ [] [(0%nat, d 0%nat)]) by (rewrite map_length, range_length; lia).
  rewrite (map_nth (fun r => [(r, d r)])). unfold range. rewrite seq_nth by lia. reflexivity.
Qed.

(* ---- the block diagonal matrix ---- *)

Definition dval (diag : option (nat -> R)) (i : nat) : R :=
  match diag with Some d => d i | None => 0 end.

Definition bd_one (diag : option (nat -> R)) (pos size r : nat) : list (nat * R) :=
  map (fun c => ((pos + c)%nat, if Nat.eqb c r then dval diag (pos + r) else 0)) (range 0 size).

Definition bd_block (diag : option (nat -> R)) (b : nat * nat) : list (list (nat * R)) :=
  map (bd_one diag (snd b) (fst b)) (range 0 (fst b)).

(* the part written so far *)
Definition bd_inv (N K pos : nat) (rows : list (list (nat * R))) (s : bd_state) : Prop :=
  exists X Y Z,
    bd_rows s = map (fun i => length (concat (firstn i rows))) (range 0 (length rows)) ++ X /\
    bd_cols s = map fst (concat rows) ++ Y /\
    bd_vals s = map snd (concat rows) ++ repeat 0 Z /\
    length (bd_rows s) = N /\ length (bd_cols s) = K /\ length (bd_vals s) = K /\
    bd_row s = length rows /\ bd_idx s = length (concat rows) /\ bd_col s = pos.

Lemma set_nth_app {A} (l X : list A) x y : set_nth (l ++ y :: X) (length l) x = l ++ x :: X.
Proof. induction l; cbn; congruence. Qed.

Lemma set_nth_app_r {A} (l X : list A) i x :
  set_nth (l ++ X) (length l + i) x = l ++ set_nth X i x.
Proof. induction l; cbn; congruence. Qed.

Lemma bd_cols_loop pos size : forall C Y, (size <= length Y)%nat ->
  fold_left (fun (st : list nat * nat) c => (set_nth (fst st) (snd st) (pos + c)%nat, S (snd st)))
    (range 0 size) (C ++ Y, length C) =
  ((C ++ map (fun c => (pos + c)%nat) (range 0 size)) ++ skipn size Y, (length C + size)%nat).
Proof.
  induction size as [|k IH]; intros C Y HY.
  - cbn. rewrite app_nil_r, Nat.add_0_r. reflexivity.
  - rewrite range_S, fold_left_app by lia. rewrite IH by lia. cbn [fold_left fst snd].
    f_equal; [|lia].
    destruct (skipn k Y) as [|y Y'] eqn:E.
    { exfalso. apply (f_equal (@length nat)) in E. rewrite skipn_length in E. cbn in E. lia. }
    replace (length C + k)%nat with (length (C ++ map (fun c => (pos + c)%nat) (range 0 k)))
      by (rewrite app_length, map_length, range_length; lia).
    rewrite set_nth_app. rewrite map_app. cbn [map].
    rewrite (skipn_S k Y), E. cbn [skipn]. now rewrite <- !app_assoc.
Qed.

Lemma set_zeros d r size Z : (r < size)%nat -> (size <= Z)%nat ->
  set_nth (repeat 0 Z) r d = map (fun c => if Nat.eqb c r then d else 0) (range 0 size) ++ repeat 0 (Z - size).
Proof.
  intros Hr HZ. apply (nth_ext_len 0).
  - rewrite set_nth_length, repeat_length, app_length, map_length, range_length, repeat_length. lia.
  - rewrite set_nth_length, repeat_length. intros i Hi.
    destruct (Nat.lt_ge_cases i size).
    + rewrite app_nth1 by (rewrite map_length, range_length; lia).
      rewrite (nth_indep (map _ _) 0 ((fun c => if Nat.eqb c r then d else 0) 0%nat))
        by (rewrite map_length, range_length; lia).
      rewrite (map_nth (fun c => if Nat.eqb c r then d else 0)). unfold range.
      rewrite seq_nth by lia. cbn [Nat.add].
      destruct (Nat.eqb_spec i r) as [->|].
      * apply set_nth_same. rewrite repeat_length. lia.
      * rewrite set_nth_other by auto. apply nth_repeat.
    + rewrite app_nth2 by (rewrite map_length, range_length; lia).
      rewrite nth_repeat, set_nth_other by lia. apply nth_repeat.
Qed.

Lemma no_diag size Z : (size <= Z)%nat ->
  repeat 0 Z = map (fun _ : nat => 0) (range 0 size) ++ repeat 0 (Z - size).
Proof.
  intros H. replace Z with (size + (Z - size))%nat at 1 by lia. rewrite repeat_app. f_equal.
  unfold range. rewrite Nat.sub_0_r. clear. generalize 0%nat.
  induction size as [|k IH]; intros a; cbn; [auto|]. now rewrite (IH (S a)).
Qed.

Lemma firstn_le_app {A} (l l' : list A) i : (i <= length l)%nat -> firstn i (l ++ l') = firstn i l.
Proof.
  intros H. rewrite firstn_app. replace (i - length l)%nat with 0%nat by lia.
  cbn. apply app_nil_r.
Qed.

Lemma bd_row_inv diag size N K pos rows s r : bd_inv N K pos rows s -> (r < size)%nat ->
  (length rows < N)%nat -> (length (concat rows) + size <= K)%nat ->
  bd_inv N K pos (rows ++ [bd_one diag pos size r]) (bd_row_step diag size s r).
Proof.
  intros (X & Y & Z & A1 & A2 & A3 & L1 & L2 & L3 & B1 & B2 & B3) Hr HN HK.
  assert (LX : length X = (N - length rows)%nat).
  { rewrite A1, app_length, map_length, range_length in L1. lia. }
  assert (LY : length Y = (K - length (concat rows))%nat).
  { rewrite A2, app_length, map_length in L2. lia. }
  assert (LZ : Z = (K - length (concat rows))%nat).
  { rewrite A3, app_length, map_length, repeat_length in L3. lia. }
  destruct X as [|x X]; [cbn in LX; lia|].
  set (row := bd_one diag pos size r).
  assert (LR : length row = size) by (unfold row, bd_one; rewrite map_length, range_length; lia).
  assert (CC : concat (rows ++ [row]) = concat rows ++ row).
  { rewrite concat_app. cbn [concat]. now rewrite app_nil_r. }
  unfold bd_row_step. rewrite B3, A2, B2.
  rewrite <- (map_length fst (concat rows)). rewrite bd_cols_loop by lia.
  exists X, (skipn size Y), (Z - size)%nat. cbn [bd_rows bd_cols bd_vals bd_row bd_idx bd_col].
  assert (SET : set_nth (bd_rows s) (bd_row s) (length (map fst (concat rows))) =
    map (fun i => length (concat (firstn i (rows ++ [row])))) (range 0 (length (rows ++ [row]))) ++ X).
  { rewrite A1, B1.
    pose proof (set_nth_app (map (fun i => length (concat (firstn i rows))) (range 0 (length rows)))
      X (length (map fst (concat rows))) x) as Q.
    rewrite map_length, range_length, Nat.sub_0_r in Q. rewrite Q. clear Q. rewrite app_length. cbn [length].
    rewrite Nat.add_1_r, range_S, map_app by lia. cbn [map]. rewrite <- app_assoc. f_equal.
    - apply map_ext_in. intros i I. apply in_range_range in I. rewrite firstn_le_app by lia. reflexivity.
    - cbn [app]. rewrite firstn_le_app, firstn_all by lia. now rewrite map_length. }
  split; [exact SET|].
  split. { rewrite CC, map_app. f_equal. f_equal. unfold row, bd_one. now rewrite map_map. }
  assert (VAL : match diag with
     | Some d => set_nth (bd_vals s) (length (map fst (concat rows)) + r) (d (pos + r)%nat)
     | None => bd_vals s end = map snd (concat (rows ++ [row])) ++ repeat 0 (Z - size)).
  { rewrite CC, map_app, A3, map_length. rewrite <- app_assoc.
    unfold row, bd_one, dval. rewrite map_map. cbn [snd]. destruct diag as [d|].
    - rewrite <- (map_length snd (concat rows)), set_nth_app_r. f_equal.
      apply set_zeros; lia.
    - f_equal. rewrite (no_diag size Z) by lia. f_equal. apply map_ext. intros c.
      now destruct (Nat.eqb c r). }
  split; [exact VAL|].
  split. { rewrite set_nth_length. exact L1. }
  split. { rewrite !app_length, !map_length, range_length, skipn_length. lia. }
  split. { destruct diag; [rewrite set_nth_length|]; exact L3. }
  split. { rewrite app_length. cbn. lia. }
  split; [|auto]. rewrite CC, app_length, map_length, LR. reflexivity.
Qed.

Lemma concat_const (f : nat -> list (nat * R)) size k : (forall r, length (f r) = size) ->
  length (concat (map f (range 0 k))) = (k * size)%nat.
Proof.
  intros H. induction k as [|k IH]; [reflexivity|].
  rewrite range_S, map_app, concat_app, app_length, IH by lia. cbn [map concat].
  rewrite app_nil_r, H. lia.
Qed.

Lemma bd_rows_inv diag size N K pos k : forall rows s, bd_inv N K pos rows s -> (k <= size)%nat ->
  (length rows + k <= N)%nat -> (length (concat rows) + k * size <= K)%nat ->
  bd_inv N K pos (rows ++ map (bd_one diag pos size) (range 0 k))
    (fold_left (bd_row_step diag size) (range 0 k) s).
Proof.
  induction k as [|k IH]; intros rows s I Hk HN HK.
  - cbn. now rewrite app_nil_r.
  - rewrite range_S, fold_left_app, map_app, app_assoc by lia. cbn [fold_left map].
    apply bd_row_inv; [apply IH; auto; try lia| | |]; try lia.
    + rewrite app_length, map_length, range_length. lia.
    + rewrite concat_app, app_length.
      rewrite (concat_const _ size) by (intros; unfold bd_one; rewrite map_length, range_length; lia). lia.
Qed.

Definition squares (blocks : list (nat * nat)) : nat := list_sum (map (fun b => (fst b * fst b)%nat) blocks).

Lemma bd_blocks_inv diag N K blocks : forall pos rows s, bd_inv N K pos rows s ->
  consecutive pos blocks ->
  (length rows + total_size blocks <= N)%nat ->
  (length (concat rows) + squares blocks <= K)%nat ->
  bd_inv N K (pos + total_size blocks) (rows ++ flat_map (bd_block diag) blocks)
    (fold_left (bd_block_step diag) blocks s).
Proof.
  induction blocks as [|b blocks IH]; intros pos rows s I C HN HK.
  - cbn. now rewrite app_nil_r, Nat.add_0_r.
  - destruct C as [P C]. cbn [fold_left flat_map].
    assert (T : total_size (b :: blocks) = (fst b + total_size blocks)%nat) by reflexivity.
    assert (Q : squares (b :: blocks) = (fst b * fst b + squares blocks)%nat) by reflexivity.
    rewrite T in *. rewrite Q in *. rewrite app_assoc, Nat.add_assoc.
    pose proof (bd_rows_inv diag (fst b) N K pos (fst b) rows s I (le_n _)) as J.
    assert (B : bd_block diag b = map (bd_one diag pos (fst b)) (range 0 (fst b)))
      by (unfold bd_block; now rewrite P).
    apply IH; [| exact C | |].
    + rewrite B. specialize (J ltac:(lia) ltac:(lia)).
      destruct J as (X & Y & Z & A1 & A2 & A3 & L1 & L2 & L3 & B1 & B2 & B3).
      exists X, Y, Z. unfold bd_block_step. cbn [bd_rows bd_cols bd_vals bd_row bd_idx bd_col].
      split; [auto|]. split; [auto|]. split; [auto|]. split; [auto|]. split; [auto|].
      split; [auto|]. split; [auto|]. split; [auto|]. lia.
    + rewrite B, app_length, map_length, range_length. lia.
    + rewrite B, concat_app, app_length.
      rewrite (concat_const _ (fst b)) by (intros; unfold bd_one; rewrite map_length, range_length; lia). lia.
Qed.

Lemma total_length diag blocks : length (flat_map (bd_block diag) blocks) = total_size blocks.
Proof.
  induction blocks as [|b blocks IH]; [reflexivity|]. cbn [flat_map].
  rewrite app_length, IH. unfold bd_block. rewrite map_length, range_length, Nat.sub_0_r. reflexivity.
Qed.

Lemma squares_length diag blocks : length (concat (flat_map (bd_block diag) blocks)) = squares blocks.
Proof.
  induction blocks as [|b blocks IH]; [reflexivity|]. cbn [flat_map].
  rewrite concat_app, app_length, IH. unfold bd_block.
  rewrite (concat_const _ (fst b)) by (intros; unfold bd_one; rewrite map_length, range_length; lia).
  reflexivity.
Qed.

Lemma squares_fold blocks : forall n,
  fold_left (fun n b => (n + fst b * fst b)%nat) blocks n = (n + squares blocks)%nat.
Proof.
  induction blocks as [|b blocks IH]; intros n; cbn [fold_left]; [cbn; lia|]. rewrite IH.
  change (squares (b :: blocks)) with (fst b * fst b + squares blocks)%nat. lia.
Qed.

Lemma last_end blocks : forall pos, consecutive pos blocks -> blocks <> [] ->
  num_scalar_entries blocks = (pos + total_size blocks)%nat.
Proof.
  induction blocks as [|b blocks IH]; intros pos C NE; [congruence|]. destruct C as [P C].
  destruct blocks as [|b' blocks].
  - cbn. lia.
  - assert (E : num_scalar_entries (b :: b' :: blocks) = num_scalar_entries (b' :: blocks)).
    { unfold num_scalar_entries. cbn [rev]. destruct (rev blocks ++ [b']) eqn:Q; [|reflexivity].
      apply (f_equal (@length _)) in Q. rewrite app_length in Q. cbn in Q. lia. }
    rewrite E. change (total_size (b :: b' :: blocks)) with (fst b + total_size (b' :: blocks))%nat.
    rewrite (IH _ C) by discriminate. lia.
Qed.

Lemma scalar_total blocks : consecutive 0 blocks -> num_scalar_entries blocks = total_size blocks.
Proof.
  intros C. destruct blocks as [|b blocks]; [reflexivity|]. now rewrite (last_end _ 0 C).
Qed.

Lemma block_of diag blocks : forall pos r, consecutive pos blocks -> (r < total_size blocks)%nat ->
  exists b, In b blocks /\ (snd b <= pos + r < snd b + fst b)%nat /\
    (pos <= snd b)%nat /\ (snd b + fst b <= pos + total_size blocks)%nat /\
    nth r (flat_map (bd_block diag) blocks) [] = bd_one diag (snd b) (fst b) (pos + r - snd b).
Proof.
  induction blocks as [|b blocks IH]; intros pos r C Hr; [cbn in Hr; lia|].
  destruct C as [P C]. change (total_size (b :: blocks)) with (fst b + total_size blocks)%nat in *.
  cbn [flat_map].
  assert (LB : length (bd_block diag b) = fst b) by (unfold bd_block; rewrite map_length, range_length; lia).
  destruct (Nat.lt_ge_cases r (fst b)).
  - exists b. split; [now left|]. split; [lia|]. split; [lia|]. split; [lia|].
    rewrite app_nth1 by lia. unfold bd_block.
    rewrite (nth_indep _ [] (bd_one diag (snd b) (fst b) 0)) by (rewrite map_length, range_length; lia).
    rewrite map_nth. f_equal. unfold range. rewrite seq_nth by lia. lia.
  - destruct (IH (pos + fst b)%nat (r - fst b)%nat C) as (b' & I & H1 & H2 & H3 & H4); [lia|].
    exists b'. split; [now right|]. split; [lia|]. split; [lia|]. split; [lia|].
    rewrite app_nth2 by lia. rewrite LB, H4. f_equal. lia.
Qed.

Lemma block_diagonal_shape diag blocks : consecutive 0 blocks ->
  exists m, block_diagonal diag blocks = Some m /\
    m_num_rows m = total_size blocks /\ m_num_cols m = total_size blocks /\
    m_storage m = Unsymmetric /\ m_row_blocks m = blocks /\ m_col_blocks m = blocks /\ m_valid m /\
    (forall r, (r < total_size blocks)%nat -> exists b, In b blocks /\
       (snd b <= r < snd b + fst b)%nat /\ (snd b + fst b <= total_size blocks)%nat /\
       row_entries m r = map (fun c => (c, if Nat.eqb c r then dval diag r else 0))
                           (range (snd b) (snd b + fst b))).
Proof.
  intros C. unfold block_diagonal. rewrite (scalar_total blocks C), squares_fold. cbn [Nat.add].
  set (n := total_size blocks). set (q := squares blocks).
  pose proof (bd_blocks_inv diag (S n) q blocks 0 []
    (mkbd (repeat 0%nat (S n)) (repeat 0%nat q) (repeat 0 q) 0 0 0)) as I.
  destruct I as (X & Y & Z & A1 & A2 & A3 & L1 & L2 & L3 & B1 & B2 & B3).
  { exists (repeat 0%nat (S n)), (repeat 0%nat q), q.
    cbn [bd_rows bd_cols bd_vals bd_row bd_idx bd_col].
    split; [reflexivity|]. split; [reflexivity|]. split; [reflexivity|].
    rewrite !repeat_length. auto 10. }
  { exact C. }
  { cbn [length]. fold n. lia. }
  { cbn [length concat]. fold q. lia. }
  cbn [app Nat.add] in *. set (s := fold_left (bd_block_step diag) blocks _) in *.
  set (rows := flat_map (bd_block diag) blocks) in *.
  assert (LR : length rows = n) by apply total_length.
  assert (LC : length (concat rows) = q) by apply squares_length.
  rewrite B2, B3, LC. fold n. rewrite !Nat.eqb_refl. cbn [negb].
  set (m := mkcrs _ _ _ _ _ _ _ _). exists m.
  destruct (rows_list_shape n rows m) as (V & RE & _).
  { now rewrite LR. }
  { reflexivity. }
  { cbn [m_rows m]. rewrite A1, B1, LR.
    assert (LX : length X = 1%nat).
    { rewrite A1, app_length, map_length, range_length in L1. lia. }
    destruct X as [|x [|? ?]]; try discriminate.
    pose proof (set_nth_app (map (fun i => length (concat (firstn i rows))) (range 0 n)) [] q x) as Q.
    rewrite map_length, range_length, Nat.sub_0_r in Q. rewrite Q. clear Q. unfold starts_of. rewrite LR, range_S, map_app by lia. cbn [map].
    do 2 f_equal. rewrite firstn_all2 by lia. auto. }
  { cbn [m_cols m]. rewrite A2. rewrite A2, app_length, map_length in L2.
    destruct Y; [apply app_nil_r|cbn in L2; lia]. }
  { cbn [m_values m]. rewrite A3. rewrite A3, app_length, map_length, repeat_length in L3.
    replace Z with 0%nat by lia. apply app_nil_r. }
  { intros l cv I1 I2. apply (In_nth _ _ []) in I1 as (r & Hr & <-). rewrite LR in Hr.
    destruct (block_of diag blocks 0 r C) as (b & _ & H1 & _ & H3 & H4); [fold n; lia|].
    fold rows in H4. rewrite H4 in I2. unfold bd_one in I2. apply in_map_iff in I2 as (c & <- & I2).
    apply in_range_range in I2. cbn [fst]. fold n in H3. lia. }
  split; [auto|]. split; [auto|]. split; [auto|]. split; [auto|]. split; [auto|]. split; [auto|].
  split; [auto|].
  intros r Hr. destruct (block_of diag blocks 0 r C Hr) as (b & IB & H1 & _ & H3 & H4).
  exists b. split; [auto|]. split; [lia|]. split; [exact H3|].
  rewrite RE by lia. fold rows in H4. rewrite H4. unfold bd_one.
  unfold range. rewrite Nat.sub_0_r. replace (snd b + fst b - snd b)%nat with (fst b) by lia.
  assert (G : forall k a, map (fun c => ((snd b + c)%nat,
       if Nat.eqb c (0 + r - snd b) then dval diag (snd b + (0 + r - snd b)) else 0)) (seq a k) =
     map (fun c => (c, if Nat.eqb c r then dval diag r else 0)) (seq (snd b + a) k)).
  { induction k as [|k IH]; intros a; cbn [seq map]; [auto|]. rewrite IH.
    replace (S (snd b + a)) with (snd b + S a)%nat by lia. f_equal. f_equal.
    replace (snd b + (0 + r - snd b))%nat with r by lia.
    destruct (Nat.eqb_spec a (0 + r - snd b)), (Nat.eqb_spec (snd b + a) r); auto; lia. }
  rewrite (G (fst b) 0%nat). now rewrite Nat.add_0_r.
Qed.

(* ---- no entry is lost or duplicated by bucketing ---- *)

Lemma bucket_perm {A} (key : A -> nat) (l : list A) n : (forall a, In a l -> (key a < n)%nat) ->
  Permutation (flat_map (fun k => filter (fun a => Nat.eqb (key a) k) l) (seq 0 n)) l.
Proof.
  induction l as [|a l IH]; intros H.
  - replace (flat_map _ (seq 0 n)) with (@nil A); [constructor|].
    generalize (seq 0 n). induction l as [|k l IH]; cbn; auto.
  - assert (Ha : (key a < n)%nat) by (apply H; now left).
    transitivity (a :: flat_map (fun k => filter (fun a => Nat.eqb (key a) k) l) (seq 0 n)).
    2:{ constructor. apply IH. intros. apply H. now right. }
    clear IH H. replace n with (key a + (1 + (n - key a - 1)))%nat by lia.
    rewrite !seq_app, !flat_map_app. cbn [seq flat_map Nat.add].
    assert (G : forall s, (forall k, In k s -> k <> key a) ->
       flat_map (fun k => filter (fun a => Nat.eqb (key a) k) (a :: l)) s =
       flat_map (fun k => filter (fun a => Nat.eqb (key a) k) l) s).
    { induction s as [|k s IH]; intros Q; cbn [flat_map]; [auto|].
      rewrite IH by (intros; apply Q; now right). f_equal. cbn [filter].
      destruct (Nat.eqb_spec (key a) k); [|auto].
      exfalso. apply (Q k); [now left|auto]. }
    rewrite !G by (intros k I; apply in_seq in I; lia).
    cbn [filter]. rewrite Nat.eqb_refl, !app_nil_r. cbn [app].
    symmetry. apply Permutation_middle.
Qed.

Lemma no_dup_perm a b : Permutation a b -> no_duplicates a -> no_duplicates b.
Proof. intros P N. unfold no_duplicates. eapply Permutation_NoDup; [apply Permutation_map, P|exact N]. Qed.

Lemma no_dup_swap tr es : no_duplicates es -> no_duplicates (map (swap_cell tr) es).
Proof.
  destruct tr; unfold swap_cell; [|now rewrite map_id]. unfold no_duplicates. rewrite map_map. cbn.
  induction es as [|e es IH]; cbn; intros N; constructor; inversion N; subst.
  - intros I. apply in_map_iff in I as (e' & Q & I). injection Q as Q1 Q2. apply H1.
    unfold c_row, c_col in *. replace (fst e) with (fst e'); [now apply in_map|].
    destruct (fst e), (fst e'). cbn in *. congruence.
  - auto.
Qed.

Lemma entries_of_rows m (L : list cell) :
  (forall r, (r < m_num_rows m)%nat -> row_entries m r =
     map (fun e => (c_col e, c_val e)) (filter (fun e => Nat.eqb (c_row e) r) L)) ->
  (forall e, In e L -> (c_row e < m_num_rows m)%nat) ->
  Permutation (m_entries m) L.
Proof.
  intros H B. etransitivity; [|apply (bucket_perm c_row L (m_num_rows m) B)].
  unfold m_entries.
  assert (G : forall s, (forall r, In r s -> (r < m_num_rows m)%nat) ->
     flat_map (fun r => map (fun cv => (r, fst cv, snd cv)) (row_entries m r)) s =
     flat_map (fun k => filter (fun a => Nat.eqb (c_row a) k) L) s).
  { induction s as [|r s IH]; intros Q; cbn [flat_map]; [auto|].
    rewrite IH by (intros; apply Q; now right).
    rewrite H by (apply Q; now left). rewrite map_map. cbn [fst snd].
    apply (f_equal (fun a => a ++ _)).
    clear. induction L as [|e L IHL]; cbn [filter map]; [auto|].
    destruct (Nat.eqb_spec (c_row e) r); cbn [map]; [|auto]. rewrite IHL. f_equal.
    subst. destruct e as [[? ?] ?]. reflexivity. }
  rewrite G; [reflexivity|]. intros r I. apply in_seq in I. lia.
Qed.

Lemma from_triplet_entries tr t index m : t_valid t -> sorts tr t index ->
  from_triplet tr t index = Some m ->
  Permutation (m_entries m) (map (swap_cell tr) (t_entries t)).
Proof.
  intros V S E. destruct (from_triplet_shape tr t index V S) as (m' & E' & N1 & N2 & _ & _ & RE).
  cbv zeta in *. rewrite E in E'. injection E' as <-.
  set (L := map (fun i => swap_cell tr (t_cell t i)) index) in *.
  assert (PL : Permutation L (map (swap_cell tr) (t_entries t))).
  { unfold L. rewrite <- (t_cells t V), map_map, range_0. apply Permutation_map. apply S. }
  etransitivity; [|exact PL]. rewrite <- N1 in RE.
  apply entries_of_rows; [exact RE|].
  intros e I. apply (Permutation_in _ PL) in I. apply in_map_iff in I as (e' & <- & I).
  apply (t_in t) in I; auto. rewrite N1. unfold swap_cell. destruct tr; [|tauto].
  unfold c_row, c_col in *. cbn. tauto.
Qed.

Lemma transpose_entries m : m_valid m ->
  Permutation (m_entries (transpose m)) (map swap (m_entries m)).
Proof.
  intros V. destruct (transpose_shape m V) as (T1 & T2 & _ & RE). cbv zeta in *.
  apply entries_of_rows.
  - rewrite T1. intros c Hc. rewrite RE by auto. rewrite m_entries_pairs.
    generalize (pairs m). intros l. induction l as [|p l IH]; cbn [filter map]; [auto|].
    change (c_row (swap (cell_of m p))) with (pcol m p).
    destruct (Nat.eqb (pcol m p) c); cbn [map]; rewrite IH; reflexivity.
  - intros e I. apply in_map_iff in I as (e' & <- & I). apply entries_in in I; auto.
    rewrite T1. unfold swap, c_row, c_col in *. cbn. tauto.
Qed.
