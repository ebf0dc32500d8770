(* C65: writing the values and reading a block *)
From Coq Require Import Reals ZArith List Arith Bool Lia Lra Permutation Sorted.
From Verif Require Import SchurModel SchurProofs CGModel CGSpec SparseModel SparseSpec SparseProofs CovarianceModel ImplicitSchurSpec CovarianceSpec CovarianceProofs CovarianceProofs2.
Import ListNotations.
Open Scope nat_scope.

(* ---- concatenations ---- *)
Lemma concat_firstn_mono {A} (ll : list (list A)) a b : a <= b -> length (concat (firstn a ll)) <= length (concat (firstn b ll)).
Proof. intros H. replace b with (a + (b - a)) by lia. generalize (b - a). intros k. revert a H. induction ll as [|x ll IH]; intros a H; [rewrite !firstn_nil; auto|]. destruct a; cbn; [lia|]. rewrite !app_length. assert (b - 1 >= 0) by lia. enough (length (concat (firstn a ll)) <= length (concat (firstn (a + k) ll))) by lia. clear - ll. revert a. induction ll as [|y ll IH]; intros a; [rewrite !firstn_nil; auto|]. destruct a; cbn; [lia|]. rewrite !app_length. specialize (IH a). lia. Qed.
Lemma concat_firstn_S {A} (ll : list (list A)) k : k < length ll -> length (concat (firstn (S k) ll)) = length (concat (firstn k ll)) + length (nth k ll []).
Proof. revert k. induction ll as [|x ll IH]; intros k H; cbn in H; [lia|]. destruct k; cbn [firstn concat nth]; rewrite ?app_length; [cbn; lia|]. specialize (IH k). cbn [firstn] in IH. rewrite IH by lia. lia. Qed.
Lemma concat_nth {A} (d : A) (ll : list (list A)) k o : k < length ll -> o < length (nth k ll []) -> nth (length (concat (firstn k ll)) + o) (concat ll) d = nth o (nth k ll []) d.
Proof.
  revert k. induction ll as [|x ll IH]; intros k H K; cbn in H; [lia|]. destruct k; cbn [firstn concat nth] in *.
  - cbn. now rewrite app_nth1.
  - rewrite app_length, app_nth2 by lia. replace (length x + length (concat (firstn k ll)) + o - length x) with (length (concat (firstn k ll)) + o) by lia. apply IH; auto. lia.
Qed.
Lemma concat_bound {A} (ll : list (list A)) k : length (concat (firstn k ll)) <= length (concat ll).
Proof. rewrite <- (firstn_skipn k ll) at 2. rewrite concat_app, app_length. lia. Qed.

(* ---- writing ---- *)
Lemma set_fold (m : crs) (g : nat -> R) idxs : forall v, length (fold_left (fun v idx => set_nth v idx (g idx)) idxs v) = length v /\
  forall k, (In k idxs -> k < length v -> nth k (fold_left (fun v idx => set_nth v idx (g idx)) idxs v) 0%R = g k) /\
            (~ In k idxs -> nth k (fold_left (fun v idx => set_nth v idx (g idx)) idxs v) 0%R = nth k v 0%R).
Proof.
  induction idxs as [|i idxs IH]; intros v; cbn [fold_left].
  - split; [auto|]. intros k. split; [intros []|auto].
  - destruct (IH (set_nth v i (g i))) as [A B]. rewrite set_nth_length in A, B. split; [auto|]. intros k. destruct (B k) as [B1 B2]. split.
    + intros I K. destruct (in_dec Nat.eq_dec k idxs) as [J|J]; [auto|]. rewrite (B2 J). destruct I as [->|I]; [|tauto]. now apply set_nth_same.
    + intros N. rewrite B2 by (intros X; apply N; right; auto). apply set_nth_other. intros ->. apply N. left; auto.
Qed.
Lemma assign_fold m f order : forall v, length (fold_left (AssignRow m f) order v) = length v /\
  forall k, k < length v ->
    (forall r, In r order -> In k (row_range m r) -> (forall r', In r' order -> In k (row_range m r') -> r' = r) -> nth k (fold_left (AssignRow m f) order v) 0%R = f r (col_at m k)) /\
    ((forall r, In r order -> ~ In k (row_range m r)) -> nth k (fold_left (AssignRow m f) order v) 0%R = nth k v 0%R).
Proof.
  induction order as [|r0 order IH]; intros v; cbn [fold_left].
  - split; [auto|]. intros k K. split; [intros r []|auto].
  - destruct (set_fold m (fun idx => f r0 (col_at m idx)) (row_range m r0) v) as [S1 S2]. fold (AssignRow m f v r0) in S1, S2.
    destruct (IH (AssignRow m f v r0)) as [A B]. split; [congruence|]. intros k K. destruct (B k) as [B1 B2]; [lia|]. destruct (S2 k) as [S3 S4]. split.
    + intros r I J U. destruct (in_dec Nat.eq_dec r order) as [Q|Q].
      * apply B1; auto. intros r' I' J'. apply U; [right; auto|auto].
      * destruct I as [<-|I]; [|tauto]. rewrite B2; [apply S3; auto|]. intros r' I' J'. assert (r' = r0) by (apply U; [right; auto|auto]). congruence.
    + intros N. rewrite B2 by (intros r I; apply N; right; auto). apply S4. apply N. left; auto.
Qed.

(* ---- the walk ---- *)
Fixpoint index_in (c : nat) (l : list nat) : nat := match l with [] => 0 | x :: l' => if x =? c then 0 else S (index_in c l') end.
Lemma index_in_le c l : index_in c l <= length l.
Proof. induction l as [|x l IH]; cbn; [auto|]. destruct (x =? c); cbn; lia. Qed.
Lemma index_in_lt c l : In c l <-> index_in c l < length l.
Proof. induction l as [|x l IH]; cbn; [lia|]. destruct (Nat.eqb_spec x c); [split; [lia|auto]|]. rewrite <- Nat.succ_lt_mono, <- IH. split; [intros [|]; tauto|auto]. Qed.
Lemma index_in_skip c l o : o <= index_in c l -> index_in c l = o + index_in c (skipn o l).
Proof. revert o. induction l as [|x l IH]; intros [|o] H; cbn in *; auto; try lia. destruct (x =? c); [lia|]. cbn. f_equal. apply IH. lia. Qed.
Lemma walk_spec cols begin col row : (forall o, o < length row -> nth_error cols (begin + o) = nth_error row o) ->
  Walk (S (length row)) cols begin col (length row) 0 =
  if index_in col row <? length row then Some (index_in col row) else match nth_error cols (begin + length row) with None => None | Some _ => Some (length row) end.
Proof.
  intros H.
  enough (G : forall k o, o <= index_in col row -> length row = o + k -> Walk (S k) cols begin col (length row) o =
    if index_in col row <? length row then Some (index_in col row) else match nth_error cols (begin + length row) with None => None | Some _ => Some (length row) end).
  { apply (G (length row) 0); lia. }
  induction k as [|k IH]; intros o O E.
  - replace o with (length row) by lia. cbn [Walk]. rewrite (proj2 (Nat.ltb_ge (index_in col row) (length row))) by lia. destruct (nth_error cols (begin + length row)); [|auto]. rewrite Nat.ltb_irrefl, andb_false_r. auto.
  - cbn [Walk]. rewrite H by lia. destruct (nth_error row o) as [c|] eqn:C; [|apply nth_error_None in C; lia].
    assert (SK : exists rest, skipn o row = c :: rest). { clear - C. revert o C. induction row as [|x row IH]; intros [|o] C; try discriminate; cbn in *; [injection C as ->; eauto|eauto]. }
    destruct SK as [rest SK]. generalize (index_in_skip col row o O). rewrite SK. cbn [index_in]. intros I. destruct (Nat.eqb_spec c col) as [->|D].
    + cbn [negb andb]. rewrite Nat.add_0_r in I. rewrite I. rewrite (proj2 (Nat.ltb_lt o (length row))) by lia. auto.
    + rewrite (proj2 (Nat.ltb_lt o (length row))) by lia. cbn [negb andb]. apply (IH (S o)); lia.
Qed.

(* where the columns of a block are in its row *)
Lemma first_block p ri xs b : (exists x, In x xs /\ snd x = b) -> 0 < tangent_of p b ->
  (forall x, In x xs -> snd x <> b -> index_of ri b < index_of ri (snd x) \/ index_of ri (snd x) + tangent_of p (snd x) <= index_of ri b) ->
  index_in (index_of ri b) (columns_of p ri xs) + tangent_of p b <= length (columns_of p ri xs) /\
  forall j, j < tangent_of p b -> nth (index_in (index_of ri b) (columns_of p ri xs) + j) (columns_of p ri xs) 0 = index_of ri b + j.
Proof.
  intros E T D. unfold columns_of. induction xs as [|x xs IH]; [destruct E as [x [[] _]]|]. cbn [flat_map].
  destruct (Nat.eq_dec (snd x) b) as [Sx|Sx].
  - rewrite Sx. destruct (tangent_of p b) as [|t] eqn:Ht; [lia|]. cbn [seq app index_in]. rewrite Nat.eqb_refl. split.
    + cbn [length]. rewrite app_length, seq_length. lia.
    + intros j J. rewrite Nat.add_0_l. change (index_of ri b :: seq (S (index_of ri b)) t ++ flat_map (fun x0 => seq (index_of ri (snd x0)) (tangent_of p (snd x0))) xs) with (seq (index_of ri b) (S t) ++ flat_map (fun x0 => seq (index_of ri (snd x0)) (tangent_of p (snd x0))) xs).
      rewrite app_nth1 by (rewrite seq_length; auto). now apply seq_nth.
  - destruct IH as [A B]; [destruct E as [y [[->|Y] Z]]; [tauto|eauto]|intros y Y; apply D; right; auto|].
    assert (I : forall l1 l2, ~ In (index_of ri b) l1 -> index_in (index_of ri b) (l1 ++ l2) = length l1 + index_in (index_of ri b) l2).
    { intros l1 l2. induction l1 as [|y l1 IHl]; intros N; cbn; [auto|]. rewrite (proj2 (Nat.eqb_neq y _)) by (intros ->; apply N; left; auto). rewrite IHl; [auto|]. intros X. apply N. right; auto. }
    specialize (D x (or_introl eq_refl) Sx). rewrite I by (rewrite in_seq; lia). rewrite app_length, seq_length. split; [lia|].
    intros j J. rewrite app_nth2; rewrite seq_length; [|lia]. rewrite <- (B j J). f_equal. lia.
Qed.
Lemma no_block p ri xs b : (forall x, In x xs -> index_of ri b < index_of ri (snd x) \/ index_of ri (snd x) + tangent_of p (snd x) <= index_of ri b) -> ~ In (index_of ri b) (columns_of p ri xs).
Proof. intros D I. unfold columns_of in I. apply in_flat_map in I. destruct I as [x [X I]]. apply in_seq in I. specialize (D x X). lia. Qed.

(* ---- reading a block ---- *)
Section Read.
Variables (p : CProblem) (pairs : list (nat * nat)) (L : list (nat * nat)) (m : crs).
Hypothesis P : proper p.
Notation act := (active_blocks p).
Notation ri := (RowIndex p 0 act).
Notation N := (num_rows_of p act).
Notation tan := (tangent_of p).
Hypothesis SL : sorted_first L.
Hypothesis L1 : forall x, In x L -> In (fst x) act /\ In (snd x) act /\ fst x <= snd x /\ requested pairs (fst x) (snd x).
Hypothesis L2 : forall a b, In a act -> In b act -> a <= b -> requested pairs a b -> In (a, b) L.
Hypothesis PT : pattern p L m.
Notation rl := (rowlists p ri L act).

Lemma act_nodup : NoDup act. Proof. apply strict_nodup. now apply active_strict. Qed.
Lemma act_pos a : In a act -> 0 < tan a.
Proof. intros Ha. apply active_in in Ha. destruct Ha as [d [V <-]]. rewrite tangent_spec; [apply V|auto|apply V]. Qed.
Lemma index_start i a : nth_error act i = Some a -> lookup ri a = Some (start tan act i) /\ index_of ri a = start tan act i.
Proof. intros H. assert (E : lookup ri a = Some (start tan act i)) by apply (lookup_row p act act_nodup 0 i a H). split; [auto|]. unfold index_of. now rewrite E. Qed.
Lemma act_apart a b : In a act -> In b act -> a <> b -> index_of ri b < index_of ri a \/ index_of ri a + tan a <= index_of ri b.
Proof.
  intros Ia Ib D. destruct (In_nth_error _ _ Ia) as [i Hi]. destruct (In_nth_error _ _ Ib) as [j Hj]. rewrite (proj2 (index_start i a Hi)), (proj2 (index_start j b Hj)).
  destruct (Nat.lt_trichotomy i j) as [H|[->|H]].
  - right. now apply start_before.
  - rewrite Hi in Hj. congruence.
  - left. generalize (start_before tan act j i b Hj H). generalize (act_pos b Ib). lia.
Qed.
Lemma start_bound i a : nth_error act i = Some a -> start tan act i + tan a <= N.
Proof. intros H. rewrite num_rows_sum, <- start_last. apply start_before; [auto|]. apply nth_error_Some. congruence. Qed.
Lemma rl_length : length rl = N. Proof. rewrite rowlists_length. now rewrite num_rows_sum. Qed.
Lemma range_of k : k < N -> row_range m k = seq (row_at m k) (length (nth k rl [])).
Proof. intros H. unfold row_range, range. f_equal. rewrite !(pt_at p L m PT) by lia. rewrite concat_firstn_S by (rewrite rl_length; auto). lia. Qed.
Lemma columns_at k o : k < N -> o < length (nth k rl []) -> col_at m (row_at m k + o) = nth o (nth k rl []) 0.
Proof. intros H K. unfold col_at. rewrite (pt_columns p L m PT), (pt_at p L m PT) by lia. apply concat_nth; [rewrite rl_length; auto|auto]. Qed.
Lemma rows_apart r r' k : r < N -> r' < N -> In k (row_range m r) -> In k (row_range m r') -> r = r'.
Proof.
  intros R R' I I'. unfold row_range in *. rewrite !in_range_range in *. destruct (Nat.lt_trichotomy r r') as [H|[|H]]; [|auto|].
  - assert (row_at m (S r) <= row_at m r') by (rewrite !(pt_at p L m PT) by lia; apply concat_firstn_mono; lia). lia.
  - assert (row_at m (S r') <= row_at m r) by (rewrite !(pt_at p L m PT) by lia; apply concat_firstn_mono; lia). lia.
Qed.
Lemma assigned f order r o : (forall r, In r order -> r < N) -> r < N -> In r order -> o < length (nth r rl []) -> val_at (Assign m f order) (row_at m r + o) = f r (nth o (nth r rl []) 0).
Proof.
  intros B R I O. unfold val_at. cbn [Assign m_values]. destruct (assign_fold m f order (m_values m)) as [_ A].
  assert (K : In (row_at m r + o) (row_range m r)) by (rewrite range_of by auto; apply in_seq; lia).
  assert (LT : row_at m r + o < length (m_values m)).
  { rewrite (pt_values p L m PT), (pt_columns p L m PT), (pt_at p L m PT) by lia. generalize (concat_bound rl (S r)). rewrite concat_firstn_S by (rewrite rl_length; auto). lia. }
  destruct (A _ LT) as [A1 _]. rewrite (A1 r I K) by (intros r' I' K'; apply (rows_apart r' r (row_at m r + o)); auto). now rewrite columns_at.
Qed.

Variables (f : matrix) (order : list nat).
Hypothesis F1 : forall r, In r order -> r < N.
Hypothesis F2 : forall r, r < N -> row_at m (S r) <> row_at m r -> In r order.
Notation m' := (Assign m f order).
Definition after : Covariance := mkCovariance true true ri (constant_blocks p) (Some m').

Lemma row_of i a k : nth_error act i = Some a -> k < tan a -> nth (start tan act i + k) rl [] = of_row p ri L a.
Proof. intros H K. now apply rowlists_nth. Qed.
Lemma row_begins i a k : nth_error act i = Some a -> k < tan a -> row_at m (start tan act i + k) = row_at m (start tan act i) + k * length (of_row p ri L a).
Proof.
  intros H K. generalize (start_bound i a H). intros B. induction k as [|k IH]; [rewrite Nat.add_0_r; lia|].
  rewrite !(pt_at p L m PT) in * by lia. replace (start tan act i + S k) with (S (start tan act i + k)) by lia. rewrite concat_firstn_S by (rewrite rl_length; lia). rewrite IH by lia. rewrite (row_of i a k H) by lia. lia.
Qed.

(* the three ways in which the walk ends *)
Lemma walk_read i a col : nth_error act i = Some a ->
  Walk (S (row_at m' (S (start tan act i)) - row_at m' (start tan act i))) (m_cols m') (row_at m' (start tan act i)) col (row_at m' (S (start tan act i)) - row_at m' (start tan act i)) 0 =
  if index_in col (of_row p ri L a) <? length (of_row p ri L a) then Some (index_in col (of_row p ri L a)) else
  match nth_error (m_cols m) (row_at m (start tan act i) + length (of_row p ri L a)) with None => None | Some _ => Some (length (of_row p ri L a)) end.
Proof.
  intros H. generalize (start_bound i a H) (act_pos a (nth_error_In _ _ H)). intros B T. change (row_at m' (S (start tan act i))) with (row_at m (S (start tan act i))). change (row_at m' (start tan act i)) with (row_at m (start tan act i)). change (m_cols m') with (m_cols m).
  generalize (row_of i a 0 H T). rewrite Nat.add_0_r. intros R0.
  assert (W : row_at m (S (start tan act i)) - row_at m (start tan act i) = length (of_row p ri L a)).
  { rewrite !(pt_at p L m PT) by lia. rewrite concat_firstn_S by (rewrite rl_length; lia). rewrite R0. lia. }
  rewrite W. apply walk_spec. intros o O.
  assert (Q : row_at m (start tan act i) + o < length (m_cols m)).
  { rewrite (pt_columns p L m PT), (pt_at p L m PT) by lia. generalize (concat_bound rl (S (start tan act i))). rewrite concat_firstn_S by (rewrite rl_length; lia). rewrite R0. lia. }
  rewrite (nth_error_nth' _ 0 Q), (nth_error_nth' _ 0 O). f_equal. change (nth (row_at m (start tan act i) + o) (m_cols m) 0) with (col_at m (row_at m (start tan act i) + o)). rewrite columns_at by (rewrite ?R0; lia). now rewrite R0.
Qed.

Lemma not_constant i a : nth_error act i = Some a -> mem a (constant_blocks p) = false.
Proof. intros H. destruct (mem a (constant_blocks p)) eqn:E; [|auto]. apply mem_spec in E. exfalso. apply (not_both p a P (nth_error_In _ _ H) E). Qed.

Definition offset_of (a c : nat) : nat := index_in (index_of ri c) (of_row p ri L a).
Definition stored (i j : nat) (a c : nat) : matrix := fun x y => val_at m' (row_at m' (start tan act i) + x * length (of_row p ri L a) + (offset_of a c + y)).

Lemma stored_block i j a c : nth_error act i = Some a -> nth_error act j = Some c -> a <= c -> requested pairs a c ->
  offset_of a c < length (of_row p ri L a) /\ forall x y, x < tan a -> y < tan c -> stored i j a c x y = f (start tan act i + x) (start tan act j + y).
Proof.
  intros Ha Hc O R. assert (Ia := nth_error_In _ _ Ha). assert (Ic := nth_error_In _ _ Hc).
  assert (X : In (a, c) L) by auto.
  destruct (first_block p ri (filter (fun x => fst x =? a) L) c) as [B1 B2].
  { exists (a, c). split; [apply filter_In; split; [auto|apply Nat.eqb_refl]|auto]. }
  { now apply act_pos. }
  { intros x I D. apply filter_In in I. destruct I as [I _]. apply act_apart; auto. apply (L1 x I). }
  fold (of_row p ri L a) in B1, B2. fold (offset_of a c) in B1, B2. generalize (act_pos c Ic). intros T. split; [lia|].
  intros x y Hx Hy. unfold stored. change (row_at m' (start tan act i)) with (row_at m (start tan act i)).
  rewrite <- (row_begins i a x Ha Hx). generalize (start_bound i a Ha). intros B.
  rewrite assigned; [|exact F1|lia| |rewrite (row_of i a x Ha Hx); lia].
  - rewrite (row_of i a x Ha Hx), B2 by auto. now rewrite (proj2 (index_start j c Hc)).
  - apply F2; [lia|]. rewrite !(pt_at p L m PT) by lia. rewrite concat_firstn_S by (rewrite rl_length; lia). rewrite (row_of i a x Ha Hx). lia.
Qed.
Lemma absent i j a c : nth_error act i = Some a -> nth_error act j = Some c -> a <= c -> ~ requested pairs a c -> index_in (index_of ri c) (of_row p ri L a) <? length (of_row p ri L a) = false.
Proof.
  intros Ha Hc O R. apply Nat.ltb_ge. apply Nat.nlt_ge. rewrite <- index_in_lt. apply no_block. intros x I. apply filter_In in I. destruct I as [I E]. apply Nat.eqb_eq in E.
  apply act_apart; [now apply L1| apply (nth_error_In _ _ Hc)|]. intros S. apply R. rewrite <- E, <- S. now apply L1.
Qed.
End Read.
