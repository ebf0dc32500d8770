(* C66: creating and evaluating the compressed row Jacobian *)
From Coq Require Import Reals ZArith List Arith Bool Lia Permutation Sorted.
From Verif Require Import SchurModel SchurProofs SparseModel SparseSpec SparseProofs SparseProofs2 SparseProofs3 BlockSparseModel JacobianModel JacobianSpec JacobianProofs JacobianProofs2.
Import ListNotations.
Open Scope R_scope.

(* ---------------------------------------------------------- lists of residual blocks *)
Definition rb (bs : list RBlock) (i : nat) : nat := list_sum (map r_num (firstn i bs)).
Definition eb (p : Program) (bs : list RBlock) (i : nat) : nat := entries_of p (firstn i bs).
Lemma rb_S b bs i : rb (b :: bs) (S i) = (r_num b + rb bs i)%nat. Proof. reflexivity. Qed.
Lemma rb_0 bs : rb bs 0 = 0%nat. Proof. reflexivity. Qed.
Lemma eb_S p b bs i : eb p (b :: bs) (S i) = (r_num b * width_of p b + eb p bs i)%nat. Proof. reflexivity. Qed.
Lemma eb_0 p bs : eb p bs 0 = 0%nat. Proof. reflexivity. Qed.
Lemma entries_cons p b bs : entries_of p (b :: bs) = (r_num b * width_of p b + entries_of p bs)%nat. Proof. reflexivity. Qed.
Lemma rows_cons b bs : list_sum (map r_num (b :: bs)) = (r_num b + list_sum (map r_num bs))%nat. Proof. reflexivity. Qed.
Lemma rb_bound bs : forall i b, nth_error bs i = Some b -> (rb bs i + r_num b <= list_sum (map r_num bs))%nat.
Proof. induction bs as [|a bs IH]; intros [|i] b H; try discriminate; cbn [nth_error] in H; rewrite rows_cons. - injection H as ->. rewrite rb_0. lia. - rewrite rb_S. specialize (IH i b H). lia. Qed.
Lemma eb_bound p bs : forall i b, nth_error bs i = Some b -> (eb p bs i + r_num b * width_of p b <= entries_of p bs)%nat.
Proof. induction bs as [|a bs IH]; intros [|i] b H; try discriminate; cbn [nth_error] in H; rewrite entries_cons. - injection H as ->. rewrite eb_0. lia. - rewrite eb_S. specialize (IH i b H). lia. Qed.
Lemma eb_mono p bs : forall i i' b, (i < i')%nat -> nth_error bs i = Some b -> (eb p bs i + r_num b * width_of p b <= eb p bs i')%nat.
Proof. induction bs as [|a bs IH]; intros [|i] [|i'] b L H; try discriminate; try lia; cbn [nth_error] in H; rewrite eb_S. - injection H as ->. rewrite eb_0. lia. - rewrite eb_S. specialize (IH i i' b ltac:(lia) H). lia. Qed.
Lemma rb_mono bs : forall i i' b, (i < i')%nat -> nth_error bs i = Some b -> (rb bs i + r_num b <= rb bs i')%nat.
Proof. induction bs as [|a bs IH]; intros [|i] [|i'] b L H; try discriminate; try lia; cbn [nth_error] in H; rewrite rb_S. - injection H as ->. rewrite rb_0. lia. - rewrite rb_S. specialize (IH i i' b ltac:(lia) H). lia. Qed.
(* every row belongs to a residual block *)
Lemma row_split bs : forall r, (r < list_sum (map r_num bs))%nat -> exists i b k, nth_error bs i = Some b /\ (k < r_num b)%nat /\ r = (rb bs i + k)%nat.
Proof.
  induction bs as [|b bs IH]; intros r H; [cbn in H; lia|]. rewrite rows_cons in H. destruct (Nat.lt_ge_cases r (r_num b)) as [L|L].
  - exists 0%nat, b, r. rewrite rb_0. auto.
  - destruct (IH (r - r_num b)%nat ltac:(lia)) as [i [b' [k [A [B C]]]]]. exists (S i), b', k. rewrite rb_S. repeat split; auto. lia.
Qed.

(* ---------------------------------------------------------- structure *)
Lemma row_starts num : forall pos nd rows, (pos + num < length rows)%nat ->
  length (RowStarts num pos nd rows) = length rows /\
  (forall k, (k <= num)%nat -> nth (pos + k) (RowStarts num pos nd rows) 0%nat = (nth pos rows 0 + k * nd)%nat) /\
  (forall r, (r <= pos)%nat -> nth r (RowStarts num pos nd rows) 0%nat = nth r rows 0%nat).
Proof.
  induction num as [|num IH]; intros pos nd rows L; cbn [RowStarts].
  - split; [auto|]. split; [|auto]. intros k K. replace k with 0%nat by lia. rewrite Nat.add_0_r. lia.
  - destruct (IH (S pos) nd (set_nth rows (S pos) (nth pos rows 0 + nd)%nat)) as [A [B C]]; [rewrite set_nth_length; lia|]. rewrite set_nth_length in A. split; [auto|]. split.
    + intros [|k] K.
      * rewrite Nat.add_0_r, C by lia. rewrite set_nth_other by lia. lia.
      * replace (pos + S k)%nat with (S pos + k)%nat by lia. rewrite B by lia. rewrite set_nth_same by lia. lia.
    + intros r R. rewrite C by lia. apply set_nth_other. lia.
Qed.
Lemma structure_spec p bs : forall row_pos rows cols, Forall (block_ok p) bs -> (row_pos + list_sum (map r_num bs) < length rows)%nat -> (nth row_pos rows 0 + entries_of p bs <= length cols)%nat ->
  exists rows' cols', Structure_ p bs row_pos rows cols = Some (rows', cols') /\ length rows' = length rows /\ length cols' = length cols /\
  (forall r, (r <= row_pos)%nat -> nth r rows' 0%nat = nth r rows 0%nat) /\
  (forall x, (x < nth row_pos rows 0)%nat -> nth x cols' 0%nat = nth x cols 0%nat) /\
  (forall i b k, nth_error bs i = Some b -> (k <= r_num b)%nat -> nth (row_pos + rb bs i + k) rows' 0%nat = (nth row_pos rows 0 + eb p bs i + k * width_of p b)%nat) /\
  nth (row_pos + list_sum (map r_num bs)) rows' 0%nat = (nth row_pos rows 0 + entries_of p bs)%nat /\
  (forall i b k t c, nth_error bs i = Some b -> (k < r_num b)%nat -> nth_error (seg_row (col_segs p (Ordered b)) k) t = Some c -> nth (nth row_pos rows 0%nat + eb p bs i + k * width_of p b + t) cols' 0%nat = c).
Proof.
  induction bs as [|b bs IH]; intros row_pos rows cols F LR LC.
  - exists rows, cols. cbn [Structure_]. split; [auto|]. split; [auto|]. split; [auto|]. split; [auto|]. split; [auto|]. split; [intros [|i] ? ? E; discriminate|]. split; [cbn; rewrite Nat.add_0_r; lia|]. intros [|i] ? ? ? ? E; discriminate.
  - inversion F as [|? ? B F']; subst. rewrite rows_cons in *. rewrite entries_cons in *. cbn [Structure_]. rewrite (adjacent_sorted (Ordered b)) by (apply ordered_sorted; apply B). rewrite width_fold.
    destruct (row_starts (r_num b) row_pos (width_of p b) rows ltac:(lia)) as [R1 [R2 R3]]. set (rows1 := RowStarts (r_num b) row_pos (width_of p b) rows) in *.
    set (st := ColStores p rows1 row_pos (r_num b) 0 (Ordered b)). set (base := nth row_pos rows 0%nat) in *.
    assert (WD : seg_width (col_segs p (Ordered b)) = width_of p b) by (unfold col_segs; rewrite seg_width_map; apply width_ordered).
    assert (ST : forall idx c, In (idx, c) st <-> exists k t, (k < r_num b)%nat /\ nth_error (seg_row (col_segs p (Ordered b)) k) t = Some c /\ idx = (base + k * width_of p b + t)%nat).
    { intros idx c. unfold st. rewrite col_stores, seg_in. split; intros [k [t [K [T E]]]]; exists k, t; (split; [auto|]); (split; [auto|]); rewrite R2 in * by lia; lia. }
    assert (FU : functional st). { apply functional_nodup. unfold st. rewrite col_stores. apply seg_nodup. intros r r' Q Q'. rewrite !R2 by lia. rewrite WD. nia. }
    assert (TW : forall k t c, nth_error (seg_row (col_segs p (Ordered b)) k) t = Some c -> (t < width_of p b)%nat). { intros k t c E. rewrite <- WD. rewrite <- (seg_row_length (col_segs p (Ordered b)) k). apply nth_error_Some. congruence. }
    assert (N1 : nth (row_pos + r_num b) rows1 0%nat = (base + r_num b * width_of p b)%nat) by (rewrite R2 by lia; auto).
    destruct (IH (row_pos + r_num b)%nat rows1 (set_all st cols) F') as [rows' [cols' [E1 [E2 [E3 [E4 [E5 [E6 [E7 E8]]]]]]]]]; [lia|rewrite N1, set_all_length; lia|].
    rewrite N1 in *. rewrite set_all_length in E3. exists rows', cols'. split; [auto|]. split; [lia|]. split; [auto|]. split; [|split; [|split; [|split]]].
    + intros r R. rewrite E4 by lia. apply R3. auto.
    + intros x X. rewrite E5 by lia. apply set_all_other. intros c I. apply ST in I. destruct I as [k [t [_ [_ E]]]]. lia.
    + intros [|i] b' k H K; cbn [nth_error] in H.
      * injection H as ->. rewrite rb_0, eb_0, !Nat.add_0_r. rewrite E4 by lia. rewrite R2 by lia. auto.
      * rewrite rb_S, eb_S. replace (row_pos + (r_num b + rb bs i) + k)%nat with (row_pos + r_num b + rb bs i + k)%nat by lia. rewrite (E6 i b' k H K). lia.
    + replace (row_pos + (r_num b + list_sum (map r_num bs)))%nat with (row_pos + r_num b + list_sum (map r_num bs))%nat by lia. rewrite E7. lia.
    + intros [|i] b' k t c H K T; cbn [nth_error] in H.
      * injection H as ->. rewrite eb_0, Nat.add_0_r. generalize (TW _ _ _ T); intros T'. assert (k * width_of p b' + t < r_num b' * width_of p b')%nat by nia. rewrite E5 by lia. apply set_all_in; [auto| |lia]. apply ST. exists k, t. auto.
      * rewrite eb_S. replace (base + (r_num b * width_of p b + eb p bs i) + k * width_of p b' + t)%nat with (base + r_num b * width_of p b + eb p bs i + k * width_of p b' + t)%nat by lia. apply (E8 i b' k t c H K T).
Qed.

(* ---------------------------------------------------------- the size *)
Lemma count_args p num l : (forall x, In x l -> Z.of_nat num * Z.of_nat (tangent p (fst x)) <= INT_MAX)%Z -> forall n, (0 <= n <= INT_MAX)%Z ->
  CountArgs p num l n = let s := (n + Z.of_nat (num * list_sum (map (fun x => tangent p (fst x)) l)))%Z in if (INT_MAX <? s)%Z then TooMany else Made s.
Proof.
  induction l as [|[v j] l IH]; intros H n N; cbn [CountArgs map].
  - cbn zeta. change (list_sum []) with 0%nat. rewrite Nat.mul_0_r, Z.add_0_r. destruct (Z.ltb_spec INT_MAX n); [lia|auto].
  - cbn [fst]. rewrite list_sum_cons. assert (HS := H (v, j) (or_introl eq_refl)). cbn [fst] in HS. destruct (Z.ltb_spec INT_MAX (Z.of_nat num * Z.of_nat (tangent p v))); [lia|].
    cbn zeta. set (rest := list_sum (map (fun x : nat * nat => tangent p (fst x)) l)) in *. destruct (Z.ltb_spec INT_MAX (n + Z.of_nat num * Z.of_nat (tangent p v))).
    + destruct (Z.ltb_spec INT_MAX (n + Z.of_nat (num * (tangent p v + rest)))); [auto|]. exfalso. nia.
    + rewrite IH; [|intros x X; apply H; right; auto|nia]. cbn zeta. fold rest. replace (n + Z.of_nat num * Z.of_nat (tangent p v) + Z.of_nat (num * rest))%Z with (n + Z.of_nat (num * (tangent p v + rest)))%Z by nia. auto.
Qed.
Lemma count_nonzeros p bs : (forall b v, In b bs -> In v (indices (r_args b)) -> (Z.of_nat (r_num b) * Z.of_nat (tangent p v) <= INT_MAX)%Z) -> forall n, (0 <= n <= INT_MAX)%Z ->
  CountNonzeros p bs n = let s := (n + Z.of_nat (entries_of p bs))%Z in if (INT_MAX <? s)%Z then TooMany else Made s.
Proof.
  induction bs as [|b bs IH]; intros H n N; cbn [CountNonzeros].
  - cbn zeta. change (entries_of p []) with 0%nat. rewrite Z.add_0_r. destruct (Z.ltb_spec INT_MAX n); [lia|auto].
  - rewrite count_args; [|intros x X; apply H; [left; auto|rewrite <- (active_keys 0); now apply in_map]|auto]. cbn zeta. rewrite entries_cons.
    assert (E : list_sum (map (fun x : nat * nat => tangent p (fst x)) (active 0 (r_args b))) = width_of p b) by (unfold width_of; rewrite <- (active_keys 0), map_map; auto). rewrite E.
    destruct (Z.ltb_spec INT_MAX (n + Z.of_nat (r_num b * width_of p b))).
    + destruct (Z.ltb_spec INT_MAX (n + Z.of_nat (r_num b * width_of p b + entries_of p bs))); [auto|lia].
    + rewrite IH; [|intros b' v I; apply H; right; auto|lia]. cbn zeta. replace (n + Z.of_nat (r_num b * width_of p b) + Z.of_nat (entries_of p bs))%Z with (n + Z.of_nat (r_num b * width_of p b + entries_of p bs))%Z by lia. auto.
Qed.

(* ---------------------------------------------------------- what CreateJacobian returns *)
Record shaped (p : Program) (m : crs) : Prop := {
  s_nr : m_num_rows m = num_rows_of p;
  s_nc : m_num_cols m = num_columns_of p;
  s_len : length (m_rows m) = S (num_rows_of p);
  s_cols : length (m_cols m) = (num_entries p + num_columns_of p)%nat;
  s_vals : length (m_values m) = (num_entries p + num_columns_of p)%nat;
  s_row : forall i b k, nth_error (p_blocks p) i = Some b -> (k <= r_num b)%nat -> nth (rows_before p i + k) (m_rows m) 0%nat = (eb p (p_blocks p) i + k * width_of p b)%nat;
  s_last : nth (num_rows_of p) (m_rows m) 0%nat = num_entries p;
  s_first : nth 0 (m_rows m) 0%nat = 0%nat;
  s_col : forall i b k t c, nth_error (p_blocks p) i = Some b -> (k < r_num b)%nat -> nth_error (seg_row (col_segs p (Ordered b)) k) t = Some c -> nth (eb p (p_blocks p) i + k * width_of p b + t) (m_cols m) 0%nat = c;
  s_storage : m_storage m = Unsymmetric;
  s_rb : m_row_blocks m = BlocksOf 0 (map r_num (p_blocks p));
  s_cb : m_col_blocks m = BlocksOf 0 (p_tangents p) }.
Lemma create_compressed p : well_formed p -> small_blocks p -> (Z.of_nat (num_columns_of p) <= INT_MAX)%Z ->
  if (INT_MAX <? Z.of_nat (num_entries p + num_columns_of p))%Z then CreateCompressed p = TooMany else exists m, CreateCompressed p = Made m /\ shaped p m.
Proof.
  intros W SB NC. unfold CreateCompressed. rewrite num_cols_eq, num_rows_eq. rewrite count_nonzeros; [|exact SB|lia]. cbn zeta. fold (num_entries p). replace (Z.of_nat (num_columns_of p) + Z.of_nat (num_entries p))%Z with (Z.of_nat (num_entries p + num_columns_of p)) by lia.
  destruct (Z.ltb_spec INT_MAX (Z.of_nat (num_entries p + num_columns_of p))) as [L|L]; [auto|]. rewrite Nat2Z.id.
  destruct (structure_spec p (p_blocks p) 0 (repeat 0%nat (S (num_rows_of p))) (repeat 0%nat (num_entries p + num_columns_of p))) as [rows [cols [E1 [E2 [E3 [E4 [E5 [E6 [E7 E8]]]]]]]]].
  - apply Forall_forall. intros b B. now apply W.
  - rewrite repeat_length. unfold num_rows_of. lia.
  - rewrite repeat_length. cbn [nth repeat]. unfold num_entries. lia.
  - rewrite E1. rewrite repeat_length in E2, E3. cbn [nth repeat] in *. rewrite ?Nat.add_0_l in *. fold (num_rows_of p) in E7. fold (num_entries p) in E7. rewrite E7. replace (num_entries p + num_columns_of p - num_entries p)%nat with (num_columns_of p) by lia.
    rewrite (proj2 (Nat.eqb_eq (num_entries p + num_columns_of p - num_columns_of p) (num_entries p)) ltac:(lia)). eexists. split; [reflexivity|]. constructor; cbn [m_num_rows m_num_cols m_rows m_cols m_values m_storage m_row_blocks m_col_blocks]; auto.
    + apply repeat_length.
    + specialize (E4 0%nat ltac:(lia)). exact E4.
Qed.

(* ---------------------------------------------------------- the tasks *)
Definition indexed (bs : list RBlock) (s pos : nat) : list (nat * (RBlock * nat)) := combine (seq s (length bs)) (combine bs (ResidualLayout pos bs)).
Lemma indexed_in bs : forall s pos i b off, In (i, (b, off)) (indexed bs s pos) <-> (s <= i)%nat /\ nth_error bs (i - s) = Some b /\ off = (pos + rb bs (i - s))%nat.
Proof.
  unfold indexed. induction bs as [|a bs IH]; intros s pos i b off.
  - cbn. split; [tauto|]. intros [_ [H _]]. destruct (i - s)%nat; discriminate.
  - cbn [length seq ResidualLayout combine In]. rewrite IH. assert (ST : (S s <= i)%nat -> (i - s)%nat = S (i - S s)) by lia. split.
    + intros [E|[A [B C]]]; [injection E as <- <- <-; rewrite Nat.sub_diag; split; [lia|]; split; [auto|rewrite rb_0; lia]|]. rewrite ST by lia. split; [lia|]. split; [auto|]. rewrite rb_S. lia.
    + intros [A [B C]]. destruct (Nat.eq_dec i s) as [->|N].
      * left. rewrite Nat.sub_diag in *. cbn in B. injection B as ->. rewrite rb_0, Nat.add_0_r in C. congruence.
      * right. rewrite ST in B, C by lia. cbn [nth_error] in B. rewrite rb_S in C. split; [lia|]. split; [auto|lia].
Qed.
Lemma indexed_in0 p i b off : In (i, (b, off)) (indexed (p_blocks p) 0 0) <-> nth_error (p_blocks p) i = Some b /\ off = rows_before p i.
Proof. rewrite indexed_in, Nat.sub_0_r. cbn [Nat.add]. split; [tauto|]. intros H. split; [lia|exact H]. Qed.
Lemma combine_nodup {A B} (l : list A) (l' : list B) : NoDup l -> NoDup (combine l l').
Proof.
  revert l'. induction l as [|a l IH]; intros [|b l'] N; cbn; try constructor; inversion N; subst; auto. intros I. apply in_combine_l in I. tauto.
Qed.
Lemma indexed_nodup bs s pos : NoDup (indexed bs s pos).
Proof. apply combine_nodup, seq_NoDup. Qed.
Definition body (p : Program) (m : crs) (jac : nat -> nat -> vec) (junk : nat -> vec) (x : nat * (RBlock * nat)) : list Store :=
  WriteStores p (m_rows m) (r_num (fst (snd x))) (snd (snd x)) 0 (Ordered (fst (snd x))) (ScratchPrepare p (r_num (fst (snd x))) 0 (r_args (fst (snd x)))) (Scratch p (fst (snd x)) (jac (fst x)) (junk (fst x))).
Lemma tasks_body p m jac junk : concat (CompressedTasks p m jac junk) = flat_map (body p m jac junk) (indexed (p_blocks p) 0 0).
Proof. unfold CompressedTasks. rewrite flat_map_concat_map. f_equal. apply map_ext. intros [i [b off]]. reflexivity. Qed.
Lemma val_width p b ptrs area : seg_width (val_segs p (Ordered b) ptrs area) = width_of p b.
Proof. unfold val_segs. rewrite (seg_width_map p (Ordered b) (fun x r c => area (match nth (snd x) ptrs None with Some pos => pos | None => 0 end + r * tangent p (fst x) + c)%nat)). apply width_ordered. Qed.
Lemma body_in p m jac junk i b idx x : shaped p m -> nth_error (p_blocks p) i = Some b ->
  In (idx, x) (body p m jac junk (i, (b, rows_before p i))) <->
  exists k t, (k < r_num b)%nat /\ nth_error (map snd (full_row p b (jac i) k)) t = Some x /\ idx = (eb p (p_blocks p) i + k * width_of p b + t)%nat.
Proof.
  intros S B. unfold body. cbn [fst snd]. rewrite write_stores, seg_in. split; intros [k [t [K [T E]]]]; exists k, t; (split; [auto|]).
  - rewrite <- (full_row_vals p b (jac i) k (junk i) K) in T. split; [auto|]. rewrite (s_row p m S i b k B ltac:(lia)) in E. lia.
  - rewrite (full_row_vals p b (jac i) k (junk i) K) in T. split; [auto|]. rewrite (s_row p m S i b k B ltac:(lia)). lia.
Qed.
Lemma index_lt p (b : RBlock) jac k t (x : R) : (k < r_num b)%nat -> nth_error (map snd (full_row p b jac k)) t = Some x -> (k * width_of p b + t < r_num b * width_of p b)%nat.
Proof. intros K T. assert (t < width_of p b)%nat by (rewrite <- (full_row_length p b jac k), <- (map_length snd); apply nth_error_Some; congruence). nia. Qed.
Lemma tasks_in p m jac junk idx x : shaped p m ->
  In (idx, x) (concat (CompressedTasks p m jac junk)) <->
  exists i b k t, nth_error (p_blocks p) i = Some b /\ (k < r_num b)%nat /\ nth_error (map snd (full_row p b (jac i) k)) t = Some x /\ idx = (eb p (p_blocks p) i + k * width_of p b + t)%nat.
Proof.
  intros S. rewrite tasks_body, in_flat_map. split.
  - intros [[i [b off]] [I H]]. apply indexed_in0 in I. destruct I as [B ->]. apply (body_in p m jac junk i b idx x S B) in H. destruct H as [k [t H]]. exists i, b, k, t. tauto.
  - intros [i [b [k [t [B H]]]]]. exists (i, (b, rows_before p i)). split; [apply indexed_in0; auto|]. apply (body_in p m jac junk i b idx x S B). exists k, t. auto.
Qed.
Lemma tasks_separate p m jac junk : shaped p m -> separate (CompressedTasks p m jac junk) (num_entries p).
Proof.
  intros S. split.
  - rewrite tasks_body, map_flat_map. apply NoDup_flat_map; [apply indexed_nodup| |].
    + intros [i [b off]] I. apply indexed_in0 in I. destruct I as [B ->]. unfold body. cbn [fst snd]. rewrite write_stores. apply seg_nodup. intros r r' L L'. rewrite !(s_row p m S i b _ B) by lia. rewrite val_width. nia.
    + intros [i [b off]] [i' [b' off']] idx I I' X X'. apply indexed_in0 in I, I'. destruct I as [B ->], I' as [B' ->]. apply in_map_iff in X, X'. destruct X as [[idx1 x] [E X]], X' as [[idx2 x'] [E' X']]. cbn [fst] in E, E'. subst idx1 idx2.
      apply (body_in p m jac junk i b idx x S B) in X. apply (body_in p m jac junk i' b' idx x' S B') in X'. destruct X as [k [t [K [T E]]]], X' as [k' [t' [K' [T' E']]]].
      generalize (index_lt p b (jac i) k t x K T). generalize (index_lt p b' (jac i') k' t' x' K' T'). intros Q' Q.
      destruct (Nat.lt_trichotomy i i') as [L|[->|L]].
      * generalize (eb_mono p (p_blocks p) i i' b L B). lia.
      * congruence.
      * generalize (eb_mono p (p_blocks p) i' i b' L B'). lia.
  - intros [idx x] I. apply (tasks_in p m jac junk idx x S) in I. destruct I as [i [b [k [t [B [K [T ->]]]]]]]. generalize (index_lt p b (jac i) k t x K T). generalize (eb_bound p (p_blocks p) i b B). unfold num_entries. cbn [fst]. lia.
Qed.

(* ---------------------------------------------------------- evaluation *)
Lemma zero_values_length p m : shaped p m -> length (zero_values m) = length (m_values m).
Proof. intros S. unfold zero_values. rewrite app_length, repeat_length, skipn_length. rewrite (s_nr p m S), (s_last p m S), (s_vals p m S). lia. Qed.
Lemma evaluate_shaped p m jac junk m' : shaped p m -> EvaluateCompressed p m jac junk m' -> shaped p m'.
Proof.
  intros S [l [I ->]]. unfold with_values. constructor; cbn [m_num_rows m_num_cols m_rows m_cols m_values m_storage m_row_blocks m_col_blocks]; try apply S; try (intros; now apply (s_row p m S)); try (intros; now apply (s_col p m S i b k t c)).
  rewrite set_all_length, (zero_values_length p m S). apply S.
Qed.
Lemma evaluate_row p m jac junk m' i b k : well_formed p -> shaped p m -> EvaluateCompressed p m jac junk m' -> nth_error (p_blocks p) i = Some b -> (k < r_num b)%nat ->
  row_entries m' (rows_before p i + k) = full_row p b (jac i) k.
Proof.
  intros W S EV B K. assert (S' := evaluate_shaped p m jac junk m' S EV). destruct EV as [l [IL ->]].
  assert (O : block_ok p b) by (apply W; eapply nth_error_In; eauto).
  unfold row_entries, row_range, row_at. change (m_rows (with_values m (set_all l (zero_values m)))) with (m_rows m). replace (Datatypes.S (rows_before p i + k)) with (rows_before p i + Datatypes.S k)%nat by lia.
  rewrite !(s_row p m S i b _ B) by lia. replace (eb p (p_blocks p) i + Datatypes.S k * width_of p b)%nat with (eb p (p_blocks p) i + k * width_of p b + width_of p b)%nat by lia.
  apply (list_of_range _ _ _ _ (0%nat, 0)); [apply full_row_length|]. intros t T.
  destruct (nth_error (full_row p b (jac i) k) t) as [[c x]|] eqn:E; [|apply nth_error_None in E; rewrite full_row_length in E; lia]. rewrite (nth_error_nth _ _ _ E).
  f_equal.
  - unfold col_at. change (m_cols (with_values m (set_all l (zero_values m)))) with (m_cols m). apply (s_col p m S i b k t c B K). rewrite <- (full_row_cols p b (jac i) k O). rewrite nth_error_map, E. reflexivity.
  - unfold val_at. cbn [with_values m_values]. destruct (tasks_separate p m jac junk S) as [ND BD]. assert (P := interleaving_perm _ _ IL).
    assert (IN : In ((eb p (p_blocks p) i + k * width_of p b + t)%nat, x) (concat (CompressedTasks p m jac junk))). { apply tasks_in; [auto|]. exists i, b, k, t. split; [auto|]. split; [auto|]. split; [|auto]. rewrite nth_error_map, E. reflexivity. }
    apply set_all_in; [eapply functional_perm; [apply Permutation_sym; exact P|]; now apply functional_nodup|eapply Permutation_in; [apply Permutation_sym; exact P|exact IN]|].
    rewrite (zero_values_length p m S), (s_vals p m S). specialize (BD _ IN). cbn [fst] in BD. lia.
Qed.
Lemma shaped_valid p m : well_formed p -> shaped p m -> m_valid m.
Proof.
  intros W S. assert (MO : forall r, (r < num_rows_of p)%nat -> exists i b k, nth_error (p_blocks p) i = Some b /\ (k < r_num b)%nat /\ r = (rows_before p i + k)%nat) by (intros r; apply row_split). constructor.
  - rewrite (s_nr p m S). apply S.
  - apply S.
  - intros r R. rewrite (s_nr p m S) in R. destruct (MO r R) as [i [b [k [B [K ->]]]]]. unfold row_at. replace (Datatypes.S (rows_before p i + k)) with (rows_before p i + Datatypes.S k)%nat by lia. rewrite !(s_row p m S i b _ B) by lia. lia.
  - unfold num_nonzeros, row_at. rewrite (s_nr p m S), (s_last p m S), (s_cols p m S). lia.
  - now rewrite (s_cols p m S), (s_vals p m S).
  - intros idx H. unfold num_nonzeros, row_at in H. rewrite (s_nr p m S), (s_last p m S) in H. rewrite (s_nc p m S). unfold col_at.
    assert (X : forall bs idx, (idx < entries_of p bs)%nat -> exists i b k t, nth_error bs i = Some b /\ (k < r_num b)%nat /\ (t < width_of p b)%nat /\ idx = (eb p bs i + k * width_of p b + t)%nat).
    { clear. induction bs as [|b bs IH]; intros idx H; [cbn in H; lia|]. rewrite entries_cons in H. destruct (Nat.lt_ge_cases idx (r_num b * width_of p b)) as [L|L].
      - exists 0%nat, b, (idx / width_of p b)%nat, (idx mod width_of p b)%nat. assert (width_of p b <> 0)%nat by nia. generalize (Nat.div_mod idx (width_of p b) H0), (Nat.mod_upper_bound idx (width_of p b) H0). intros D M. rewrite eb_0. split; [auto|]. split; [|split; [auto|lia]]. apply Nat.div_lt_upper_bound; lia.
      - destruct (IH (idx - r_num b * width_of p b)%nat ltac:(lia)) as [i [b' [k [t [A [K [T E]]]]]]]. exists (Datatypes.S i), b', k, t. rewrite eb_S. split; [auto|]. split; [auto|]. split; [auto|lia]. }
    destruct (X _ _ H) as [i [b [k [t [B [K [T ->]]]]]]]. assert (O : block_ok p b) by (apply W; eapply nth_error_In; eauto).
    destruct (nth_error (full_row p b (fun _ _ => 0) k) t) as [[c x]|] eqn:E; [|apply nth_error_None in E; rewrite full_row_length in E; lia].
    rewrite (s_col p m S i b k t c B K); [|rewrite <- (full_row_cols p b (fun _ _ => 0) k O), nth_error_map, E; reflexivity]. apply (full_row_bound p b (fun _ _ => 0) k c x O). eapply nth_error_In; eauto.
Qed.
Lemma blocks_of_consecutive l : forall pos, consecutive pos (BlocksOf pos l) /\ map fst (BlocksOf pos l) = l.
Proof. induction l as [|t l IH]; intros pos; cbn; [auto|]. destruct (IH (pos + t)%nat) as [A B]. split; [auto|now rewrite B]. Qed.
Lemma evaluate_all p m jac junk m' : well_formed p -> shaped p m -> EvaluateCompressed p m jac junk m' ->
  shaped p m' /\ m_valid m' /\ increasing_rows m' /\ is_jacobian p jac (m_matrix m').
Proof.
  intros W S EV. assert (S' := evaluate_shaped p m jac junk m' S EV). split; [auto|]. split; [now apply (shaped_valid p)|]. split.
  - intros r R. rewrite (s_nr p m' S') in R. destruct (row_split (p_blocks p) r R) as [i [b [k [B [K ->]]]]]. change (rb (p_blocks p) i) with (rows_before p i). rewrite (evaluate_row p m jac junk m' i b k W S EV B K). apply full_row_sorted. apply W. eapply nth_error_In; eauto.
  - apply rows_jacobian; [auto|]. intros i b k c B K. rewrite m_matrix_row. rewrite (s_nr p m' S').
    assert (rows_before p i + k < num_rows_of p)%nat by (generalize (rb_bound (p_blocks p) i b B); unfold rows_before, num_rows_of, rb; lia).
    destruct (Nat.ltb_spec (rows_before p i + k) (num_rows_of p)); [|lia]. now rewrite (evaluate_row p m jac junk m' i b k W S EV B K).
Qed.
