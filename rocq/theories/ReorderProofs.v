Require Import ZArith List Lia Bool Sorting.Sorted Sorting.Permutation.
From Verif Require Import ZMap OrderedGroupsModel OrderedGroupsSpec OrderedGroupsProofs ReorderModel.
Import ListNotations.
Open Scope nat_scope.

(** ** Arrays cut into segments. *)
Lemma set_nth_some : forall {A} (l : list A) i x, i < length l ->
  exists l', set_nth l i x = Some l' /\ length l' = length l.
Proof.
  induction l as [|y l IH]; simpl; intros i x H; [lia|].
  destruct i; [eexists; simpl; auto|].
  destruct (IH i x) as [l' [E L]]; [lia|]. rewrite E. eexists; split; [reflexivity|]. simpl; lia.
Qed.

Lemma set_nth_app : forall {A} (pre s post s' : list A) i x,
  set_nth s i x = Some s' -> set_nth (pre ++ s ++ post) (length pre + i) x = Some (pre ++ s' ++ post).
Proof.
  induction pre as [|y pre IH]; simpl; intros s post s' i x H.
  - revert i s' H. induction s as [|z s IHs]; simpl; intros i s' H; [discriminate|].
    destruct i.
    + inversion H; auto.
    + destruct (set_nth s i x) eqn:E; [|discriminate]. inversion H; subst. rewrite (IHs _ _ E). auto.
  - rewrite (IH s post s' i x H). auto.
Qed.

Lemma nth_set_nth : forall {A} (l l' : list A) i x j, set_nth l i x = Some l' ->
  nth_error l' j = if j =? i then Some x else nth_error l j.
Proof.
  induction l as [|y l IH]; simpl; intros l' i x j H; [discriminate|].
  destruct i.
  - inversion H; subst. destruct j; auto.
  - destruct (set_nth l i x) eqn:E; [|discriminate]. inversion H; subst.
    destruct j; simpl; auto.
Qed.

Lemma set_nth_length : forall {A} (l l' : list A) i x, set_nth l i x = Some l' -> length l' = length l.
Proof.
  induction l as [|y l IH]; simpl; intros l' i x H; [discriminate|].
  destruct i; [inversion H; auto|].
  destruct (set_nth l i x) eqn:E; [|discriminate]. inversion H; subst. simpl. f_equal; eauto.
Qed.

Lemma flat_ext : forall {A B} (f g : A -> list B) l, (forall x, In x l -> f x = g x) -> flat_map f l = flat_map g l.
Proof.
  induction l; simpl; intros H; auto. rewrite (H a) by auto. f_equal. apply IHl; auto.
Qed.

(** Writing in the segment of [k] changes only that segment. *)
Lemma seg_update : forall {K A} (k1 k2 : list K) (k : K) (seg seg' : K -> list A) i x,
  NoDup (k1 ++ k :: k2) ->
  set_nth (seg k) i x = Some (seg' k) -> (forall j, j <> k -> seg' j = seg j) ->
  set_nth (flat_map seg (k1 ++ k :: k2)) (length (flat_map seg k1) + i) x = Some (flat_map seg' (k1 ++ k :: k2)).
Proof.
  intros K A k1 k2 k seg seg' i x ND H O.
  rewrite !flat_map_app. simpl.
  assert (N : ~ In k (k1 ++ k2)) by (apply NoDup_remove_2; auto).
  rewrite (flat_ext seg' seg k1), (flat_ext seg' seg k2).
  - apply set_nth_app; auto.
  - intros y Hy. apply O. intros ->. apply N, in_or_app; auto.
  - intros y Hy. apply O. intros ->. apply N, in_or_app; auto.
Qed.

(** ** Residual blocks. *)
Section Fill.
Variable n : nat.
Variable bk : rblock -> nat.
Hypothesis bk_le : forall r, bk r <= n.

Definition inb (b : nat) (rs : list rblock) := filter (fun r => bk r =? b) rs.
Definition cnt (b : nat) (rs : list rblock) := length (inb b rs).
Definition seg (done rest : list rblock) (b : nat) : list (option rblock) :=
  repeat None (cnt b rest) ++ map Some (rev (inb b done)).

Lemma seg_len : forall done rest b, length (seg done rest b) = cnt b done + cnt b rest.
Proof. intros. unfold seg. rewrite app_length, repeat_length, map_length, rev_length. unfold cnt. lia. Qed.

Definition start (all : list rblock) (b : nat) : nat := list_sum (map (fun c => cnt c all) (seq 0 b)).

Lemma flat_len : forall done rest l,
  length (flat_map (seg done rest) l) = list_sum (map (fun c => cnt c (done ++ rest)) l).
Proof.
  induction l; simpl; auto. rewrite app_length, IHl, seg_len. f_equal.
  unfold cnt, inb. rewrite filter_app, app_length. auto.
Qed.

Lemma seq_cut : forall b, b <= n -> seq 0 (n + 1) = seq 0 b ++ b :: seq (S b) (n - b).
Proof.
  intros b H. replace (n + 1) with (b + S (n - b)) by lia. rewrite seq_app. simpl. auto.
Qed.

Lemma set_repeat : forall k x (tl : list (option rblock)),
  set_nth (repeat None (S k) ++ tl) k x = Some (repeat None k ++ x :: tl).
Proof.
  induction k; intros x tl; auto.
  change (repeat None (S (S k)) ++ tl) with ((None : option rblock) :: (repeat None (S k) ++ tl)).
  change (set_nth (None :: (repeat None (S k) ++ tl)) (S k) x) with
    (match set_nth (repeat None (S k) ++ tl) k x with Some r' => Some (None :: r') | None => None end).
  rewrite IHk. auto.
Qed.

Lemma fill_inv : forall rest done offsets,
  length offsets = n + 1 ->
  (forall b, b <= n -> nth_error offsets b = Some (start (done ++ rest) b + cnt b rest)) ->
  exists offsets', fill rest (map bk rest) offsets (flat_map (seg done rest) (seq 0 (n + 1))) =
    Some (offsets', flat_map (seg (done ++ rest) []) (seq 0 (n + 1))) /\
    (forall b, b <= n -> nth_error offsets' b = Some (start (done ++ rest) b)).
Proof.
  induction rest as [|r rest IH]; intros done offsets L O.
  - simpl. exists offsets. rewrite app_nil_r. split; auto.
    intros b Hb. rewrite (O b Hb), app_nil_r. unfold cnt; simpl. f_equal; lia.
  - simpl fill. pose proof (bk_le r) as Hb. set (b := bk r) in *.
    rewrite (O b Hb).
    assert (C : cnt b (r :: rest) = S (cnt b rest)).
    { unfold cnt, inb. simpl. fold b. rewrite Nat.eqb_refl. auto. }
    rewrite C, Nat.add_succ_r.
    destruct (set_nth_some offsets b (start (done ++ r :: rest) b + cnt b rest)) as [o' [E' L']]; [lia|].
    rewrite E'.
    assert (SE : set_nth (flat_map (seg done (r :: rest)) (seq 0 (n + 1)))
                   (start (done ++ r :: rest) b + cnt b rest) (Some r) =
                 Some (flat_map (seg (done ++ [r]) rest) (seq 0 (n + 1)))).
    { rewrite (seq_cut b Hb). unfold start. rewrite <- flat_len.
      apply seg_update.
      - rewrite <- (seq_cut b Hb). apply seq_NoDup.
      - unfold seg at 1. rewrite C.
        rewrite set_repeat. f_equal. unfold seg. f_equal. unfold inb at 2. rewrite filter_app. simpl.
        fold b. rewrite Nat.eqb_refl, rev_app_distr. auto.
      - intros j Hj. unfold seg, cnt, inb. rewrite filter_app. simpl. fold b.
        replace (b =? j) with false by (symmetry; apply Nat.eqb_neq; auto). rewrite app_nil_r. auto. }
    assert (NE : nth_error (flat_map (seg done (r :: rest)) (seq 0 (n + 1)))
                   (start (done ++ r :: rest) b + cnt b rest) = Some None).
    { rewrite (seq_cut b Hb), flat_map_app. unfold start. rewrite <- flat_len.
      rewrite nth_error_app2 by lia. rewrite Nat.add_comm, Nat.add_sub. simpl flat_map.
      rewrite nth_error_app1 by (rewrite seg_len, C; lia).
      unfold seg. rewrite nth_error_app1 by (rewrite repeat_length, C; lia).
      apply nth_error_repeat. rewrite C; lia. }
    rewrite NE, SE.
    destruct (IH (done ++ [r]) o') as [o2 [F2 O2]].
    + lia.
    + intros c Hc. rewrite (nth_set_nth _ _ _ _ c E'), <- app_assoc. simpl.
      destruct (c =? b) eqn:Ec; [apply Nat.eqb_eq in Ec; subst c; auto|].
      rewrite (O c Hc). f_equal. f_equal. unfold cnt, inb. simpl. fold b.
      rewrite Nat.eqb_sym, Ec. auto.
    + rewrite <- app_assoc in F2, O2. simpl in F2, O2. eauto.
Qed.

Lemma all_some_map : forall {A} (l : list A), all_some (map Some l) = Some l.
Proof. induction l; simpl; auto. rewrite IHl. auto. Qed.

Lemma flat_final : forall all l, flat_map (seg all []) l = map Some (flat_map (fun b => rev (inb b all)) l).
Proof.
  induction l; simpl; auto. rewrite IHl, map_app. auto.
Qed.

Lemma flat_initial : forall all l, flat_map (seg [] all) l = repeat None (list_sum (map (fun c => cnt c all) l)).
Proof.
  induction l; simpl; auto. rewrite IHl. unfold seg. simpl. rewrite app_nil_r, <- repeat_app. auto.
Qed.

Lemma buckets_perm : forall all, Permutation (flat_map (fun b => rev (inb b all)) (seq 0 (n + 1))) all.
Proof.
  induction all as [|r all IH].
  - assert (H : forall l, flat_map (fun b => rev (inb b [])) l = []) by (induction l; simpl; auto).
    rewrite H. auto.
  - pose proof (bk_le r) as Hb. rewrite (seq_cut _ Hb), flat_map_app in IH |- *. cbn [flat_map] in *.
    rewrite (flat_ext (fun b => rev (inb b (r :: all))) (fun b => rev (inb b all)) (seq 0 (bk r))).
    2:{ intros x Hx. apply in_seq in Hx. unfold inb. simpl.
        replace (bk r =? x) with false by (symmetry; apply Nat.eqb_neq; lia). auto. }
    rewrite (flat_ext (fun b => rev (inb b (r :: all))) (fun b => rev (inb b all)) (seq (S (bk r)) (n - bk r))).
    2:{ intros x Hx. apply in_seq in Hx. unfold inb. simpl.
        replace (bk r =? x) with false by (symmetry; apply Nat.eqb_neq; lia). auto. }
    unfold inb at 2. simpl. rewrite Nat.eqb_refl. simpl. fold (inb (bk r) all).
    rewrite <- app_assoc. simpl. rewrite app_assoc.
    symmetry. rewrite <- IH at 1.
    rewrite app_assoc. apply Permutation_middle.
Qed.

Lemma sum_all : forall all, list_sum (map (fun c => cnt c all) (seq 0 (n + 1))) = length all.
Proof.
  intros all. pose proof (Permutation_length (buckets_perm all)) as H. rewrite <- H.
  clear H. induction (seq 0 (n + 1)); simpl; auto. rewrite app_length, rev_length, IHl. auto.
Qed.

Lemma partial_sums_nth : forall l acc i, i < length l ->
  nth_error (partial_sums acc l) i = Some (acc + list_sum (firstn (S i) l)).
Proof.
  induction l as [|x l IH]; simpl; intros acc i H; [lia|].
  destruct i; simpl; [f_equal; lia|].
  rewrite IH by lia. f_equal. simpl. lia.
Qed.
Lemma partial_sums_length : forall l acc, length (partial_sums acc l) = length l.
Proof. induction l; simpl; auto. Qed.

Lemma buckets_sorted : forall all, StronglySorted (fun r1 r2 => bk r1 <= bk r2)
  (flat_map (fun b => rev (inb b all)) (seq 0 (n + 1))).
Proof.
  intros all.
  enough (H : forall m s, StronglySorted (fun r1 r2 => bk r1 <= bk r2) (flat_map (fun b => rev (inb b all)) (seq s m))) by apply H.
  induction m as [|m IH]; intros s; simpl; [constructor|].
  assert (A : forall l, (forall r, In r l -> bk r = s) ->
     StronglySorted (fun r1 r2 => bk r1 <= bk r2) (l ++ flat_map (fun b => rev (inb b all)) (seq (S s) m))).
  { induction l as [|y l IHl]; simpl; intros Hl; auto.
    constructor; [apply IHl; auto|].
    apply Forall_forall. intros z Hz. apply in_app_or in Hz. rewrite (Hl y) by auto.
    destruct Hz as [Hz|Hz]; [rewrite (Hl z); auto|].
    apply in_flat_map in Hz. destruct Hz as [c [Hc Hz]]. apply in_seq in Hc.
    apply in_rev, filter_In in Hz. destruct Hz as [_ Hz]. apply Nat.eqb_eq in Hz. lia. }
  apply A. intros r Hr. apply in_rev, filter_In in Hr. apply Nat.eqb_eq. tauto.
Qed.
End Fill.

(** ** The minimum index. *)
Definition bucket (n : nat) (r : rblock) : nat :=
  match min_block (r_params r) (Z.of_nat n) with Some p => Z.to_nat p | None => 0 end.

Definition indexed (r : rblock) : Prop := forall i, In (false, i) (r_params r) -> (0 <= i)%Z.

Lemma min_block_ok : forall ps m, (forall i, In (false, i) ps -> (0 <= i)%Z) -> (0 <= m)%Z ->
  exists p, min_block ps m = Some p /\ (0 <= p <= m)%Z /\
    (forall i, In (false, i) ps -> (p <= i)%Z) /\ (p = m \/ In (false, p) ps).
Proof.
  induction ps as [|[[] i] ps IH]; simpl; intros m H Hm.
  - exists m. repeat split; try lia.
  - destruct (IH m) as [p [E [B [M W]]]]; auto. exists p. repeat split; auto; try lia.
    + intros j [Hj|Hj]; [discriminate|auto].
    + destruct W; auto.
  - assert (Hi : (0 <= i)%Z) by auto.
    destruct (i =? -1)%Z eqn:E; [apply Z.eqb_eq in E; lia|].
    destruct (IH (Z.min i m)) as [p [E' [B [M W]]]]; auto; [lia|].
    exists p. repeat split; auto; try lia.
    + intros j [Hj|Hj]; [inversion Hj; subst; lia|auto].
    + destruct W as [W|W]; auto. destruct (Z.min_spec i m) as [[_ Q]|[_ Q]]; rewrite Q in W; auto.
      subst p; right; left; auto.
Qed.

Lemma bucket_ok : forall n r, indexed r ->
  min_block (r_params r) (Z.of_nat n) = Some (Z.of_nat (bucket n r)) /\ bucket n r <= n /\
  (forall i, In (false, i) (r_params r) -> (Z.of_nat (bucket n r) <= i)%Z) /\
  (bucket n r = n \/ In (false, Z.of_nat (bucket n r)) (r_params r)).
Proof.
  intros n r H. destruct (min_block_ok (r_params r) (Z.of_nat n) H) as [p [E [B [M W]]]]; [lia|].
  unfold bucket. rewrite E, Z2Nat.id by lia. repeat split; auto; try lia.
  destruct W; [left; lia|auto].
Qed.

Lemma add_at_ok : forall l i, i < length l -> exists l', add_at l i = Some l' /\ length l' = length l /\
  forall j, nth j l' 0 = nth j l 0 + (if j =? i then 1 else 0).
Proof.
  induction l as [|x l IH]; simpl; intros i H; [lia|].
  destruct i.
  - exists (S x :: l). repeat split; auto. intros [|j]; simpl; lia.
  - destruct (IH i) as [l' [E [L N]]]; [lia|]. rewrite E. exists (x :: l'). repeat split; simpl; auto.
    intros [|j]; simpl; auto.
Qed.

Lemma count_ok : forall n rs counts, Forall indexed rs -> length counts = n + 1 ->
  exists counts', count_blocks n rs counts = Some (map (bucket n) rs, counts') /\ length counts' = n + 1 /\
    forall b, nth b counts' 0 = nth b counts 0 + cnt (bucket n) b rs.
Proof.
  induction rs as [|r rs IH]; simpl; intros counts H L.
  - exists counts. repeat split; auto.
  - inversion H; subst. destruct (bucket_ok n r) as [E [B _]]; auto.
    rewrite E. replace (Z.of_nat (bucket n r) <? 0)%Z with false by (symmetry; apply Z.ltb_ge; lia).
    rewrite Nat2Z.id.
    destruct (add_at_ok counts (bucket n r)) as [c1 [E1 [L1 N1]]]; [lia|]. rewrite E1.
    destruct (IH c1) as [c2 [E2 [L2 N2]]]; auto; [lia|]. rewrite E2. exists c2. repeat split; auto.
    intros b. rewrite N2, N1. unfold cnt, inb. simpl. rewrite (Nat.eqb_sym b).
    destruct (bucket n r =? b); simpl; lia.
Qed.

Lemma nth_ext_firstn : forall (l : list nat) m (f : nat -> nat), m <= length l ->
  (forall b, nth b l 0 = f b) -> firstn m l = map f (seq 0 m).
Proof.
  induction l as [|x l IH]; simpl; intros m f H E; destruct m; simpl; auto; [lia|].
  f_equal; [apply (E 0)|]. rewrite <- seq_shift, map_map. apply IH; [lia|]. intros b. apply (E (S b)).
Qed.

Lemma lexi_ok : forall n rs, 1 <= n -> Forall indexed rs ->
  (forall b, b < n -> exists r, In r rs /\ bucket n r = b) ->
  lexicographic_order n rs = Some (flat_map (fun b => rev (inb (bucket n) b rs)) (seq 0 (n + 1))).
Proof.
  intros n rs Hn HI HU. unfold lexicographic_order.
  replace (n <? 1) with false by (symmetry; apply Nat.ltb_ge; lia).
  destruct (count_ok n rs (repeat 0 (n + 1)) HI) as [counts [E [L N]]]; [apply repeat_length|].
  rewrite E.
  set (bk := fun r => Nat.min (bucket n r) n).
  assert (BK : forall r, In r rs -> bk r = bucket n r).
  { intros r Hr. rewrite Forall_forall in HI. destruct (bucket_ok n r (HI r Hr)) as [_ [B _]]. unfold bk; lia. }
  assert (BKle : forall r, bk r <= n) by (intros; unfold bk; lia).
  assert (INB : forall b, inb (bucket n) b rs = inb bk b rs).
  { intros b. unfold inb. apply filter_ext_in. intros r Hr. rewrite (BK r Hr). auto. }
  assert (MAP : map (bucket n) rs = map bk rs) by (apply map_ext_in; intros; symmetry; auto).
  assert (N' : forall b, nth b counts 0 = cnt bk b rs).
  { intros b. rewrite N. unfold cnt. rewrite INB. rewrite nth_repeat. auto. }
  assert (FN : forall m, m <= n + 1 -> firstn m counts = map (fun b => cnt bk b rs) (seq 0 m)).
  { intros m Hm. apply nth_ext_firstn; auto. lia. }
  assert (OFF : forall b, b <= n -> nth_error (partial_sums 0 counts) b = Some (start bk ([] ++ rs) b + cnt bk b rs)).
  { intros b Hb. rewrite partial_sums_nth by lia. rewrite FN by lia. f_equal.
    rewrite seq_S, map_app, list_sum_app. unfold start. simpl. lia. }
  assert (LAST : last (partial_sums 0 counts) 0 = length rs).
  { pose proof (OFF n (le_n n)) as Q. simpl app in Q.
    assert (LL : length (partial_sums 0 counts) = n + 1) by (rewrite partial_sums_length; lia).
    destruct (partial_sums 0 counts) as [|z zs] eqn:EZ using rev_ind; [simpl in LL; lia|].
    rewrite last_last. rewrite app_length in LL. simpl in LL.
    rewrite nth_error_app2 in Q by lia. replace (n - length zs) with 0 in Q by lia. simpl in Q.
    inversion Q. rewrite <- (sum_all n bk BKle rs). rewrite Nat.add_1_r, seq_S, map_app, list_sum_app.
    unfold start. simpl. lia. }
  rewrite LAST, Nat.eqb_refl. simpl negb. cbv iota.
  rewrite FN by lia.
  replace (existsb (fun c => c =? 0) (map (fun b => cnt bk b rs) (seq 0 n))) with false.
  2:{ symmetry. apply Bool.not_true_iff_false. intros HE. apply existsb_exists in HE.
      destruct HE as [c [Hc Ec]]. apply Nat.eqb_eq in Ec. subst c. apply in_map_iff in Hc.
      destruct Hc as [b [Eb Hb]]. apply in_seq in Hb. destruct (HU b) as [r [Hr Br]]; [lia|].
      assert (IN : In r (inb bk b rs)).
      { unfold inb. apply filter_In. split; auto. rewrite (BK r Hr), Br. apply Nat.eqb_refl. }
      unfold cnt in Eb. destruct (inb bk b rs); [contradiction|discriminate]. }
  destruct (fill_inv n bk BKle rs [] (partial_sums 0 counts)) as [o' [F O']]; auto.
  { rewrite partial_sums_length; lia. }
  rewrite flat_initial, sum_all in F by auto. rewrite MAP, F. simpl app in *.
  replace (offsets_ok n counts o') with true.
  2:{ symmetry. unfold offsets_ok. apply forallb_forall. intros b Hb. apply in_seq in Hb.
      rewrite N'. apply Z.eqb_eq.
      rewrite (nth_error_nth _ _ 0 (O' b ltac:(lia))), (nth_error_nth _ _ 0 (O' (S b) ltac:(lia))).
      unfold start. rewrite seq_S, map_app, list_sum_app. simpl. lia. }
  rewrite flat_final, all_some_map. f_equal. apply flat_ext. intros b _. rewrite INB. auto.
Qed.
