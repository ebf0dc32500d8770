(* Lemmas for C45: operations that build a new structure. *)

From Coq Require Import List Arith Bool Reals Permutation Sorted Lia Lra.
From Verif Require Import SparseModel SparseSpec SparseProofs SparseProofs2.
Import ListNotations.
Local Open Scope R_scope.

Definition rowval (l : list (nat * R)) (c : nat) : R :=
  suml (fun cv => if Nat.eqb (fst cv) c then snd cv else 0) l.

Lemma m_matrix_row m r c :
  m_matrix m r c = if (r <? m_num_rows m)%nat then rowval (row_entries m r) c else 0.
Proof.
  unfold m_matrix, m_entries. rewrite matrix_of_suml, suml_flat_map.
  rewrite (suml_ext _ (fun r' => if Nat.eqb r r' then rowval (row_entries m r') c else 0)).
  - destruct (Nat.ltb_spec r (m_num_rows m)).
    + now apply (suml_delta (m_num_rows m) r (fun r' => rowval (row_entries m r') c)).
    + apply suml_zero. intros r' I. apply in_seq in I. destruct (Nat.eqb_spec r r'); [lia|auto].
  - intros r' _. rewrite suml_map. unfold c_row, c_col, c_val. cbn [fst snd].
    rewrite (Nat.eqb_sym r' r). destruct (Nat.eqb r r'); cbn [andb]; [reflexivity|].
    now apply suml_zero.
Qed.

Lemma list_of_range {B} (f : nat -> B) a n (l : list B) (d : B) : length l = n ->
  (forall j, (j < n)%nat -> f (a + j)%nat = nth j l d) -> map f (range a (a + n)) = l.
Proof.
  intros L H. apply (nth_ext_len d).
  - rewrite map_length, range_length. lia.
  - intros j Hj. rewrite map_length, range_length in Hj.
    rewrite (nth_indep _ d (f 0%nat)) by (rewrite map_length, range_length; lia).
    rewrite map_nth. unfold range. rewrite seq_nth by lia. apply H. lia.
Qed.

Lemma map_range_shift {B} (f g : nat -> B) a b k :
  (forall i, (a <= i < b)%nat -> f (k + i)%nat = g i) ->
  map f (range (k + a) (k + b)) = map g (range a b).
Proof.
  intros H. unfold range. replace (k + b - (k + a))%nat with (b - a)%nat by lia.
  rewrite <- (map_id (seq (k + a) (b - a))).
  assert (S : forall n a, seq (k + a) n = map (fun i => (k + i)%nat) (seq a n)).
  { induction n as [|n IH]; intros a0; cbn; [auto|]. rewrite <- IH. do 2 f_equal. lia. }
  rewrite S, !map_map. apply map_ext_in. intros i I. apply in_seq in I. apply H. lia.
Qed.

(* ---- DeleteRows ---- *)

Lemma delete_shape m delta m' : m_valid m -> delete_rows m delta = Some m' ->
  (delta <= m_num_rows m)%nat /\ m_storage m = Unsymmetric /\ m_storage m' = Unsymmetric /\
  m_num_rows m' = (m_num_rows m - delta)%nat /\ m_num_cols m' = m_num_cols m /\
  m_valid m' /\ (forall r, (r < m_num_rows m')%nat -> row_entries m' r = row_entries m r).
Proof.
  intros V. unfold delete_rows. destruct (Nat.leb_spec delta (m_num_rows m)) as [L|]; [|discriminate].
  cbn [negb]. destruct (m_storage m); [|discriminate..]. intros E. injection E as <-.
  set (m' := mkcrs _ _ _ _ _ _ _ _).
  assert (RA : forall i, (i <= m_num_rows m - delta)%nat -> row_at m' i = row_at m i).
  { intros i H. unfold row_at, m', resize. cbn [m_rows].
    rewrite app_nth1 by (rewrite firstn_length, (v_len m V); lia).
    apply nth_firstn. lia. }
  assert (NN : (num_nonzeros m' <= num_nonzeros m)%nat).
  { unfold num_nonzeros at 1. rewrite RA by (unfold m'; cbn [m_num_rows]; lia).
    apply rows_le_nnz; auto. unfold m'; cbn [m_num_rows]; lia. }
  split; [auto|]. split; [auto|]. split; [auto|]. split; [auto|]. split; [auto|]. split.
  - destruct V. constructor.
    + unfold m', resize. cbn [m_rows m_num_rows]. rewrite app_length, firstn_length, repeat_length. lia.
    + rewrite RA by lia. auto.
    + unfold m' at 1. cbn [m_num_rows]. intros r H. rewrite !RA by lia. apply v_mono. lia.
    + unfold m' at 2. cbn [m_cols]. lia.
    + auto.
    + intros i H. apply v_bound. lia.
  - unfold m' at 1. cbn [m_num_rows]. intros r H. unfold row_entries, row_range.
    rewrite !RA by lia. reflexivity.
Qed.

Lemma keep_blocks_spec blocks : forall have want k,
  (have + list_sum (map fst (firstn k blocks)))%nat = want ->
  Forall (fun b => (0 < fst b)%nat) blocks -> (k <= length blocks)%nat ->
  keep_blocks blocks have want = k.
Proof.
  induction blocks as [|b blocks IH]; intros have want k E P L.
  - destruct k; [reflexivity|cbn in L; lia].
  - inversion P as [|? ? Pb P']; subst. destruct k as [|k].
    + cbn [keep_blocks firstn map]. change (list_sum []) with 0%nat.
      destruct (Nat.ltb_spec have (have + 0)); [lia|auto].
    + cbn [keep_blocks firstn map].
      assert (Q : list_sum (fst b :: map fst (firstn k blocks)) =
                  (fst b + list_sum (map fst (firstn k blocks)))%nat) by reflexivity.
      rewrite Q. destruct (Nat.ltb_spec have (have + (fst b + list_sum (map fst (firstn k blocks)))));
        [|lia].
      f_equal. apply IH; auto; [lia|cbn in L; lia].
Qed.

(* ---- AppendRows ---- *)

Lemma append_array {A} (l src : list A) n k d (grow : bool) :
  grow = (length l <? n + k)%nat -> (n <= length l)%nat -> (k <= length src)%nat ->
  let l1 := if grow then resize l (n + k) d else l in
  let l2 := if (0 <? k)%nat then copy_to l1 n (firstn k src) else l1 in
  length l1 = Nat.max (length l) (n + k) /\ length l2 = length l1 /\
  (forall i, (i < n)%nat -> nth i l2 d = nth i l d) /\
  (forall j, (j < k)%nat -> nth (n + j) l2 d = nth j src d).
Proof.
  intros G Hn Hk l1 l2.
  assert (L1 : length l1 = Nat.max (length l) (n + k)).
  { unfold l1. rewrite G. destruct (Nat.ltb_spec (length l) (n + k)); [|lia].
    unfold resize. rewrite app_length, firstn_length, repeat_length. lia. }
  assert (N1 : forall i, (i < n)%nat -> nth i l1 d = nth i l d).
  { intros i Hi. unfold l1. destruct grow; [|auto]. unfold resize.
    rewrite app_nth1 by (rewrite firstn_length; lia). apply nth_firstn. lia. }
  assert (LF : length (firstn k src) = k) by (rewrite firstn_length; lia).
  assert (LN : length (firstn n l1) = n) by (rewrite firstn_length; lia).
  split; [auto|].
  unfold l2. destruct (Nat.ltb_spec 0 k).
  - unfold copy_to. split; [|split].
    + rewrite !app_length, LF, LN, skipn_length. lia.
    + intros i Hi. rewrite app_nth1 by lia. rewrite nth_firstn by lia. auto.
    + intros j Hj. rewrite app_nth2, LN by lia. replace (n + j - n)%nat with j by lia.
      rewrite app_nth1 by lia. apply nth_firstn. lia.
  - split; [auto|]. split; [auto|]. intros j Hj. lia.
Qed.

Lemma fold_add_rows (g : nat -> nat) s K : forall rows, (s + K <= length rows)%nat ->
  length (fold_left (fun rows r => set_nth rows (s + r) (nth (s + r) rows 0 + g r)%nat)
            (range 0 K) rows) = length rows /\
  forall i, nth i (fold_left (fun rows r => set_nth rows (s + r) (nth (s + r) rows 0 + g r)%nat)
                     (range 0 K) rows) 0%nat =
    (nth i rows 0 + if (s <=? i)%nat && (i <? s + K)%nat then g (i - s)%nat else 0)%nat.
Proof.
  induction K as [|K IH]; intros rows H.
  - cbn [range seq fold_left]. split; [auto|]. intros i.
    destruct (Nat.leb_spec s i), (Nat.ltb_spec i (s + 0)); cbn [andb]; try lia; cbn; lia.
  - destruct (IH rows) as [L E]; [lia|]. rewrite range_S, fold_left_app by lia. cbn [fold_left].
    split; [now rewrite set_nth_length|]. intros i.
    destruct (Nat.eq_dec (s + K) i) as [<-|NE].
    + rewrite set_nth_same by lia. rewrite E.
      destruct (Nat.leb_spec s (s + K)), (Nat.ltb_spec (s + K) (s + K)),
        (Nat.ltb_spec (s + K) (s + S K)); cbn [andb]; try lia.
      replace (s + K - s)%nat with K by lia. lia.
    + rewrite set_nth_other by auto. rewrite E.
      destruct (Nat.leb_spec s i), (Nat.ltb_spec i (s + K)), (Nat.ltb_spec i (s + S K));
        cbn [andb]; try lia.
Qed.

Lemma append_shape m b m' : m_valid m -> m_valid b -> append_rows m b = Some m' ->
  m_num_rows m' = (m_num_rows m + m_num_rows b)%nat /\ m_num_cols m' = m_num_cols m /\
  m_num_cols b = m_num_cols m /\
  m_storage m = Unsymmetric /\ m_storage m' = Unsymmetric /\ m_valid m' /\
  (forall r, (r < m_num_rows m)%nat -> row_entries m' r = row_entries m r) /\
  (forall r, (r < m_num_rows b)%nat -> row_entries m' (m_num_rows m + r) = row_entries b r).
Proof.
  intros V W. unfold append_rows. destruct (m_storage m) eqn:ST; [|discriminate..].
  destruct (Nat.eqb_spec (m_num_cols b) (m_num_cols m)) as [NC|]; [|discriminate]. cbn [negb].
  destruct (Bool.eqb _ _); [|discriminate]. cbn [negb].
  destruct (Nat.eqb_spec (m_num_rows b) 0) as [Z|NZ].
  { intros E. injection E as <-. repeat split; auto; try lia; try apply V. all: intros; lia. }
  set (n := num_nonzeros m). set (k := num_nonzeros b).
  set (grow := (length (m_cols m) <? n + k)%nat).
  destruct (append_array (m_cols m) (m_cols b) n k 0%nat grow eq_refl (v_cols m V) (v_cols b W))
    as (C1 & C2 & C3 & C4). cbv zeta in C1, C2, C3, C4.
  assert (GV : grow = (length (m_values m) <? n + k)%nat) by (unfold grow; now rewrite (v_same m V)).
  destruct (append_array (m_values m) (m_values b) n k 0 grow GV (v_vals m V) (v_vals b W))
    as (D1 & D2 & D3 & D4). cbv zeta in D1, D2, D3, D4.
  set (cols := if (0 <? k)%nat then _ else _) in *.
  set (vals := if (0 <? k)%nat then copy_to _ n (firstn k (m_values b)) else _) in *.
  cbv zeta. set (rows1 := resize (m_rows m) _ 0%nat).
  set (rows2 := copy_to rows1 _ _).
  intros E. injection E as <-.
  assert (LR1 : length rows1 = (m_num_rows m + m_num_rows b + 1)%nat).
  { unfold rows1, resize. rewrite app_length, firstn_length, repeat_length, (v_len m V). lia. }
  assert (LF : length (firstn (m_num_rows m) rows1) = m_num_rows m) by (rewrite firstn_length; lia).
  assert (NR1 : forall i, (i <= m_num_rows m)%nat -> nth i rows1 0%nat = row_at m i).
  { intros i H. unfold rows1, resize, row_at.
    rewrite app_nth1 by (rewrite firstn_length, (v_len m V); lia). apply nth_firstn. lia. }
  assert (LR2 : length rows2 = (m_num_rows m + m_num_rows b + 1)%nat).
  { unfold rows2, copy_to. rewrite !app_length, LF, repeat_length, skipn_length. lia. }
  assert (NR2 : forall i, (i <= m_num_rows m + m_num_rows b)%nat ->
            nth i rows2 0%nat = if (i <? m_num_rows m)%nat then row_at m i else n).
  { intros i H. unfold rows2, copy_to. destruct (Nat.ltb_spec i (m_num_rows m)).
    - rewrite app_nth1 by lia. rewrite nth_firstn by lia. apply NR1. lia.
    - rewrite app_nth2, LF by lia. rewrite app_nth1 by (rewrite repeat_length; lia).
      rewrite (nth_indep _ 0%nat (nth (m_num_rows m) rows1 0%nat)) by (rewrite repeat_length; lia).
      rewrite nth_repeat. apply NR1. lia. }
  destruct (fold_add_rows (row_at b) (m_num_rows m) (m_num_rows b + 1) rows2) as [LR3 NR3]; [lia|].
  set (rows3 := fold_left _ _ rows2) in *.
  set (m' := mkcrs _ _ _ _ _ _ _ _).
  assert (RA : forall i, (i <= m_num_rows m)%nat -> row_at m' i = row_at m i).
  { intros i H. unfold row_at at 1, m'. cbn [m_rows]. rewrite NR3, NR2 by lia.
    destruct (Nat.leb_spec (m_num_rows m) i), (Nat.ltb_spec i (m_num_rows m)); cbn [andb]; try lia.
    destruct (Nat.ltb_spec i (m_num_rows m + (m_num_rows b + 1))); [|lia].
    replace i with (m_num_rows m) by lia. rewrite Nat.sub_diag, (v_zero b W).
    unfold n, num_nonzeros. lia. }
  assert (RB : forall i, (i <= m_num_rows b)%nat -> row_at m' (m_num_rows m + i) = (n + row_at b i)%nat).
  { intros i H. unfold row_at at 1, m'. cbn [m_rows]. rewrite NR3, NR2 by lia.
    destruct (Nat.leb_spec (m_num_rows m) (m_num_rows m + i)),
      (Nat.ltb_spec (m_num_rows m + i) (m_num_rows m)),
      (Nat.ltb_spec (m_num_rows m + i) (m_num_rows m + (m_num_rows b + 1))); cbn [andb]; try lia.
    now replace (m_num_rows m + i - m_num_rows m)%nat with i by lia. }
  assert (NN : num_nonzeros m' = (n + k)%nat).
  { unfold num_nonzeros at 1, m' at 2. cbn [m_num_rows]. rewrite RB by lia. reflexivity. }
  split; [reflexivity|]. split; [reflexivity|]. split; [auto|]. split; [auto|].
  split; [reflexivity|]. split; [|split].
  - constructor.
    + unfold m'. cbn [m_rows m_num_rows]. lia.
    + rewrite RA by lia. apply (v_zero m V).
    + unfold m' at 1. cbn [m_num_rows]. intros r H. destruct (Nat.lt_ge_cases r (m_num_rows m)).
      * rewrite !RA by lia. now apply (v_mono m V).
      * replace r with (m_num_rows m + (r - m_num_rows m))%nat by lia.
        replace (S (m_num_rows m + (r - m_num_rows m)))
          with (m_num_rows m + S (r - m_num_rows m))%nat by lia.
        rewrite !RB by lia. pose proof (v_mono b W (r - m_num_rows m)). lia.
    + rewrite NN. unfold m'. cbn [m_cols]. lia.
    + unfold m'. cbn [m_cols m_values]. pose proof (v_same m V). lia.
    + rewrite NN. intros i Hi. unfold col_at, m'. cbn [m_cols m_num_cols].
      destruct (Nat.lt_ge_cases i n).
      * rewrite C3 by auto. now apply (v_bound m V).
      * replace i with (n + (i - n))%nat by lia. rewrite C4 by lia.
        pose proof (v_bound b W (i - n)) as Q. unfold col_at in Q. unfold k in Hi. lia.
  - intros r H. unfold row_entries, row_range. rewrite !RA by lia. apply map_ext_in.
    intros i I. apply in_range_range in I.
    assert (i < n)%nat by (pose proof (rows_le_nnz m (S r) V); unfold n; lia).
    unfold col_at, val_at, m'. cbn [m_cols m_values]. now rewrite C3, D3 by auto.
  - intros r H. unfold row_entries, row_range.
    replace (S (m_num_rows m + r)) with (m_num_rows m + S r)%nat by lia.
    rewrite !RB by lia. apply map_range_shift. intros i I.
    assert (i < k)%nat by (pose proof (rows_le_nnz b (S r) W); unfold k; lia).
    unfold col_at, val_at, m'. cbn [m_cols m_values]. now rewrite C4, D4 by auto.
Qed.

(* ---- counting ---- *)

Section Buckets.
Context {A : Type} (key : A -> nat).

Definition cnt (k : nat) (l : list A) : nat := length (filter (fun a => Nat.eqb (key a) k) l).
Definition start (k : nat) (l : list A) : nat := length (filter (fun a => (key a <? k)%nat) l).

Lemma start_S k l : start (S k) l = (start k l + cnt k l)%nat.
Proof.
  unfold start, cnt. induction l as [|a l IH]; cbn [filter length]; [auto|].
  destruct (Nat.ltb_spec (key a) (S k)), (Nat.ltb_spec (key a) k), (Nat.eqb_spec (key a) k);
    cbn [length]; lia.
Qed.

Lemma start_0 l : start 0 l = 0%nat.
Proof. unfold start. induction l as [|a l IH]; cbn [filter length]; auto. Qed.

Lemma start_mono k k' l : (k <= k')%nat -> (start k l <= start k' l)%nat.
Proof. induction 1 as [|k' H IH]; [auto|]. rewrite start_S. lia. Qed.

Lemma start_all n l : (forall a, In a l -> (key a < n)%nat) -> start n l = length l.
Proof.
  unfold start. induction l as [|a l IH]; intros H; cbn [filter length]; [auto|].
  destruct (Nat.ltb_spec (key a) n).
  - cbn [length]. f_equal. apply IH. intros. apply H. now right.
  - specialize (H a (or_introl eq_refl)). lia.
Qed.

Lemma cnt_app k l1 l2 : cnt k (l1 ++ l2) = (cnt k l1 + cnt k l2)%nat.
Proof. unfold cnt. now rewrite filter_app, app_length. Qed.

Lemma fold_incr (f : A -> nat) l : forall a,
  length (fold_left (fun a x => incr a (f x)) l a) = length a /\
  forall j, (j < length a)%nat ->
    nth j (fold_left (fun a x => incr a (f x)) l a) 0%nat =
    (nth j a 0 + length (filter (fun x => Nat.eqb (f x) j) l))%nat.
Proof.
  induction l as [|x l IH]; intros a; cbn [fold_left filter].
  - split; [auto|]. intros. cbn. lia.
  - destruct (IH (incr a (f x))) as [L E].
    assert (LI : length (incr a (f x)) = length a) by apply set_nth_length. rewrite LI in L.
    split; [auto|]. intros j Hj. rewrite E by (unfold incr; rewrite set_nth_length; auto).
    unfold incr. destruct (Nat.eqb_spec (f x) j) as [->|NE].
    + rewrite set_nth_same by auto. cbn [length]. lia.
    + now rewrite set_nth_other.
Qed.

Lemma cumulate_spec n : forall a, length a = S n ->
  length (cumulate n a) = S n /\
  forall i, (i <= n)%nat -> nth i (cumulate n a) 0%nat = list_sum (firstn (S i) a).
Proof.
  unfold cumulate. intros a L.
  assert (G : forall k, (k <= n)%nat ->
    let f := fold_left (fun a i => set_nth a i (nth i a 0 + nth (i - 1) a 0)%nat) (range 1 (S k)) a in
    length f = S n /\ (forall i, (i <= k)%nat -> nth i f 0%nat = list_sum (firstn (S i) a)) /\
    (forall i, (k < i)%nat -> nth i f 0%nat = nth i a 0%nat)).
  { induction k as [|k IH]; intros Hk f.
    - unfold f, range. cbn [seq Nat.sub fold_left]. split; [auto|]. split; [|auto].
      intros i Hi. assert (i = 0)%nat by lia. subst. destruct a as [|x a]; [discriminate|].
      unfold list_sum. cbn. lia.
    - unfold f. rewrite range_S, fold_left_app by lia. cbn [fold_left].
      destruct IH as (L' & E & U); [lia|].
      set (g := fold_left _ (range 1 (S k)) a) in *.
      split; [now rewrite set_nth_length|]. split.
      + intros i Hi. destruct (Nat.eq_dec (S k) i) as [<-|NE].
        * rewrite set_nth_same by lia. rewrite U by lia. replace (S k - 1)%nat with k by lia.
          rewrite E by lia.
          assert (FS : firstn (S (S k)) a = firstn (S k) a ++ [nth (S k) a 0%nat]).
          { apply (nth_ext_len 0%nat).
            - rewrite app_length, !firstn_length. cbn [length]. lia.
            - intros j Hj. rewrite firstn_length in Hj. rewrite nth_firstn by lia.
              destruct (Nat.eq_dec j (S k)) as [->|].
              + rewrite app_nth2; rewrite firstn_length; [|lia].
                now replace (S k - Nat.min (S k) (length a))%nat with 0%nat by lia.
              + rewrite app_nth1 by (rewrite firstn_length; lia). now rewrite nth_firstn by lia. }
          rewrite FS, list_sum_app. unfold list_sum at 3. cbn [fold_right]. lia.
        * rewrite set_nth_other by auto. apply E. lia.
      + intros i Hi. rewrite set_nth_other by lia. apply U. lia. }
  destruct (G n (le_n n)) as (L' & E & _). auto.
Qed.

(* counts, shifted by one, cumulate to the start of each bucket *)
Lemma starts_spec n l : (forall a, In a l -> (key a < n)%nat) ->
  let f := cumulate n (fold_left (fun a x => incr a (S (key x))) l (repeat 0%nat (S n))) in
  length f = S n /\ forall i, (i <= n)%nat -> nth i f 0%nat = start i l.
Proof.
  intros H f. destruct (fold_incr (fun x => S (key x)) l (repeat 0%nat (S n))) as [L E].
  rewrite repeat_length in L, E.
  set (c := fold_left _ l _) in *.
  destruct (cumulate_spec n c L) as [L' E']. fold f in L', E'.
  split; [auto|]. intros i Hi. rewrite E' by auto. clear f L' E'.
  assert (NTH : forall k, (k < n)%nat -> nth (S k) c 0%nat = cnt k l).
  { intros k Hk. rewrite E by lia.
    rewrite (nth_repeat 0%nat (S n) (S k)). cbn [Nat.add]. unfold cnt. reflexivity. }
  assert (NTH0 : nth 0 c 0%nat = 0%nat).
  { rewrite E by lia. rewrite nth_repeat. cbn [Nat.add].
    clear. induction l as [|a l IH]; cbn [filter length]; auto. }
  induction i as [|i IH].
  - rewrite start_0. destruct c as [|x c]; [discriminate|]. cbn in NTH0. subst.
    reflexivity.
  - assert (FS : firstn (S (S i)) c = firstn (S i) c ++ [nth (S i) c 0%nat]).
    { apply (nth_ext_len 0%nat).
      - rewrite app_length, !firstn_length. cbn [length]. lia.
      - intros j Hj. rewrite firstn_length in Hj. rewrite nth_firstn by lia.
        destruct (Nat.eq_dec j (S i)) as [->|].
        + rewrite app_nth2; rewrite firstn_length; [|lia].
          now replace (S i - Nat.min (S i) (length c))%nat with 0%nat by lia.
        + rewrite app_nth1 by (rewrite firstn_length; lia). now rewrite nth_firstn by lia. }
    rewrite FS, list_sum_app, IH by lia. unfold list_sum at 1. cbn [fold_right].
    rewrite NTH by lia. rewrite start_S. lia.
Qed.

(* ---- the scatter loop of a counting sort ---- *)

Context {B : Type} (pay : A -> B) (d : B).

Definition scatter (st : list nat * list B) (a : A) : list nat * list B :=
  (incr (fst st) (key a), set_nth (snd st) (nth (key a) (fst st) 0%nat) (pay a)).

Lemma scatter_spec n E : (forall a, In a E -> (key a < n)%nat) ->
  forall S P tr out, E = P ++ S -> length out = length E -> (n <= length tr)%nat ->
  (forall k, (k < n)%nat -> nth k tr 0%nat = (start k E + cnt k P)%nat) ->
  (forall k j, (k < n)%nat -> (j < cnt k P)%nat ->
     nth (start k E + j) out d = nth j (map pay (filter (fun a => Nat.eqb (key a) k) P)) d) ->
  let st := fold_left scatter S (tr, out) in
  length (fst st) = length tr /\ length (snd st) = length E /\
  (forall k, (k < n)%nat -> nth k (fst st) 0%nat = (start k E + cnt k E)%nat) /\
  (forall k, (n <= k)%nat -> nth k (fst st) 0%nat = nth k tr 0%nat) /\
  (forall k j, (k < n)%nat -> (j < cnt k E)%nat ->
     nth (start k E + j) (snd st) d = nth j (map pay (filter (fun a => Nat.eqb (key a) k) E)) d).
Proof.
  intros HK. induction S as [|a S IH]; intros P tr out EQ LO LT HT HO st.
  - rewrite app_nil_r in EQ. subst P. unfold st. cbn [fold_left fst snd]. auto 6.
  - unfold st. cbn [fold_left]. unfold scatter at 2 4 6 8 10. cbn [fst snd].
    assert (KA : (key a < n)%nat) by (apply HK; rewrite EQ; apply in_elt).
    assert (CE : forall k, cnt k E = (cnt k P + (cnt k [a] + cnt k S))%nat).
    { intros k. rewrite EQ. change (a :: S) with ([a] ++ S). now rewrite !cnt_app. }
    assert (CA : cnt (key a) [a] = 1%nat) by (unfold cnt; cbn; now rewrite Nat.eqb_refl).
    assert (POS : (start (key a) E + cnt (key a) P < length E)%nat).
    { rewrite <- (start_all n E HK). pose proof (start_mono (Datatypes.S (key a)) n E KA) as M.
      rewrite start_S, CE, CA in M. lia. }
    assert (IHa := IH (P ++ [a]) (incr tr (key a))
                     (set_nth out (nth (key a) tr 0%nat) (pay a))).
    assert (LI : length (incr tr (key a)) = length tr) by apply set_nth_length.
    cbv zeta in IHa. rewrite LI, set_nth_length in IHa.
    destruct IHa as (R1 & R2 & R3 & R4 & R5); clear IH.
    + now rewrite <- app_assoc.
    + auto.
    + auto.
    + intros k Hk. rewrite cnt_app. unfold incr. destruct (Nat.eq_dec (key a) k) as [<-|NE].
      * rewrite set_nth_same by lia. rewrite HT by auto. lia.
      * rewrite set_nth_other by auto. rewrite HT by auto.
        unfold cnt at 3. cbn [filter]. destruct (Nat.eqb_spec (key a) k); [lia|]. cbn. lia.
    + intros k j Hk Hj. rewrite cnt_app in Hj. rewrite HT by auto.
      rewrite filter_app, map_app. cbn [filter].
      destruct (Nat.eqb_spec (key a) k) as [<-|NE].
      * destruct (Nat.eq_dec j (cnt (key a) P)) as [->|].
        -- rewrite set_nth_same by lia. rewrite app_nth2 by (rewrite map_length; unfold cnt; lia).
           rewrite map_length. unfold cnt. rewrite Nat.sub_diag. reflexivity.
        -- rewrite set_nth_other by lia. rewrite HO by (auto; lia).
           rewrite app_nth1; [auto|]. rewrite map_length. unfold cnt in *. lia.
      * assert (Z : cnt k [a] = 0%nat).
        { unfold cnt. cbn [filter]. destruct (Nat.eqb_spec (key a) k); [lia|auto]. }
        rewrite set_nth_other.
        -- rewrite HO by (auto; lia). cbn [map]. now rewrite app_nil_r.
        -- (* different buckets do not overlap *)
           destruct (Nat.lt_ge_cases k (key a)).
           ++ pose proof (start_mono (Datatypes.S k) (key a) E) as M. rewrite start_S, CE in M. lia.
           ++ pose proof (start_mono (Datatypes.S (key a)) k E) as M.
              rewrite start_S, CE, CA in M. lia.
    + split; [auto|]. split; [auto|]. split; [auto|]. split; [|auto].
      intros k Hk. rewrite R4 by auto. unfold incr. now rewrite set_nth_other by lia.
Qed.

Lemma scatter_fst S : forall tr out,
  fst (fold_left scatter S (tr, out)) = fold_left (fun a x => incr a (key x)) S tr.
Proof. induction S as [|a S IH]; intros tr out; cbn [fold_left]; [auto|]. apply IH. Qed.

End Buckets.

(* undoing the left shift *)
Lemma shift_back n : forall a, (n <= length a)%nat ->
  let f := fold_left (fun a i => set_nth a i (nth (i - 1) a 0%nat)) (rev (range 1 n)) a in
  length f = length a /\
  (forall i, (1 <= i < n)%nat -> nth i f 0%nat = nth (i - 1) a 0%nat) /\
  (forall i, (i = 0 \/ n <= i)%nat -> nth i f 0%nat = nth i a 0%nat).
Proof.
  induction n as [|n IH]; intros a L f.
  - unfold f. cbn. split; [auto|]. split; [lia|auto].
  - destruct (Nat.eq_dec n 0) as [->|NZ].
    { unfold f. cbn. split; [auto|]. split; [lia|auto]. }
    unfold f. rewrite range_S by lia. rewrite rev_app_distr. cbn [rev app fold_left].
    destruct (IH (set_nth a n (nth (n - 1) a 0%nat))) as (R1 & R2 & R3).
    { rewrite set_nth_length. lia. }
    rewrite set_nth_length in R1. split; [auto|]. split.
    + intros i Hi. destruct (Nat.eq_dec i n) as [->|].
      * rewrite R3 by lia. now rewrite set_nth_same by lia.
      * rewrite R2 by lia. now rewrite set_nth_other by lia.
    + intros i Hi. rewrite R3 by lia. now rewrite set_nth_other by lia.
Qed.
