(* Proofs for C69: the values. *)
From Coq Require Import Reals List Arith Bool Lia Lra Sorted Permutation.
From Verif Require Import SchurModel SchurProofs BlockSparseModel BlockSparseSpec BlockSparseProofs BlockSparseProofs2 GramModel GramSpec GramProofs GramProofs2.
Import ListNotations.
Open Scope nat_scope.

Lemma suml_scal_l {A} (l : list A) k f : suml l (fun x => (k * f x)%R) = (k * suml l f)%R.
Proof. induction l as [|x l IH]; cbn [suml]; [ring|]. rewrite IH. ring. Qed.
Lemma suml_one {A} (l : list A) (f : A -> R) x P Q : l = P ++ x :: Q -> (forall y, In y P \/ In y Q -> f y = 0%R) -> suml l f = f x.
Proof.
  intros -> H. rewrite suml_app. cbn [suml]. rewrite (suml_zero P), (suml_zero Q); [ring| |]; intros y Hy; apply H; [right|left]; exact Hy.
Qed.
Lemma suml_seq_one a n t (f : nat -> R) : a <= t < a + n -> (forall t', a <= t' < a + n -> t' <> t -> f t' = 0%R) -> suml (seq a n) f = f t.
Proof.
  intros H Z. apply (suml_one _ f t (seq a (t - a)) (seq (S t) (a + n - S t))).
  - replace n with ((t - a) + S (a + n - S t)) at 1 by lia. rewrite seq_app. cbn [seq]. replace (a + (t - a)) with t by lia. reflexivity.
  - intros y [Hy|Hy]; apply in_seq in Hy; apply Z; lia.
Qed.

Section Final.
  Variables (bs : Structure) (values : vec) (s e : nat) (lower : bool).
  Hypothesis V : valid bs.
  Hypothesis O : ordered_cells bs.
  Notation n := (length (cols bs)).
  Notation sz := (size_of bs).
  Let rs := row_range bs s e.
  Let T := sort_terms (product_terms lower rs).
  Let K := keys_of T.
  Let f := fst (ComputeNonzeros bs T).
  Let res := Create bs s e lower.

  Lemma range_in row : In row rs -> In row (rows bs).
  Proof.
    unfold rs, row_range. intro H. rewrite <- (firstn_skipn s (rows bs)). apply in_or_app. right. rewrite <- (firstn_skipn (e - s) (skipn s (rows bs))). apply in_or_app. left. exact H.
  Qed.
  Lemma product_in row c1 c2 : In (row, c1, c2) (products lower rs) -> In row rs /\ In c1 (cells row) /\ In c2 (cells row) /\ in_triangle lower (block_id c1) (block_id c2) = true.
  Proof.
    intro H. unfold products in H. apply in_flat_map in H. destruct H as [row' [Hr H]]. apply in_map_iff in H. destruct H as [p [E H]]. injection E as E1 E2 E3. subst row' c1 c2.
    split; [exact Hr|]. apply pairs_in; [|exact H]. exact (proj1 O row (range_in row Hr)).
  Qed.
  Lemma key_in k : In k K <-> exists row c1 c2, In (row, c1, c2) (products lower rs) /\ fst k = block_id c1 /\ snd k = block_id c2.
  Proof.
    unfold K. rewrite keys_in, in_map_iff. split.
    - intros [t [<- H]]. apply (Permutation_in _ (sort_perm _)) in H. apply in_terms in H. destruct H as [row [c1 [c2 [H1 [H2 H3]]]]]. exists row, c1, c2. cbn [key fst snd]. auto.
    - intros [row [c1 [c2 [H [E1 E2]]]]]. destruct (In_nth _ _ (row, c1, c2) H) as [i [Hi E]].
      assert (In (i, (row, c1, c2)) (combine (seq 0 (length (products lower rs))) (products lower rs))) as I.
      { assert (nth i (combine (seq 0 (length (products lower rs))) (products lower rs)) (0, (row, c1, c2)) = (i, (row, c1, c2))) as N by (rewrite combine_nth by (rewrite seq_length; reflexivity); rewrite seq_nth by exact Hi; rewrite E; reflexivity).
        rewrite <- N. apply nth_In. rewrite combine_length, seq_length. lia. }
      exists (mkTerm (block_id c1) (block_id c2) i). split; [unfold key; cbn; rewrite <- E1, <- E2; symmetry; apply surjective_pairing|]. apply (Permutation_in _ (Permutation_sym (sort_perm _))). apply (terms_in _ _ _ _ _ _ I).
  Qed.
  Lemma ids_in row c : In row rs -> In c (cells row) -> block_id c < n.
  Proof. intros H1 H2. exact (proj2 (v_cells _ V row (range_in row H1)) c H2). Qed.
  Lemma key_bound k : In k K -> fst k < n /\ snd k < n.
  Proof. intro H. apply key_in in H. destruct H as [row [c1 [c2 [H [E1 E2]]]]]. destruct (product_in _ _ _ H) as [H1 [H2 [H3 _]]]. rewrite E1, E2. split; apply (ids_in row); assumption. Qed.
  Lemma key_triangle k : In k K -> in_triangle lower (fst k) (snd k) = true.
  Proof. intro H. apply key_in in H. destruct H as [row [c1 [c2 [H [E1 E2]]]]]. rewrite E1, E2. exact (proj2 (proj2 (proj2 (product_in _ _ _ H)))). Qed.
  Lemma sz_pos b : b < n -> 0 < sz b. Proof. exact (proj2 O b). Qed.
  Lemma T_ordered : ordered T. Proof. apply sort_ordered. Qed.
  Lemma KS : StronglySorted klt K. Proof. apply keys_sorted. apply T_ordered. Qed.
  Lemma T_nodup : NoDup (map t_index T).
  Proof. apply (Permutation_NoDup (l := map t_index (product_terms lower rs))); [apply Permutation_map, Permutation_sym, sort_perm|apply terms_index]. Qed.
  Lemma f_width r : f r = nnz_of bs K r. Proof. apply (proj1 (nonzeros bs T)). Qed.
  Lemma created : i_nonzeros res = area_of bs K /\ i_rows res = pointers bs f /\ i_terms res = length (products lower rs) /\
    i_stores res = flat_map (fill_key bs K f) K /\ forall t, In t T -> i_offsets res (t_index t) = place bs K (key t).
  Proof.
    pose proof (create_offsets bs T T_ordered T_nodup) as H. destruct H as [H1 [H2 [H3 [H4 H5]]]].
    - intros k Hk. destruct (key_bound k Hk). split; apply sz_pos; assumption.
    - split; [exact H1|]. split; [exact H2|]. split; [rewrite <- (terms_length lower rs), <- (Permutation_length (sort_perm (product_terms lower rs))); exact H3|]. split; [exact H4|exact H5].
  Qed.
  Lemma find q : q < breadth bs -> exists r, r < n /\ within (col bs r) q.
  Proof. intro H. destruct (laid_find 0 (cols bs) (v_cols _ V) q ltac:(unfold breadth in H; lia)) as [k [Hk E]]. exists k. split; [exact Hk|]. apply holds_spec. exact E. Qed.

  (* ---- structure *)
  Notation start := (start_of bs K).
  Notation before := (before_of bs K).
  Notation width := (nnz_of bs K).
  Lemma row_at r q : r < n -> within (col bs r) q -> nth q (i_rows res) 0 = start r + (q - position (col bs r)) * width r /\ nth (S q) (i_rows res) 0 = nth q (i_rows res) 0 + width r.
  Proof.
    intros Hr W. unfold within in W. destruct created as [_ [E _]]. rewrite E. replace q with (position (col bs r) + (q - position (col bs r))) at 1 3 4 by lia. replace (S (position (col bs r) + (q - position (col bs r)))) with (position (col bs r) + S (q - position (col bs r))) by lia.
    rewrite !(pointer_at bs K V f f_width r) by (try exact Hr; unfold size_of; lia). split; [reflexivity|]. cbn [Nat.mul]. lia.
  Qed.
  Lemma column_at r c i j junk : In (r, c) K -> i < sz r -> j < sz c -> columns res junk (address bs K r c i j) = position (col bs c) + j.
  Proof. intros H Hi Hj. unfold columns. destruct created as [_ [_ [_ [E _]]]]. rewrite E. apply (columns_at bs K KS f f_width); assumption. Qed.
  (* a place of a row *)
  Lemma slot r q t : r < n -> within (col bs r) q -> nth q (i_rows res) 0 <= t < nth (S q) (i_rows res) 0 -> exists c j, In (r, c) K /\ j < sz c /\ t = address bs K r c (q - position (col bs r)) j.
  Proof.
    intros Hr W H. destruct (row_at r q Hr W) as [E1 E2]. rewrite E2, E1 in H. destruct (cover bs K KS r (t - (start r + (q - position (col bs r)) * width r)) ltac:(lia)) as [c [j [H1 [H2 H3]]]]. exists c, j. split; [exact H1|]. split; [exact H2|]. unfold address. lia.
  Qed.
  Lemma col_order c c' j j' : c < n -> c' < n -> j < sz c -> j' < sz c' -> c < c' -> position (col bs c) + j < position (col bs c') + j'.
  Proof.
    intros H H' Hj Hj' L. assert (position (col bs c) + size (col bs c) <= position (col bs c')) as G; [|unfold size_of in *; lia].
    assert (forall bl p0 i j, laid_out p0 bl -> i < j < length bl -> p0 <= position (nth i bl (mkBlock 0 0)) /\ position (nth i bl (mkBlock 0 0)) + size (nth i bl (mkBlock 0 0)) <= position (nth j bl (mkBlock 0 0))) as G.
    { clear. induction bl as [|b bl IH]; intros p0 i j L H; [cbn in H; lia|]. destruct L as [L1 L2]. destruct j as [|j]; [lia|]. destruct i as [|i]; cbn [nth].
      - split; [lia|]. rewrite L1. destruct j as [|j]; [destruct bl as [|b' bl]; [cbn in H; lia|]; destruct L2 as [L3 _]; cbn [nth]; lia|]. pose proof (IH (p0 + size b) 0 (S j) L2 ltac:(cbn in H; lia)). lia.
      - pose proof (IH (p0 + size b) i j L2 ltac:(cbn in H; lia)). lia. }
    exact (proj2 (G (cols bs) 0 c c' (v_cols _ V) (conj L H'))).
  Qed.
  Lemma increasing q t t' junk : q < breadth bs -> nth q (i_rows res) 0 <= t -> t < t' -> t' < nth (S q) (i_rows res) 0 -> columns res junk t < columns res junk t' /\ columns res junk t' < breadth bs.
  Proof.
    intros Hq H1 H2 H3. destruct (find q Hq) as [r [Hr W]]. destruct (slot r q t Hr W ltac:(lia)) as [c [j [A [B ->]]]]. destruct (slot r q t' Hr W ltac:(lia)) as [c' [j' [A' [B' ->]]]].
    unfold within in W. rewrite !column_at by (assumption || unfold size_of; lia). destruct (key_bound _ A) as [_ N]. destruct (key_bound _ A') as [_ N']. cbn [snd] in N, N'.
    split; [|pose proof (col_bound bs c' V N'); unfold size_of in *; lia].
    destruct (Nat.lt_trichotomy c c') as [L|[<-|L]].
    - apply col_order; assumption.
    - unfold address in H2. lia.
    - pose proof (before_mono bs K KS r c' c A' A L). unfold address in H2. lia.
  Qed.
  Lemma column_bound q t junk : q < breadth bs -> nth q (i_rows res) 0 <= t < nth (S q) (i_rows res) 0 -> columns res junk t < breadth bs.
  Proof.
    intros Hq H. destruct (find q Hq) as [r [Hr W]]. destruct (slot r q t Hr W H) as [c [j [A [B ->]]]]. unfold within in W. rewrite column_at by (assumption || unfold size_of; lia). destruct (key_bound _ A) as [_ N]. cbn [snd] in N. pose proof (col_bound bs c V N). unfold size_of in *. lia.
  Qed.
  Lemma stores_bound p v : In (p, v) (i_stores res) -> p < i_nonzeros res.
  Proof.
    destruct created as [E1 [_ [_ [E2 _]]]]. rewrite E1, E2. intro H. apply in_flat_map in H. destruct H as [[r c] [Hk H]]. apply (fill_in bs K f f_width) in H. cbn [fst snd] in H. destruct H as [i [j [Hi [Hj [-> _]]]]]. apply (address_bound bs K KS key_bound); assumption.
  Qed.
  Lemma rows_ok : length (i_rows res) = S (breadth bs) /\ nth 0 (i_rows res) 0 = 0 /\ nth (breadth bs) (i_rows res) 0 = i_nonzeros res /\ forall q, q < breadth bs -> nth q (i_rows res) 0 <= nth (S q) (i_rows res) 0.
  Proof.
    destruct created as [E1 [E2 _]]. split; [rewrite E2; apply pointers_length|]. split; [rewrite E2; apply pointer_zero|]. split; [rewrite E1, E2; apply (pointer_last bs K key_bound f f_width)|].
    intros q Hq. destruct (find q Hq) as [r [Hr W]]. rewrite (proj2 (row_at r q Hr W)). lia.
  Qed.

  (* ---- values *)
  Definition block_product (row : Row) (c1 c2 : Cell) (i j : nat) : R :=
    mtm (size (block row)) (block_at values (cell_position c1) (sz (block_id c1))) (block_at values (cell_position c2) (sz (block_id c2))) i j.
  Lemma place_address r c : place bs K (r, c) = address bs K r c 0 0. Proof. unfold place, address. cbn [fst snd]. lia. Qed.
  Lemma product_width c : block_id c < n -> nth (position (col bs (block_id c)) + 1) (i_rows res) 0 - nth (position (col bs (block_id c))) (i_rows res) 0 = width (block_id c).
  Proof.
    intro H. pose proof (sz_pos _ H) as P. assert (within (col bs (block_id c)) (position (col bs (block_id c)))) as W by (unfold within, size_of in *; lia). destruct (row_at _ _ H W) as [_ E]. rewrite Nat.add_1_r, E. lia.
  Qed.
  Lemma product_offset i row c1 c2 : In (i, (row, c1, c2)) (combine (seq 0 (length (products lower rs))) (products lower rs)) -> i_offsets res i = address bs K (block_id c1) (block_id c2) 0 0.
  Proof.
    intro H. destruct created as [_ [_ [_ [_ E]]]]. specialize (E (mkTerm (block_id c1) (block_id c2) i)). cbn [t_index] in E. rewrite E; [apply place_address|]. apply (Permutation_in _ (Permutation_sym (sort_perm _))). apply (terms_in _ _ _ _ _ _ H).
  Qed.
  (* what one product adds *)
  Lemma product_part cur row c1 c2 r c i j : In (cur, (row, c1, c2)) (combine (seq 0 (length (products lower rs))) (products lower rs)) -> In (r, c) K -> i < sz r -> j < sz c ->
    suml (product_updates bs values res cur (row, c1, c2)) (fun u => part u (address bs K r c i j)) = if (block_id c1 =? r) && (block_id c2 =? c) then block_product row c1 c2 i j else 0%R.
  Proof.
    intros H Hk Hi Hj. assert (In (row, c1, c2) (products lower rs)) as HP by (apply in_combine_r in H; exact H). destruct (product_in _ _ _ HP) as [P1 [P2 [P3 _]]]. pose proof (ids_in _ _ P1 P2) as N1. pose proof (ids_in _ _ P1 P3) as N2.
    assert (In (block_id c1, block_id c2) K) as HK by (apply key_in; exists row, c1, c2; auto).
    unfold product_updates. rewrite suml_map, (product_width c1 N1), (product_offset _ _ _ _ H).
    assert (forall i', part (mkUpdate (address bs K (block_id c1) (block_id c2) 0 0 + i' * width (block_id c1)) (sz (block_id c2)) (fun j => block_product row c1 c2 i' j)) (address bs K r c i j)
      = if inside (address bs K (block_id c1) (block_id c2) i' 0) (sz (block_id c2)) (address bs K r c i j) then block_product row c1 c2 i' (address bs K r c i j - address bs K (block_id c1) (block_id c2) i' 0) else 0%R) as PP.
    { intro i'. unfold part. cbn [u_pos u_len u_val]. replace (address bs K (block_id c1) (block_id c2) 0 0 + i' * width (block_id c1)) with (address bs K (block_id c1) (block_id c2) i' 0) by (unfold address; lia). reflexivity. }
    rewrite (suml_ext _ _ (fun i' => if inside (address bs K (block_id c1) (block_id c2) i' 0) (sz (block_id c2)) (address bs K r c i j) then block_product row c1 c2 i' (address bs K r c i j - address bs K (block_id c1) (block_id c2) i' 0) else 0%R)) by (intros i' _; exact (PP i')).
    assert (forall i', i' < sz (block_id c1) -> inside (address bs K (block_id c1) (block_id c2) i' 0) (sz (block_id c2)) (address bs K r c i j) = true -> block_id c1 = r /\ block_id c2 = c /\ i' = i) as U.
    { intros i' Hi' HI. apply inside_spec in HI. set (j' := address bs K r c i j - address bs K (block_id c1) (block_id c2) i' 0). assert (j' < sz (block_id c2)) as Hj' by (unfold j'; lia).
      assert (address bs K r c i j = address bs K (block_id c1) (block_id c2) i' j') as E by (unfold j', address in *; lia). destruct (address_inj bs K KS _ _ _ _ _ _ _ _ Hk HK Hi Hj Hi' Hj' E) as [A [B [C _]]]. auto. }
    destruct ((block_id c1 =? r) && (block_id c2 =? c)) eqn:E.
    - apply andb_true_iff in E. destruct E as [E1 E2]. apply Nat.eqb_eq in E1. apply Nat.eqb_eq in E2. rewrite (suml_seq_one 0 _ i).
      + rewrite E1, E2. assert (address bs K r c i j = address bs K r c i 0 + j) as EA by (unfold address; lia). replace (inside (address bs K r c i 0) (sz c) (address bs K r c i j)) with true by (symmetry; apply inside_spec; lia). f_equal. lia.
      + rewrite E1. lia.
      + intros i' Hi' N. destruct (inside _ _ _) eqn:HI; [|reflexivity]. exfalso. apply N. apply (U i'); [lia|exact HI].
    - apply suml_zero. intros i' Hi'. apply in_seq in Hi'. destruct (inside _ _ _) eqn:HI; [|reflexivity]. exfalso. destruct (U i' ltac:(lia) HI) as [A [B _]]. rewrite A, B, !Nat.eqb_refl in E. discriminate E.
  Qed.
  Definition gram_block (r c i j : nat) : R := suml (products lower rs) (fun p => let '(row, c1, c2) := p in if (block_id c1 =? r) && (block_id c2 =? c) then block_product row c1 c2 i j else 0%R).
  Lemma computed old : Compute bs values s e lower res old = Some (perform (compute_updates bs values s e lower res) (fun p => if p <? i_nonzeros res then 0%R else old p)).
  Proof. unfold Compute. destruct created as [_ [_ [E _]]]. fold rs. rewrite E, Nat.eqb_refl. reflexivity. Qed.
  Lemma value_at old v r c i j : Compute bs values s e lower res old = Some v -> In (r, c) K -> i < sz r -> j < sz c -> v (address bs K r c i j) = gram_block r c i j.
  Proof.
    intros H Hk Hi Hj. rewrite computed in H. injection H as <-. rewrite perform_sum. destruct created as [E1 _]. rewrite E1. pose proof (address_bound bs K KS key_bound r c i j Hk Hi Hj) as B. apply Nat.ltb_lt in B. rewrite B, Rplus_0_l.
    unfold compute_updates. fold rs. rewrite suml_flat. unfold gram_block. rewrite <- (suml_combine (products lower rs) _ 0). apply suml_ext. intros [cur [[row c1] c2]] Hp. cbn [snd]. apply product_part; assumption.
  Qed.
  Lemma gram_block_absent r c i j : ~ In (r, c) K -> gram_block r c i j = 0%R.
  Proof.
    intro H. apply suml_zero. intros [[row c1] c2] Hp. destruct ((block_id c1 =? r) && (block_id c2 =? c)) eqn:E; [|reflexivity]. exfalso. apply H. apply key_in. exists row, c1, c2. apply andb_true_iff in E. destruct E as [E1 E2]. apply Nat.eqb_eq in E1. apply Nat.eqb_eq in E2. cbn [fst snd]. auto.
  Qed.
  Lemma entry old v junk r c p q : Compute bs values s e lower res old = Some v -> r < n -> c < n -> within (col bs r) p -> within (col bs c) q ->
    crs_entry (i_rows res) (columns res junk) v p q = gram_block r c (p - position (col bs r)) (q - position (col bs c)).
  Proof.
    intros H Hr Hc Wp Wq. unfold crs_entry. destruct (row_at r p Hr Wp) as [E1 E2]. rewrite E2. replace (nth p (i_rows res) 0 + width r - nth p (i_rows res) 0) with (width r) by lia. rewrite E1.
    set (i := p - position (col bs r)) in *. set (j := q - position (col bs c)). assert (i < sz r) as Hi by (unfold i, within, size_of in *; lia). assert (j < sz c) as Hj by (unfold j, within, size_of in *; lia).
    assert (position (col bs c) + j = q) as Ej by (unfold j, within in *; lia).
    assert (forall t, start r + i * width r <= t < start r + i * width r + width r -> columns res junk t = q -> In (r, c) K /\ t = address bs K r c i j) as U.
    { intros t Ht Et. destruct (slot r p t Hr Wp ltac:(rewrite E2, E1; exact Ht)) as [c' [j' [A [B ->]]]]. fold i in Et |- *. rewrite column_at in Et by assumption. destruct (key_bound _ A) as [_ N]. cbn [snd] in N.
      destruct (Nat.eq_dec c' c) as [->|NE]; [split; [exact A|]; f_equal; lia|]. exfalso. apply (col_holds bs c' c q V N Hc NE); apply holds_spec; [unfold within, size_of in *; lia|exact Wq]. }
    destruct (in_dec (fun a b : nat * nat => reflect_dec _ _ (keq_spec a b)) (r, c) K) as [I|I].
    - pose proof (address_row bs K KS r c i j I Hj) as B. rewrite (suml_seq_one _ _ (address bs K r c i j)).
      + rewrite column_at by assumption. rewrite Ej, Nat.eqb_refl. apply (value_at old v); assumption.
      + lia.
      + intros t Ht N. destruct (Nat.eqb_spec (columns res junk t) q) as [E|]; [|reflexivity]. exfalso. apply N. apply (U t Ht E).
    - rewrite gram_block_absent by exact I. apply suml_zero. intros t Ht. apply in_seq in Ht. destruct (Nat.eqb_spec (columns res junk t) q) as [E|]; [|reflexivity]. exfalso. apply I. apply (U t Ht E).
  Qed.

  (* ---- the Gram matrix *)
  Lemma dense_row row k q : In row (rows bs) -> k < size (block row) -> dense bs values (position (block row) + k) q = suml (cells row) (fun c => cell_entry values (block row) (col bs (block_id c)) (cell_position c) (position (block row) + k) q).
  Proof.
    intros H Hk. rewrite dense_cells. apply in_split in H. destruct H as [P [Q E]]. apply (suml_one (rows bs) (fun row0 => suml (cells row0) (fun c => cell_entry values (block row0) (col bs (block_id c)) (cell_position c) (position (block row) + k) q)) row P Q E).
    assert (holds (block row) (position (block row) + k) = true) as HH by (apply holds_spec; unfold within; lia).
    assert (nth (length P) (rows bs) row = row) as NR by (rewrite E, app_nth2, Nat.sub_diag by lia; reflexivity).
    pose proof (v_rows _ V) as L.
    intros y Hy. apply suml_zero. intros c _. unfold cell_entry. destruct (holds (block y) (position (block row) + k)) eqn:HY; [|reflexivity]. exfalso.
    destruct Hy as [Hy|Hy]; destruct (In_nth _ _ row Hy) as [m [Hm Em]].
    - apply (laid_holds 0 (map block (rows bs)) m (length P) (block row) (position (block row) + k) L).
      + rewrite map_length, E, app_length. cbn [length]. lia.
      + rewrite map_nth. rewrite E, app_nth1 by exact Hm. rewrite Em. exact HY.
      + rewrite map_nth, NR. exact HH.
    - apply (laid_holds 0 (map block (rows bs)) (length P) (length P + S m) (block row) (position (block row) + k) L).
      + rewrite map_length, E, app_length. cbn [length]. lia.
      + rewrite map_nth, NR. exact HH.
      + rewrite map_nth. rewrite E, app_nth2 by lia. replace (length P + S m - length P) with (S m) by lia. cbn [nth]. rewrite Em. exact HY.
  Qed.
  Lemma dense_cell row k c q : In row (rows bs) -> k < size (block row) -> c < n -> within (col bs c) q ->
    dense bs values (position (block row) + k) q = suml (cells row) (fun cc => if block_id cc =? c then block_at values (cell_position cc) (sz (block_id cc)) k (q - position (col bs c)) else 0%R).
  Proof.
    intros H Hk Hc W. rewrite dense_row by assumption. apply suml_ext. intros cc Hcc. unfold cell_entry. replace (holds (block row) (position (block row) + k)) with true by (symmetry; apply holds_spec; unfold within; lia). cbn [andb].
    destruct (Nat.eqb_spec (block_id cc) c) as [->|NE].
    - replace (holds (col bs c) q) with true by (symmetry; apply holds_spec; exact W). unfold block_at, size_of. f_equal. lia.
    - destruct (holds (col bs (block_id cc)) q) eqn:HQ; [|reflexivity]. exfalso. apply (col_holds bs (block_id cc) c q V (proj2 (v_cells _ V row H) cc Hcc) Hc NE HQ). apply holds_spec. exact W.
  Qed.
  Lemma gram_is_block r c p q : r < n -> c < n -> within (col bs r) p -> within (col bs c) q -> in_triangle lower r c = true ->
    gram bs values s e p q = gram_block r c (p - position (col bs r)) (q - position (col bs c)).
  Proof.
    intros Hr Hc Wp Wq HT. unfold gram, gram_block. fold (row_range bs s e). fold rs. unfold products. rewrite suml_flat. apply suml_ext. intros row Hrow. pose proof (range_in row Hrow) as HR. rewrite suml_map.
    set (i := p - position (col bs r)). set (j := q - position (col bs c)).
    rewrite (pairs_sum lower (cells row) (fun c1 c2 => if (block_id c1 =? r) && (block_id c2 =? c) then block_product row c1 c2 i j else 0%R)); [|exact (proj1 O row HR)|].
    2:{ intros c1 c2 HF. destruct (Nat.eqb_spec (block_id c1) r) as [E1|]; [|reflexivity]. destruct (Nat.eqb_spec (block_id c2) c) as [E2|]; [|reflexivity]. rewrite E1, E2, HT in HF. discriminate HF. }
    rewrite (sumn_ext _ _ (fun k => suml (cells row) (fun c1 => suml (cells row) (fun c2 => if (block_id c1 =? r) && (block_id c2 =? c) then (block_at values (cell_position c1) (sz (block_id c1)) k i * block_at values (cell_position c2) (sz (block_id c2)) k j)%R else 0%R)))).
    2:{ intros k Hk. rewrite (dense_cell row k r p), (dense_cell row k c q) by assumption. fold i j. rewrite <- suml_scal_r. apply suml_ext. intros c1 _. rewrite <- suml_scal_l. apply suml_ext. intros c2 _.
        destruct (block_id c1 =? r); destruct (block_id c2 =? c); cbn [andb]; ring. }
    rewrite <- suml_sumn. apply suml_ext. intros c1 _. rewrite <- suml_sumn. apply suml_ext. intros c2 _. destruct ((block_id c1 =? r) && (block_id c2 =? c)); [reflexivity|apply sumn_zero; reflexivity].
  Qed.
  Lemma inner_entry old v junk r c p q : Compute bs values s e lower res old = Some v -> r < n -> c < n -> within (col bs r) p -> within (col bs c) q ->
    crs_entry (i_rows res) (columns res junk) v p q = if in_triangle lower r c then gram bs values s e p q else 0%R.
  Proof.
    intros H Hr Hc Wp Wq. rewrite (entry old v junk r c) by assumption. destruct (in_triangle lower r c) eqn:HT; [symmetry; apply gram_is_block; assumption|].
    apply gram_block_absent. intro HK. pose proof (key_triangle _ HK) as E. cbn [fst snd] in E. rewrite HT in E. discriminate E.
  Qed.
  (* the stores of Compute *)
  Lemma updates_bound u : In u (compute_updates bs values s e lower res) -> u_pos u + u_len u <= i_nonzeros res.
  Proof.
    intro H. unfold compute_updates in H. fold rs in H. apply in_flat_map in H. destruct H as [[cur [[row c1] c2]] [Hp H]]. unfold product_updates in H. apply in_map_iff in H. destruct H as [i [<- Hi]]. apply in_seq in Hi. cbn [u_pos u_len].
    assert (In (row, c1, c2) (products lower rs)) as HP by (apply in_combine_r in Hp; exact Hp). destruct (product_in _ _ _ HP) as [P1 [P2 [P3 _]]]. pose proof (ids_in _ _ P1 P2) as N1. pose proof (ids_in _ _ P1 P3) as N2. pose proof (sz_pos _ N2).
    assert (In (block_id c1, block_id c2) K) as HK by (apply key_in; exists row, c1, c2; auto).
    rewrite (product_width c1 N1), (product_offset _ _ _ _ Hp). destruct created as [-> _]. pose proof (address_bound bs K KS key_bound _ _ i (sz (block_id c2) - 1) HK ltac:(lia) ltac:(lia)). unfold address in *. lia.
  Qed.
End Final.
