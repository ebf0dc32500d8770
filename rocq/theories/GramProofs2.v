(* Proofs for C69: where the blocks are. *)
From Coq Require Import Reals List Arith Bool Lia Lra Sorted Permutation.
From Verif Require Import SchurModel BlockSparseModel BlockSparseSpec BlockSparseProofs BlockSparseProofs2 GramModel GramSpec GramProofs.
Import ListNotations.
Open Scope nat_scope.

Section Geometry.
  Variables (bs : Structure) (K : list (nat * nat)).
  Hypothesis KS : StronglySorted klt K.
  Hypothesis KB : forall k, In k K -> fst k < length (cols bs) /\ snd k < length (cols bs).
  Hypothesis V : valid bs.
  Notation sz := (size_of bs).
  Notation start := (start_of bs K).
  Notation before := (before_of bs K).
  Notation width := (nnz_of bs K).

  Lemma start_next r : start (S r) = start r + sz r * width r.
  Proof.
    unfold start_of, nnz_of. rewrite <- nsum_scal, <- nsum_plus. apply nsum_ext. intros k _.
    destruct (Nat.ltb_spec (fst k) (S r)); destruct (Nat.ltb_spec (fst k) r); destruct (Nat.eqb_spec (fst k) r) as [e|]; try lia. rewrite e. lia.
  Qed.
  Lemma start_mono r r' : r < r' -> start r + sz r * width r <= start r'.
  Proof. induction 1 as [|r' H IH]; [rewrite start_next; lia|]. rewrite (start_next r'). lia. Qed.
  Lemma start_zero : start 0 = 0. Proof. apply nsum_zero. intros k _. reflexivity. Qed.
  Lemma start_end : start (length (cols bs)) = area_of bs K.
  Proof. apply nsum_ext. intros k Hk. destruct (KB k Hk). destruct (Nat.ltb_spec (fst k) (length (cols bs))); [reflexivity|lia]. Qed.
  Lemma before_width r c : In (r, c) K -> before r c + sz c <= width r.
  Proof.
    intro H. apply in_split in H. destruct H as [P [Q E]]. destruct (sorted_split K KS P _ Q E) as [A B]. pose proof (before_split bs _ _ _ A B) as F. cbn [fst snd] in F. rewrite <- E in F. rewrite F, E. unfold nnz_of. rewrite nsum_app. cbn [nsum fst snd]. rewrite Nat.eqb_refl. lia.
  Qed.
  Lemma before_mono r c c' : In (r, c) K -> In (r, c') K -> c < c' -> before r c + sz c <= before r c'.
  Proof.
    intros H H' L. apply in_split in H. destruct H as [P [Q E]]. destruct (sorted_split K KS P _ Q E) as [A B]. pose proof (before_split bs _ _ _ A B) as F. cbn [fst snd] in F. rewrite <- E in F. rewrite F. rewrite E. unfold before_of, nnz_of. rewrite nsum_app. cbn [nsum fst snd]. rewrite Nat.eqb_refl. destruct (Nat.ltb_spec c c'); [|lia]. cbn [andb].
    assert (nsum P (fun k => if fst k =? r then sz (snd k) else 0) <= nsum P (fun k => if (fst k =? r) && (snd k <? c') then sz (snd k) else 0)) as M; [|lia].
    apply nsum_le. intros x Hx. rewrite Forall_forall in A. specialize (A x Hx). unfold klt in A. cbn [fst snd] in A. destruct (Nat.eqb_spec (fst x) r); cbn [andb]; [|lia]. destruct (Nat.ltb_spec (snd x) c'); lia.
  Qed.
  Definition address (r c i j : nat) : nat := start r + i * width r + before r c + j.
  Lemma address_row r c i j : In (r, c) K -> j < sz c -> start r + i * width r <= address r c i j < start r + (i + 1) * width r.
  Proof. intros H Hj. pose proof (before_width r c H). unfold address. nia. Qed.
  Lemma address_block r c i j : In (r, c) K -> i < sz r -> j < sz c -> start r <= address r c i j < start r + sz r * width r.
  Proof. intros H Hi Hj. pose proof (address_row r c i j H Hj). assert ((i + 1) * width r <= sz r * width r) by (apply Nat.mul_le_mono_r; lia). lia. Qed.
  Lemma address_bound r c i j : In (r, c) K -> i < sz r -> j < sz c -> address r c i j < area_of bs K.
  Proof.
    intros H Hi Hj. pose proof (address_block r c i j H Hi Hj). rewrite <- start_end. destruct (KB _ H) as [L _]. cbn [fst] in L. pose proof (start_mono r (length (cols bs)) L). lia.
  Qed.
  Lemma address_inj r c i j r' c' i' j' : In (r, c) K -> In (r', c') K -> i < sz r -> j < sz c -> i' < sz r' -> j' < sz c' ->
    address r c i j = address r' c' i' j' -> r = r' /\ c = c' /\ i = i' /\ j = j'.
  Proof.
    intros H H' Hi Hj Hi' Hj' E. pose proof (address_block r c i j H Hi Hj) as B. pose proof (address_block r' c' i' j' H' Hi' Hj') as B'.
    destruct (Nat.lt_trichotomy r r') as [L|[<-|L]]; [pose proof (start_mono r r' L); lia| |pose proof (start_mono r' r L); lia].
    pose proof (address_row r c i j H Hj) as R. pose proof (address_row r c' i' j' H' Hj') as R'.
    destruct (Nat.lt_trichotomy i i') as [L|[<-|L]]; [assert ((i + 1) * width r <= i' * width r) by (apply Nat.mul_le_mono_r; lia); lia| |assert ((i' + 1) * width r <= i * width r) by (apply Nat.mul_le_mono_r; lia); lia].
    unfold address in E. destruct (Nat.lt_trichotomy c c') as [L|[<-|L]]; [pose proof (before_mono r c c' H H' L); lia|repeat split; lia|pose proof (before_mono r c' c H' H L); lia].
  Qed.
  Lemma cover r t : t < width r -> exists c j, In (r, c) K /\ j < sz c /\ t = before r c + j.
  Proof.
    intro H. destruct (nsum_find K (fun k => if fst k =? r then sz (snd k) else 0) t H) as [P [[r' c] [Q [E B]]]]. cbn [fst snd] in B. destruct (Nat.eqb_spec r' r) as [->|]; [|lia].
    destruct (sorted_split K KS P _ Q E) as [A A']. pose proof (before_split bs _ _ _ A A') as F. cbn [fst snd] in F. rewrite <- E in F. unfold nnz_of in F. exists c, (t - before r c). split; [rewrite E; apply in_elt|]. rewrite F. lia.
  Qed.

  (* the row pointers *)
  Variable f : nat -> nat.
  Hypothesis F : forall r, f r = width r.
  Lemma pointers_head bl i a : nth 0 (RowPointers bl i f a) 0 = a.
  Proof.
    revert i a. induction bl as [|b bl IH]; intros i a; [reflexivity|]. cbn [RowPointers]. destruct (size b) as [|s]; cbn [seq map app]; [rewrite IH; lia|cbn [nth]; lia].
  Qed.
  Lemma pointers_length bl : forall i a, length (RowPointers bl i f a) = S (total bl).
  Proof. induction bl as [|b bl IH]; intros i a; [reflexivity|]. cbn [RowPointers total fold_right]. rewrite app_length, map_length, seq_length, IH. unfold total. lia. Qed.
  Lemma pointers_nth bl : forall i, (forall j, nth j bl (mkBlock 0 0) = col bs (i + j)) -> forall p0, laid_out p0 bl -> forall j k, j < length bl -> k <= sz (i + j) ->
    nth (position (col bs (i + j)) + k - p0) (RowPointers bl i f (start i)) 0 = start (i + j) + k * width (i + j).
  Proof.
    induction bl as [|b bl IH]; intros i HN p0 L j k Hj Hk; [cbn in Hj; lia|]. destruct L as [L1 L2]. cbn [RowPointers]. pose proof (HN 0) as H0. cbn [nth] in H0. rewrite Nat.add_0_r in H0.
    replace (start i + size b * f i) with (start (S i)) by (rewrite start_next, F, H0; reflexivity).
    assert (forall j, nth j bl (mkBlock 0 0) = col bs (S i + j)) as HN' by (intro j'; specialize (HN (S j')); cbn [nth] in HN; rewrite HN; f_equal; lia).
    assert (size b = sz i) as SB by (rewrite H0; reflexivity).
    destruct j as [|j].
    - rewrite Nat.add_0_r in *. rewrite <- H0, L1. replace (p0 + k - p0) with k by lia. destruct (Nat.eq_dec k (size b)) as [->|NE].
      + rewrite app_nth2; rewrite map_length, seq_length; [|lia]. rewrite Nat.sub_diag, pointers_head, start_next, SB. reflexivity.
      + rewrite app_nth1 by (rewrite map_length, seq_length; lia). rewrite (nth_indep _ 0 (start i + 0 * f i)) by (rewrite map_length, seq_length; lia). rewrite (map_nth (fun j => start i + j * f i)), seq_nth by lia. rewrite F. reflexivity.
    - replace (i + S j) with (S i + j) in * by lia. specialize (IH (S i) HN' (p0 + size b) L2 j k ltac:(cbn in Hj; lia) Hk).
      assert (p0 + size b <= position (col bs (S i + j))) as LB.
      { rewrite <- HN'. clear - L2 Hj. cbn in Hj. assert (j < length bl) as H by lia. clear Hj. revert L2 H. generalize (p0 + size b). revert j. induction bl as [|b' bl IH]; intros j p L H; [cbn in H; lia|]. destruct L as [L1 L2]. destruct j as [|j]; cbn [nth]; [lia|]. specialize (IH j (p + size b') L2 ltac:(cbn in H; lia)). lia. }
      rewrite app_nth2; rewrite map_length, seq_length; [|lia]. replace (position (col bs (S i + j)) + k - p0 - size b) with (position (col bs (S i + j)) + k - (p0 + size b)) by lia. exact IH.
  Qed.
  Definition pointers : list nat := RowPointers (cols bs) 0 f 0.
  Lemma pointer_at r i : r < length (cols bs) -> i <= sz r -> nth (position (col bs r) + i) pointers 0 = start r + i * width r.
  Proof.
    intros Hr Hi. pose proof (pointers_nth (cols bs) 0 ltac:(intro j; reflexivity) 0 (v_cols _ V) r i Hr Hi) as H. rewrite start_zero in H. rewrite Nat.sub_0_r in H. exact H.
  Qed.
  Lemma pointer_zero : nth 0 pointers 0 = 0. Proof. apply pointers_head. Qed.
  Lemma pointers_last bl : forall i, (forall j, nth j bl (mkBlock 0 0) = col bs (i + j)) -> nth (total bl) (RowPointers bl i f (start i)) 0 = start (i + length bl).
  Proof.
    induction bl as [|b bl IH]; intros i HN; [cbn; f_equal; lia|]. cbn [RowPointers total fold_right length]. fold (total bl). pose proof (HN 0) as H0. cbn [nth] in H0. rewrite Nat.add_0_r in H0.
    replace (start i + size b * f i) with (start (S i)) by (rewrite start_next, F, H0; reflexivity). rewrite app_nth2; rewrite map_length, seq_length; [|lia]. replace (size b + total bl - size b) with (total bl) by lia. rewrite IH; [f_equal; lia|].
    intro j. specialize (HN (S j)). cbn [nth] in HN. rewrite HN. f_equal. lia.
  Qed.
  Lemma pointer_last : nth (breadth bs) pointers 0 = area_of bs K.
  Proof. pose proof (pointers_last (cols bs) 0 ltac:(intro j; reflexivity)) as H. rewrite start_zero in H. cbn [Nat.add] in H. rewrite start_end in H. exact H. Qed.

  (* the column array *)
  Lemma fold_set stores : forall (g : nat -> nat) p v, (forall v', In (p, v') stores -> v' = v) -> In (p, v) stores \/ g p = v -> fold_left (fun f s => set_at f (fst s) (snd s)) stores g p = v.
  Proof.
    induction stores as [|[p' v'] stores IH]; intros g p v U H; [destruct H as [[]|H]; exact H|]. cbn [fold_left fst snd]. apply IH; [intros v'' H''; apply U; right; exact H''|].
    unfold set_at. destruct (Nat.eqb_spec p p') as [<-|N]; [right; apply U; left; reflexivity|]. destruct H as [[H|H]|H]; [congruence|left; exact H|right; exact H].
  Qed.
  Lemma fill_in k p v : In (p, v) (fill_key bs K f k) <-> exists i j, i < sz (fst k) /\ j < sz (snd k) /\ p = address (fst k) (snd k) i j /\ v = position (col bs (snd k)) + j.
  Proof.
    unfold fill_key, Fill. cbn [t_row t_col]. rewrite in_flat_map. split.
    - intros [i [Hi H]]. apply in_map_iff in H. destruct H as [j [E Hj]]. apply in_seq in Hi. apply in_seq in Hj. injection E as E1 E2. exists i, j. split; [lia|]. split; [lia|]. split; [unfold address; rewrite <- E1, F; reflexivity|symmetry; exact E2].
    - intros [i [j [Hi [Hj [E1 E2]]]]]. exists i. split; [apply in_seq; lia|]. apply in_map_iff. exists j. split; [|apply in_seq; lia]. rewrite E1, E2. unfold address. rewrite F. reflexivity.
  Qed.
  Lemma columns_at r c i j junk : In (r, c) K -> i < sz r -> j < sz c ->
    fold_left (fun f s => set_at f (fst s) (snd s)) (flat_map (fill_key bs K f) K) junk (address r c i j) = position (col bs c) + j.
  Proof.
    intros H Hi Hj. apply fold_set.
    - intros v' H'. apply in_flat_map in H'. destruct H' as [[r' c'] [Hk H']]. apply fill_in in H'. cbn [fst snd] in H'. destruct H' as [i' [j' [Hi' [Hj' [E1 E2]]]]].
      destruct (address_inj r c i j r' c' i' j' H Hk Hi Hj Hi' Hj' E1) as [<- [<- [<- <-]]]. exact E2.
    - left. apply in_flat_map. exists (r, c). split; [exact H|]. apply fill_in. exists i, j. cbn [fst snd]. auto.
  Qed.
End Geometry.

(* the product terms *)
Lemma combine_index_nodup {A} (l : list A) : forall i, NoDup (map fst (combine (seq i (length l)) l)).
Proof.
  induction l as [|x l IH]; intro i; cbn [length seq combine map]; constructor; [|apply IH]. cbn [fst]. intro H. apply in_map_iff in H. destruct H as [[a b] [E H]]. cbn [fst] in E. subst a. apply in_combine_l in H. apply in_seq in H. lia.
Qed.
Lemma terms_index lower rs : NoDup (map t_index (product_terms lower rs)).
Proof.
  unfold product_terms. rewrite map_map. erewrite map_ext; [apply combine_index_nodup|]. intros [i [[row c1] c2]]. reflexivity.
Qed.
Lemma terms_in lower rs i row c1 c2 : In (i, (row, c1, c2)) (combine (seq 0 (length (products lower rs))) (products lower rs)) -> In (mkTerm (block_id c1) (block_id c2) i) (product_terms lower rs).
Proof. intro H. unfold product_terms. apply in_map_iff. exists (i, (row, c1, c2)). split; [reflexivity|exact H]. Qed.
Lemma in_terms lower rs t : In t (product_terms lower rs) -> exists row c1 c2, In (row, c1, c2) (products lower rs) /\ t_row t = block_id c1 /\ t_col t = block_id c2.
Proof.
  intro H. unfold product_terms in H. apply in_map_iff in H. destruct H as [[i [[row c1] c2]] [<- H]]. exists row, c1, c2. split; [apply in_combine_r in H; exact H|]. split; reflexivity.
Qed.
Lemma terms_length lower rs : length (product_terms lower rs) = length (products lower rs).
Proof. unfold product_terms. rewrite map_length, combine_length, seq_length. lia. Qed.

Lemma sorted_nth (cs : list Cell) : StronglySorted Peano.lt (map block_id cs) -> forall i j, i < j < length cs -> block_id (nth i cs no_cell) < block_id (nth j cs no_cell).
Proof.
  induction cs as [|c cs IH]; intros S i j H; [cbn in H; lia|]. cbn [map] in S. inversion_clear S as [|? ? S1 S2]. destruct j as [|j]; [lia|]. destruct i as [|i]; cbn [nth].
  - rewrite Forall_forall in S2. apply S2. apply in_map. apply nth_In. cbn in H. lia.
  - apply IH; [exact S1|cbn in H; lia].
Qed.
Lemma pairs_in lower cs p : StronglySorted Peano.lt (map block_id cs) -> In p (pairs lower cs) -> In (fst p) cs /\ In (snd p) cs /\ in_triangle lower (block_id (fst p)) (block_id (snd p)) = true.
Proof.
  intros S H. unfold pairs in H. apply in_flat_map in H. destruct H as [i [Hi H]]. apply in_seq in Hi. apply in_map_iff in H. destruct H as [c2 [<- H]]. cbn [fst snd].
  split; [apply nth_In; lia|]. destruct lower; cbn [in_triangle].
  - split; [rewrite <- (firstn_skipn (Datatypes.S i) cs); apply in_or_app; left; exact H|]. apply Nat.leb_le. destruct (In_nth _ _ no_cell H) as [j [Hj E]]. rewrite firstn_length in Hj. assert (nth j (firstn (Datatypes.S i) cs) no_cell = nth j cs no_cell) as E'.
    { rewrite <- (firstn_skipn (Datatypes.S i) cs) at 2. rewrite app_nth1; [reflexivity|rewrite firstn_length; lia]. }
    rewrite <- E, E'. destruct (Nat.eq_dec j i) as [->|]; [lia|]. pose proof (sorted_nth cs S j i). lia.
  - split; [rewrite <- (firstn_skipn i cs); apply in_or_app; right; exact H|]. apply Nat.leb_le. destruct (In_nth _ _ no_cell H) as [j [Hj E]]. rewrite skipn_length in Hj. assert (nth j (skipn i cs) no_cell = nth (i + j) cs no_cell) as E'.
    { rewrite <- (firstn_skipn i cs) at 2. rewrite app_nth2; rewrite firstn_length; [f_equal; lia|lia]. }
    rewrite <- E, E'. destruct (Nat.eq_dec j 0) as [->|]; [rewrite Nat.add_0_r; lia|]. pose proof (sorted_nth cs S i (i + j)). lia.
Qed.
Lemma suml_nth {A} (l : list A) (g : A -> R) d : suml (seq 0 (length l)) (fun i => g (nth i l d)) = suml l g.
Proof. rewrite <- (suml_map (fun i => nth i l d)). f_equal. rewrite (map_nth_seq (fun x => x)), map_id. reflexivity. Qed.
(* summing over the pairs of a triangle is summing over all pairs *)
Lemma pairs_sum lower cs (G : Cell -> Cell -> R) : StronglySorted Peano.lt (map block_id cs) -> (forall c1 c2, in_triangle lower (block_id c1) (block_id c2) = false -> G c1 c2 = 0%R) ->
  suml (pairs lower cs) (fun p => G (fst p) (snd p)) = suml cs (fun c1 => suml cs (fun c2 => G c1 c2)).
Proof.
  intros S Z. unfold pairs. rewrite suml_flat, <- (suml_nth cs _ no_cell). apply suml_ext. intros i Hi. apply in_seq in Hi. rewrite suml_map. cbn [fst snd]. destruct lower; cbn [in_triangle] in Z.
  - transitivity (suml (firstn (Datatypes.S i) cs ++ skipn (Datatypes.S i) cs) (fun c2 => G (nth i cs no_cell) c2)); [|rewrite firstn_skipn; reflexivity]. rewrite suml_app, (suml_zero (skipn _ _)); [ring|]. intros c2 H. apply Z. apply Nat.leb_gt. destruct (In_nth _ _ no_cell H) as [j [Hj E]]. rewrite skipn_length in Hj. assert (nth j (skipn (Datatypes.S i) cs) no_cell = nth (Datatypes.S i + j) cs no_cell) as E'.
    { rewrite <- (firstn_skipn (Datatypes.S i) cs) at 2. rewrite app_nth2; rewrite firstn_length; [f_equal; lia|lia]. }
    rewrite <- E, E'. apply (sorted_nth cs S). lia.
  - transitivity (suml (firstn i cs ++ skipn i cs) (fun c2 => G (nth i cs no_cell) c2)); [|rewrite firstn_skipn; reflexivity]. rewrite suml_app, (suml_zero (firstn _ _)); [ring|]. intros c2 H. apply Z. apply Nat.leb_gt. destruct (In_nth _ _ no_cell H) as [j [Hj E]]. rewrite firstn_length in Hj. assert (nth j (firstn i cs) no_cell = nth j cs no_cell) as E'.
    { rewrite <- (firstn_skipn i cs) at 2. rewrite app_nth1; [reflexivity|rewrite firstn_length; lia]. }
    rewrite <- E, E'. apply (sorted_nth cs S). lia.
Qed.
