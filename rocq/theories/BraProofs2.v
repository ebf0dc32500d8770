(* C80: the three constructors give good matrices; histories *)
From Coq Require Import Reals List Arith ZArith Bool Lia Permutation Sorting.Sorted.
From Verif Require Import SchurModel SchurSpec SchurProofs4 BraModel BraSpec BraProofs.
Import ListNotations.
Close Scope R_scope.
Open Scope nat_scope.

Record good (k : kind) (bl : list Block) (m : Bram) : Prop := {
  g_blocks : blocks m = bl;
  g_window : forall i j, i < length bl -> j < length bl -> stored_in k i j = true ->
    exists w, GetCell m i j = Some (Some w) /\ row_in w + block_size bl i <= row_stride w /\ col_in w + block_size bl j <= col_stride w;
  g_none : forall i j, i < length bl -> j < length bl -> stored_in k i j = false -> GetCell m i j = Some None;
  g_bound : forall i j w r c, i < length bl -> j < length bl -> GetCell m i j = Some (Some w) -> r < block_size bl i -> c < block_size bl j ->
    address w r c < length (values m);
  g_apart : forall i j w r c i' j' w' r' c', i < length bl -> j < length bl -> i' < length bl -> j' < length bl ->
    GetCell m i j = Some (Some w) -> GetCell m i' j' = Some (Some w') ->
    r < block_size bl i -> c < block_size bl j -> r' < block_size bl i' -> c' < block_size bl j' ->
    address w r c = address w' r' c' -> i = i' /\ j = j' /\ r = r' /\ c = c';
  g_locks : forall i j w i' j' w', i < length bl -> j < length bl -> i' < length bl -> j' < length bl ->
    GetCell m i j = Some (Some w) -> GetCell m i' j' = Some (Some w') -> lock w = lock w' -> i = i' /\ j = j';
  g_clear : to_clear m = length (values m) }.
Lemma good_values k bl m v : good k bl m -> length v = length (values m) -> good k bl (with_values m v).
Proof.
  intros [A B C D E F G] L. constructor; auto.
  - intros i j w r c. cbn [with_values values]. rewrite L. exact (D i j w r c).
  - cbn [with_values values]. rewrite L. exact G.
Qed.

Lemma inside_area n k r c : r < n -> c < k -> r * k + c < n * k.
Proof. nia. Qed.
Lemma row_major_unique k r c r' c' : c < k -> c' < k -> r * k + c = r' * k + c' -> r = r' /\ c = c'.
Proof.
  intros H H' E. assert (r = r').
  { destruct (lt_eq_lt_dec r r') as [[L|L]|L]; [|exact L|]; exfalso; nia. }
  subst. split; [reflexivity|lia].
Qed.

Lemma dense_good bl m : laid_out 0 bl -> NewDense bl = Some m -> good KDense bl m.
Proof.
  intros L H. unfold NewDense in H. destruct (_ && _) eqn:F; [|discriminate]. inversion H. subst m. clear H. rewrite (scalar_entries bl L) in *.
  assert (Sh : forall i j w, i < length bl -> j < length bl -> GetCell (mkBram bl (Dense (total bl)) (repeat 0%R (total bl * total bl))) i j = Some (Some w) ->
    w = mkWindow (Z.of_nat i * Z.of_nat (length bl) + Z.of_nat j) 0 (block_position bl i) (block_position bl j) (total bl) (total bl)).
  { intros i j w Hi Hj E. cbn in E. rewrite (nth_error_block bl i Hi), (nth_error_block bl j Hj) in E. inversion E. reflexivity. }
  constructor.
  - reflexivity.
  - intros i j Hi Hj _. eexists. cbn. rewrite (nth_error_block bl i Hi), (nth_error_block bl j Hj). split; [reflexivity|]. cbn.
    pose proof (laid_in 0 bl i L Hi). pose proof (laid_in 0 bl j L Hj). unfold block_position in *. lia.
  - discriminate.
  - intros i j w r c Hi Hj E Hr Hc. rewrite (Sh i j w Hi Hj E). unfold address. cbn. rewrite repeat_length.
    pose proof (laid_in 0 bl i L Hi). pose proof (laid_in 0 bl j L Hj). apply inside_area; lia.
  - intros i j w r c i' j' w' r' c' Hi Hj Hi' Hj' E E' Hr Hc Hr' Hc' Q. rewrite (Sh i j w Hi Hj E), (Sh i' j' w' Hi' Hj' E') in Q. unfold address in Q. cbn in Q.
    pose proof (laid_in 0 bl j L Hj). pose proof (laid_in 0 bl j' L Hj').
    apply row_major_unique in Q as [Q1 Q2]; [|lia|lia]. destruct (laid_unique bl i i' r r' L Hi Hi' Hr Hr' Q1). destruct (laid_unique bl j j' c c' L Hj Hj' Hc Hc' Q2). auto.
  - intros i j w i' j' w' Hi Hj Hi' Hj' E E' Q. rewrite (Sh i j w Hi Hj E), (Sh i' j' w' Hi' Hj' E') in Q. cbn in Q. rewrite <- !Nat2Z.inj_mul, <- !Nat2Z.inj_add in Q.
    apply Nat2Z.inj in Q. exact (row_major_unique _ _ _ _ _ Hj Hj' Q).
  - cbn. rewrite repeat_length. reflexivity.
Qed.

(* a common form of the sparse and of the diagonal matrix: the windows are those of a chain *)
Lemma chain_good k bl m fl : blocks m = bl -> chain bl 0 fl -> NoDup (map fst fl) -> length (values m) = areas bl (map fst fl) -> to_clear m = length (values m) ->
  (forall i j, i < length bl -> j < length bl -> (stored_in k i j = true <-> In (i, j) (map fst fl))) ->
  (forall i j v, i < length bl -> j < length bl -> In (i, j, v) fl -> exists l, GetCell m i j = Some (Some (mkWindow l v 0 0 (block_size bl i) (block_size bl j)))) ->
  (forall i j, i < length bl -> j < length bl -> ~ In (i, j) (map fst fl) -> GetCell m i j = Some None) ->
  (forall i j w i' j' w', i < length bl -> j < length bl -> i' < length bl -> j' < length bl ->
    GetCell m i j = Some (Some w) -> GetCell m i' j' = Some (Some w') -> lock w = lock w' -> i = i' /\ j = j') -> good k bl m.
Proof.
  intros B C N Lv Cl St Gw Gn Lk.
  assert (Sh : forall i j w, i < length bl -> j < length bl -> GetCell m i j = Some (Some w) -> exists l v, In (i, j, v) fl /\ w = mkWindow l v 0 0 (block_size bl i) (block_size bl j)).
  { intros i j w Hi Hj E. destruct (in_dec pair_dec (i, j) (map fst fl)) as [I|I].
    - apply in_map_iff in I as [[e v] [E1 E2]]. cbn in E1. subst e. destruct (Gw i j v Hi Hj E2) as [l G]. rewrite G in E. inversion E. exists l, v. auto.
    - rewrite (Gn i j Hi Hj I) in E. discriminate. }
  constructor; auto.
  - intros i j Hi Hj S. apply (St i j Hi Hj) in S. apply in_map_iff in S as [[e v] [E1 E2]]. cbn in E1. subst e. destruct (Gw i j v Hi Hj E2) as [l G].
    eexists. split; [exact G|]. cbn. lia.
  - intros i j Hi Hj S. apply (Gn i j Hi Hj). intros I. apply (St i j Hi Hj) in I. congruence.
  - intros i j w r c Hi Hj E Hr Hc. destruct (Sh i j w Hi Hj E) as [l [v [I ->]]]. unfold address. cbn. rewrite Lv.
    pose proof (chain_bound bl fl 0 (i, j) v C I) as [_ P]. unfold area in P. cbn [fst snd] in P. pose proof (inside_area _ _ r c Hr Hc). lia.
  - intros i j w r c i' j' w' r' c' Hi Hj Hi' Hj' E E' Hr Hc Hr' Hc' Q. destruct (Sh i j w Hi Hj E) as [l [v [I ->]]]. destruct (Sh i' j' w' Hi' Hj' E') as [l' [v' [I' ->]]].
    unfold address in Q. cbn in Q. pose proof (inside_area _ _ r c Hr Hc). pose proof (inside_area _ _ r' c' Hr' Hc').
    destruct (pair_dec (i, j) (i', j')) as [P|P].
    + inversion P. subst i' j'. rewrite (chain_single bl fl 0 _ _ _ C N I I') in Q.
      destruct (row_major_unique _ r c r' c' Hc Hc' ltac:(lia)). auto.
    + exfalso. destruct (chain_disjoint bl fl 0 _ _ _ _ C I I' P) as [D|D]; unfold area in D; cbn [fst snd] in D; lia.
Qed.

Lemma stored_in_iff ps i j : stored_in (KSparse ps) i j = true <-> In (i, j) ps.
Proof.
  cbn. rewrite existsb_exists. split.
  - intros [[a b] [H E]]. cbn in E. apply andb_true_iff in E as [E1 E2]. apply Nat.eqb_eq in E1, E2. congruence.
  - intros H. exists (i, j). split; [exact H|]. cbn. rewrite !Nat.eqb_refl. reflexivity.
Qed.
Lemma sparse_shape junk bl ps m : NewSparse junk bl ps = Some m ->
  exists css, m = mkBram bl (Sparse css (make_layout 0 css)) (map junk (seq 0 (areas bl (btree_set ps)))) /\ (Z.of_nat (length bl) <= INT_MAX)%Z /\
    length css = length bl /\ map fst (flat 0 css) = btree_set ps /\ chain bl 0 (flat 0 css) /\
    (forall i j, In (i, j) ps -> i < length bl /\ j < length bl) /\ (Z.of_nat (areas bl (btree_set ps)) <= INT_MAX)%Z.
Proof.
  unfold NewSparse. destruct (_ && _) eqn:F; [|discriminate]. destruct (all_cells bl bl 0 (btree_set ps) 0) as [css|] eqn:A; [|discriminate]. intros H. inversion H. subst m. clear H.
  apply andb_true_iff in F as [F1 F2]. apply fits_iff in F1. rewrite forallb_forall in F2. destruct (btree_spec ps) as [S I].
  destruct (all_cells_spec bl bl 0 (btree_set ps) 0 css eq_refl S) as [A1 [A2 [A3 [A4 A5]]]]; [intros q Hq; specialize (F2 q Hq); apply Nat.ltb_lt in F2; lia|exact A|].
  exists css. rewrite (nonzeros_flat bl css A1), A2. split; [reflexivity|]. split; [exact F1|]. split; [exact A1|]. split; [reflexivity|]. split; [exact A3|]. split.
  - intros i j H. apply I in H. specialize (F2 _ H). apply Nat.ltb_lt in F2. split; [exact F2|exact (A4 _ H)].
  - apply A5. unfold INT_MAX. lia.
Qed.
Lemma sparse_good junk bl ps m : NewSparse junk bl ps = Some m -> good (KSparse ps) bl m.
Proof.
  intros H. destruct (sparse_shape _ _ _ _ H) as [css [-> [F [L [P [C [R _]]]]]]]. destruct (btree_spec ps) as [S I].
  assert (B : forall e w, In (e, w) (flat 0 css) -> (Z.of_nat (snd e) <= INT_MAX)%Z).
  { intros [a b] w Hw. apply (in_map fst) in Hw. rewrite P in Hw. cbn in Hw. apply I in Hw. destruct (R a b Hw). cbn. lia. }
  assert (N : NoDup (map fst (flat 0 css))) by (rewrite P; exact (sorted_nodup _ S)).
  apply (chain_good _ _ _ (flat 0 css)); cbn [blocks values storage to_clear]; auto.
  - rewrite map_length, seq_length, P. reflexivity.
  - rewrite map_length, seq_length, <- P. unfold to_clear. cbn. apply nonzeros_flat. exact L.
  - intros i j Hi Hj. rewrite stored_in_iff, P, I. tauto.
  - intros i j v Hi Hj Hv. exists (IntPairToInt64 i j). unfold GetCell. cbn [storage blocks]. rewrite layout_flat, (find_flat _ i j v B ltac:(lia) N Hv).
    rewrite (nth_error_block bl i Hi), (nth_error_block bl j Hj). reflexivity.
  - intros i j Hi Hj Hn. unfold GetCell. cbn [storage blocks]. rewrite layout_flat, (find_flat_none _ i j B ltac:(lia) Hn). reflexivity.
  - intros i j w i' j' w' Hi Hj Hi' Hj' E E' Q. unfold GetCell in E, E'. cbn [storage blocks] in E, E'.
    destruct (find_layout _ (IntPairToInt64 i j)); [|discriminate]. destruct (find_layout _ (IntPairToInt64 i' j')); [|discriminate].
    rewrite (nth_error_block bl i Hi), (nth_error_block bl j Hj) in E. rewrite (nth_error_block bl i' Hi'), (nth_error_block bl j' Hj') in E'. inversion E. inversion E'. subst w w'. cbn in Q.
    apply key_injective in Q; [exact Q|lia|lia].
Qed.

(* ------------------------------------------------------------------ the diagonal matrix *)
Definition squares (bl : list Block) : nat := fold_right (fun b s => size b * size b + s) 0 bl.
Fixpoint dflat (i : nat) (bl : list Block) (p : nat) : list (nat * nat * nat) :=
  match bl with [] => [] | b :: bl' => (i, i, p) :: dflat (S i) bl' (p + size b * size b) end.
Lemma skipn_next {A} (l : list A) i x t : x :: t = skipn i l -> t = skipn (S i) l /\ nth_error l i = Some x.
Proof. revert l. induction i as [|i IH]; intros [|y l] H; cbn in *; try discriminate; [inversion H; auto|]. destruct (IH l H). auto. Qed.
Lemma dflat_spec bl todo : forall i p, todo = skipn i bl ->
  chain bl p (dflat i todo p) /\ map fst (dflat i todo p) = map (fun t => (t, t)) (seq i (length todo)) /\
  areas bl (map fst (dflat i todo p)) = squares todo /\
  (forall t v, nth_error (diagonal_layout todo p) t = Some v <-> In (i + t, i + t, v) (dflat i todo p)).
Proof.
  induction todo as [|b todo IH]; intros i p T.
  - cbn. repeat split; auto; intros H; [destruct t; discriminate|destruct H].
  - destruct (skipn_next _ _ _ _ T) as [T' Nb]. assert (Sb : size b = block_size bl i) by (unfold block_size; rewrite (nth_error_nth _ _ _ Nb); reflexivity).
    destruct (IH (S i) (p + size b * size b) T') as [A [B [C D]]]. cbn [dflat]. split; [|split; [|split]].
    + cbn [chain]. split; [reflexivity|]. unfold area. cbn [fst snd]. rewrite <- Sb. exact A.
    + cbn [map fst length seq]. rewrite B. reflexivity.
    + cbn [map fst areas]. rewrite C. change (squares (b :: todo)) with (size b * size b + squares todo). unfold area. cbn [fst snd]. rewrite <- Sb. reflexivity.
    + intros t v. cbn [diagonal_layout In]. destruct t as [|t]; cbn [nth_error].
      * rewrite Nat.add_0_r. split; [intros H; inversion H; auto|]. intros [H|H]; [inversion H; reflexivity|]. exfalso.
        apply (in_map fst) in H. cbn [fst] in H. rewrite B in H. apply in_map_iff in H as [z [Z1 Z2]]. apply in_seq in Z2. inversion Z1. lia.
      * rewrite D. replace (S i + t) with (i + S t) by lia. split; [auto|]. intros [H|H]; [inversion H; lia|exact H].
Qed.
Lemma count_spec bl : forall n r, count_nonzeros bl n = Some r -> r = n + squares bl /\ ((Z.of_nat n <= INT_MAX)%Z -> (Z.of_nat r <= INT_MAX)%Z).
Proof.
  induction bl as [|b bl IH]; intros n r H; cbn [count_nonzeros] in H; [inversion H; cbn; split; [lia|auto]|].
  destruct (fits _) eqn:F; [|discriminate]. apply fits_iff in F. destruct (IH _ _ H) as [A B]. change (squares (b :: bl)) with (size b * size b + squares bl). split; [lia|]. intros _. apply B. lia.
Qed.
Lemma count_some bl : forall n, (Z.of_nat (n + squares bl) <= INT_MAX)%Z -> exists r, count_nonzeros bl n = Some r.
Proof.
  induction bl as [|b bl IH]; intros n H; cbn [count_nonzeros]; [eexists; reflexivity|]. change (squares (b :: bl)) with (size b * size b + squares bl) in H.
  assert (F : fits (Z.of_nat n + Z.of_nat (size b) * Z.of_nat (size b)) = true) by (apply fits_iff; lia). rewrite F. apply IH. lia.
Qed.
Lemma diagonal_rows_last bl : forall n, last (diagonal_rows bl n) 0 = n + squares bl.
Proof.
  induction bl as [|b bl IH]; intros n; [cbn; lia|]. cbn [diagonal_rows]. change (squares (b :: bl)) with (size b * size b + squares bl).
  assert (Ne : diagonal_rows bl (n + size b * size b) <> []) by (destruct bl; cbn; [discriminate|]; intros Q; apply app_eq_nil in Q as [_ Q]; revert Q; generalize (n + size b * size b + size b0 * size b0); clear; induction bl as [|b' bl IH]; intros z Q; [discriminate|]; cbn in Q; apply app_eq_nil in Q as [_ Q]; exact (IH _ Q)).
  assert (G : forall (l l' : list nat), l' <> [] -> last (l ++ l') 0 = last l' 0).
  { clear. induction l as [|x l IH]; intros l' N; [reflexivity|]. cbn [app]. specialize (IH l' N). destruct (l ++ l') eqn:Q; [apply app_eq_nil in Q as [_ Q]; congruence|]. rewrite <- IH. reflexivity. }
  rewrite (G _ _ Ne), IH. lia.
Qed.
Lemma diagonal_shape bl m : NewDiagonal bl = Some m ->
  exists n, count_nonzeros bl 0 = Some n /\ m = mkBram bl (Diagonal (diagonal_rows bl 0) (diagonal_cols bl 0) (diagonal_layout bl 0)) (repeat 0%R n).
Proof.
  unfold NewDiagonal. destruct (count_nonzeros bl 0) as [n|]; [|discriminate]. destruct (_ =? _); [|discriminate]. intros H. inversion H. exists n. auto.
Qed.
Lemma diagonal_good bl m : NewDiagonal bl = Some m -> good KDiagonal bl m.
Proof.
  intros H. destruct (diagonal_shape _ _ H) as [n [E ->]]. destruct (count_spec _ _ _ E) as [E1 _]. destruct (dflat_spec bl bl 0 0 eq_refl) as [C [M [A D]]].
  assert (I : forall i j, In (i, j) (map fst (dflat 0 bl 0)) <-> i = j /\ i < length bl).
  { intros i j. rewrite M, in_map_iff. split; [intros [z [Z1 Z2]]; apply in_seq in Z2; inversion Z1; lia|]. intros [<- Hi]. exists i. split; [reflexivity|]. apply in_seq. lia. }
  apply (chain_good _ _ _ (dflat 0 bl 0)); cbn [blocks values storage]; auto.
  - rewrite M. apply FinFun.Injective_map_NoDup; [intros x y Q; inversion Q; reflexivity|apply seq_NoDup].
  - rewrite repeat_length, A, E1. reflexivity.
  - unfold to_clear. cbn [storage]. rewrite repeat_length, diagonal_rows_last, E1. reflexivity.
  - intros i j Hi Hj. cbn. rewrite Nat.eqb_eq, I. tauto.
  - intros i j v Hi Hj Hv. exists (Z.of_nat i). pose proof (in_map fst _ _ Hv) as Hp. cbn [fst] in Hp. apply I in Hp as [<- _].
    unfold GetCell. cbn [storage blocks]. rewrite Nat.eqb_refl, (nth_error_block bl i Hi). apply (D i v) in Hv. rewrite Hv. reflexivity.
  - intros i j Hi Hj Hn. unfold GetCell. cbn [storage]. destruct (i =? j) eqn:Q; [|reflexivity]. apply Nat.eqb_eq in Q. exfalso. apply Hn. apply I. auto.
  - intros i j w i' j' w' Hi Hj Hi' Hj' G G' Q. unfold GetCell in G, G'. cbn [storage blocks] in G, G'.
    destruct (i =? j) eqn:P; [|discriminate]. destruct (i' =? j') eqn:P'; [|discriminate]. apply Nat.eqb_eq in P, P'. subst j j'.
    rewrite (nth_error_block bl i Hi) in G. rewrite (nth_error_block bl i' Hi') in G'. destruct (nth_error _ i) in G; [|discriminate]. destruct (nth_error _ i') in G'; [|discriminate].
    inversion G. inversion G'. subst w w'. cbn in Q. lia.
Qed.

Lemma build_good junk k bl m : laid_out 0 bl -> build junk k bl = Some m -> good k bl m.
Proof. destruct k; intros L H; [exact (dense_good bl m L H)|exact (sparse_good _ _ _ _ H)|exact (diagonal_good _ _ H)]. Qed.

Lemma zsum_squares bl : zsum (fun b => (Z.of_nat (size b) * Z.of_nat (size b))%Z) bl = Z.of_nat (squares bl).
Proof. induction bl as [|b bl IH]; [reflexivity|]. unfold zsum, squares in *. cbn [fold_right]. rewrite IH. lia. Qed.
Lemma build_iff junk k bl : laid_out 0 bl -> ((exists m, build junk k bl = Some m) <-> representable k bl /\ pairs_in_range k bl).
Proof.
  intros L. destruct k as [|ps|]; cbn [build representable pairs_in_range].
  - rewrite zsum_total. unfold NewDense. rewrite (scalar_entries bl L). split.
    + intros [m H]. destruct (_ && _) eqn:F in H; [|discriminate]. apply andb_true_iff in F as [F1 F2]. apply fits_iff in F1, F2. auto.
    + intros [[F1 F2] _]. apply fits_iff in F1, F2. cbv zeta in F1. rewrite F1, F2. eexists. reflexivity.
  - rewrite zsum_areas, <- (areas_permutation bl _ _ (btree_permutation ps)). split.
    + intros [m H]. destruct (sparse_shape _ _ _ _ H) as [css [_ [A [_ [_ [_ [B C]]]]]]]. auto.
    + intros [[F1 F2] R]. destruct (btree_spec ps) as [S I]. unfold NewSparse.
      assert (Q1 : fits (Z.of_nat (length bl)) = true) by (apply fits_iff; exact F1).
      assert (Q2 : forallb (fun q => fst q <? length bl) (btree_set ps) = true) by (apply forallb_forall; intros [a b] Hq; apply I in Hq; apply Nat.ltb_lt; exact (proj1 (R a b Hq))).
      rewrite Q1, Q2. cbn [andb]. destruct (all_cells_some bl bl 0 (btree_set ps) 0 eq_refl) as [css Hc]; [intros [a b] Hq; apply I in Hq; exact (proj2 (R a b Hq))|exact F2|].
      rewrite Hc. eexists. reflexivity.
  - rewrite zsum_squares. split.
    + intros [m H]. destruct (diagonal_shape _ _ H) as [n [E _]]. destruct (count_spec _ _ _ E) as [-> F]. split; [|exact I]. apply F. unfold INT_MAX. lia.
    + intros [F _]. destruct (count_some bl 0 F) as [r Hr]. unfold NewDiagonal. rewrite Hr, sum_sizes_total, (scalar_entries bl L), Nat.eqb_refl. eexists. reflexivity.
Qed.

(* ------------------------------------------------------------------ writing *)
Lemma write_spec v p f : p < length v -> exists v', write v p f = Some v' /\ length v' = length v /\
  forall q, nth_error v' q = if q =? p then option_map f (nth_error v q) else nth_error v q.
Proof.
  revert p. induction v as [|x v IH]; intros p H; [cbn in H; lia|]. destruct p as [|p].
  - cbn [write]. eexists. split; [reflexivity|]. split; [reflexivity|]. intros [|q]; reflexivity.
  - cbn in H. destruct (IH p ltac:(lia)) as [v' [A [B C]]]. cbn [write]. rewrite A. eexists. split; [reflexivity|]. split; [cbn; lia|].
    intros [|q]; [reflexivity|]. cbn [nth_error]. rewrite C. reflexivity.
Qed.
Lemma write_all_spec ws : forall v, (forall p f, In (p, f) ws -> p < length v) -> NoDup (map fst ws) ->
  exists v', write_all v ws = Some v' /\ length v' = length v /\
  (forall p f, In (p, f) ws -> nth_error v' p = option_map f (nth_error v p)) /\
  (forall p, ~ In p (map fst ws) -> nth_error v' p = nth_error v p).
Proof.
  induction ws as [|[p f] ws IH]; intros v H N; cbn [write_all].
  - exists v. split; [reflexivity|]. split; [reflexivity|]. split; [intros ? ? []|reflexivity].
  - destruct (write_spec v p f (H _ _ (or_introl eq_refl))) as [v1 [A [B C]]]. rewrite A. inversion N as [|? ? N1 N2]. subst.
    destruct (IH v1) as [v' [D [E [F G]]]]; [intros q g Hq; rewrite B; exact (H q g (or_intror Hq))|exact N2|]. exists v'. split; [exact D|]. split; [congruence|]. split.
    + intros q g [Q|Q].
      * inversion Q. subst q g. rewrite (G p N1), C, Nat.eqb_refl. reflexivity.
      * rewrite (F q g Q), C. destruct (q =? p) eqn:Z; [|reflexivity]. apply Nat.eqb_eq in Z. subst. exfalso. apply N1. apply (in_map fst) in Q. exact Q.
    + intros q Q. rewrite G, C by (intros X; apply Q; right; exact X). destruct (q =? p) eqn:Z; [|reflexivity]. apply Nat.eqb_eq in Z. subst. exfalso. apply Q. left. reflexivity.
Qed.
Lemma in_positions n k r c : In (r, c) (positions n k) <-> r < n /\ c < k.
Proof.
  unfold positions. rewrite in_flat_map. split.
  - intros [x [X Y]]. apply in_map_iff in Y as [y [Y1 Y2]]. apply in_seq in X, Y2. inversion Y1. subst. lia.
  - intros [H H']. exists r. split; [apply in_seq; lia|]. apply in_map_iff. exists c. split; [reflexivity|]. apply in_seq. lia.
Qed.
Lemma nodup_app {A} (l l' : list A) : NoDup l -> NoDup l' -> (forall x, In x l -> ~ In x l') -> NoDup (l ++ l').
Proof.
  induction l as [|x l IH]; intros N N' D; [exact N'|]. inversion N. subst. cbn. constructor.
  - intros H. apply in_app_or in H as [H|H]; [contradiction|]. exact (D x (or_introl eq_refl) H).
  - apply IH; auto. intros y Hy. apply D. right. exact Hy.
Qed.
Lemma nodup_positions n k : NoDup (positions n k).
Proof.
  unfold positions. generalize (seq_NoDup n 0). generalize (seq 0 n) as l. induction l as [|x l IH]; intros N; [constructor|]. inversion N as [|? ? N1 N2]. subst. cbn [flat_map].
  apply nodup_app; [apply FinFun.Injective_map_NoDup; [intros a b Q; inversion Q; reflexivity|apply seq_NoDup]|exact (IH N2)|].
  intros [a b] H H'. apply in_map_iff in H as [c [Q _]]. inversion Q. subst a. apply in_flat_map in H' as [y [Y1 Y2]]. apply in_map_iff in Y2 as [d [Q' _]]. inversion Q'. subst. contradiction.
Qed.
Lemma nodup_map_in {A B} (f : A -> B) l : NoDup l -> (forall x y, In x l -> In y l -> f x = f y -> x = y) -> NoDup (map f l).
Proof.
  induction l as [|x l IH]; intros N I; [constructor|]. inversion N. subst. cbn. constructor.
  - intros H. apply in_map_iff in H as [y [Y1 Y2]]. rewrite (I y x (or_intror Y2) (or_introl eq_refl) Y1) in Y2. contradiction.
  - apply IH; [assumption|]. intros y z Hy Hz. apply I; right; assumption.
Qed.

(* writing a block changes its entries and nothing of any other block *)
Lemma write_block_spec k bl m i j w n l f : good k bl m -> i < length bl -> j < length bl -> GetCell m i j = Some (Some w) -> stored_in k i j = true ->
  n <= block_size bl i -> l <= block_size bl j ->
  exists v, write_block (values m) w n l f = Some v /\ length v = length (values m) /\
    forall i' j' w' r c, i' < length bl -> j' < length bl -> GetCell m i' j' = Some (Some w') -> r < block_size bl i' -> c < block_size bl j' ->
      nth_error v (address w' r c) = if inside i j n l i' j' r c then option_map (f r c) (nth_error (values m) (address w' r c)) else nth_error (values m) (address w' r c).
Proof.
  intros G Hi Hj E St Hn Hl. destruct (g_window _ _ _ G i j Hi Hj St) as [w0 [E0 [F1 F2]]]. rewrite E in E0. inversion E0. subst w0. clear E0.
  unfold write_block. assert (Q1 : row_in w + n <=? row_stride w = true) by (apply Nat.leb_le; lia). assert (Q2 : col_in w + l <=? col_stride w = true) by (apply Nat.leb_le; lia).
  rewrite Q1, Q2. cbn [andb]. set (ws := map (fun rc => (address w (fst rc) (snd rc), f (fst rc) (snd rc))) (positions n l)).
  destruct (write_all_spec ws (values m)) as [v [A [B [C D]]]].
  - intros p g H. apply in_map_iff in H as [[r c] [H1 H2]]. apply in_positions in H2. inversion H1. subst. cbn [fst snd]. apply (g_bound _ _ _ G i j w r c); auto; lia.
  - unfold ws. rewrite map_map. cbn [fst]. apply nodup_map_in; [apply nodup_positions|]. intros [r c] [r' c'] H H' Q. apply in_positions in H, H'. cbn [fst snd] in Q.
    destruct (g_apart _ _ _ G i j w r c i j w r' c' Hi Hj Hi Hj E E ltac:(lia) ltac:(lia) ltac:(lia) ltac:(lia) Q) as [_ [_ [-> ->]]]. reflexivity.
  - exists v. split; [exact A|]. split; [exact B|]. intros i' j' w' r c Hi' Hj' E' Hr Hc. unfold inside.
    destruct (i' =? i) eqn:Z1; [apply Nat.eqb_eq in Z1; subst i'|]; cbn [andb].
    1: destruct (j' =? j) eqn:Z2; [apply Nat.eqb_eq in Z2; subst j'|]; cbn [andb].
    1: rewrite E in E'; inversion E'; subst w'; destruct (r <? n) eqn:Z3; cbn [andb].
    1: destruct (c <? l) eqn:Z4.
    + apply Nat.ltb_lt in Z3, Z4. apply (C _ (f r c)). unfold ws. apply in_map_iff. exists (r, c). split; [reflexivity|]. apply in_positions. auto.
    + apply D. unfold ws. rewrite map_map. cbn [fst]. intros H. apply in_map_iff in H as [[r' c'] [H1 H2]]. apply in_positions in H2. cbn [fst snd] in H1. apply Nat.ltb_ge in Z4.
      destruct (g_apart _ _ _ G i j w r' c' i j w r c Hi Hj Hi Hj E E ltac:(lia) ltac:(lia) ltac:(lia) ltac:(lia) H1) as [_ [_ [? ?]]]. lia.
    + apply D. unfold ws. rewrite map_map. cbn [fst]. intros H. apply in_map_iff in H as [[r' c'] [H1 H2]]. apply in_positions in H2. cbn [fst snd] in H1. apply Nat.ltb_ge in Z3.
      destruct (g_apart _ _ _ G i j w r' c' i j w r c Hi Hj Hi Hj E E ltac:(lia) ltac:(lia) ltac:(lia) ltac:(lia) H1) as [_ [_ [? ?]]]. lia.
    + apply D. unfold ws. rewrite map_map. cbn [fst]. intros H. apply in_map_iff in H as [[r' c'] [H1 H2]]. apply in_positions in H2. cbn [fst snd] in H1. apply Nat.eqb_neq in Z2.
      destruct (g_apart _ _ _ G i j w r' c' i j' w' r c Hi Hj Hi Hj' E E' ltac:(lia) ltac:(lia) ltac:(lia) ltac:(lia) H1) as [? [? [? ?]]]. lia.
    + apply D. unfold ws. rewrite map_map. cbn [fst]. intros H. apply in_map_iff in H as [[r' c'] [H1 H2]]. apply in_positions in H2. cbn [fst snd] in H1. apply Nat.eqb_neq in Z1.
      destruct (g_apart _ _ _ G i j w r' c' i' j' w' r c Hi Hj Hi' Hj' E E' ltac:(lia) ltac:(lia) ltac:(lia) ltac:(lia) H1) as [? [? [? ?]]]. lia.
Qed.

(* ------------------------------------------------------------------ histories *)
Lemma change_spec k bl m i j n l f a (g : nat -> nat -> nat -> nat -> R) : good k bl m -> holds k bl m a ->
  i < length bl -> j < length bl -> n <= block_size bl i -> l <= block_size bl j ->
  (forall i' j' r c, g i' j' r c = if stored_in k i j && inside i j n l i' j' r c then f r c (a i' j' r c) else a i' j' r c) ->
  exists m', change m i j n l f = Some m' /\ good k bl m' /\ storage m' = storage m /\ holds k bl m' g.
Proof.
  intros G H Hi Hj Hn Hl Eg. unfold change. destruct (stored_in k i j) eqn:St.
  - destruct (g_window _ _ _ G i j Hi Hj St) as [w [E _]]. rewrite E. destruct (write_block_spec k bl m i j w n l f G Hi Hj E St Hn Hl) as [v [A [B C]]]. rewrite A.
    eexists. split; [reflexivity|]. split; [exact (good_values _ _ _ _ G B)|]. split; [reflexivity|].
    intros i' j' r c Hi' Hj' Hr Hc St'. specialize (H i' j' r c Hi' Hj' Hr Hc St'). unfold cell_entry in *.
    destruct (g_window _ _ _ G i' j' Hi' Hj' St') as [w' [E' _]]. change (GetCell (with_values m v) i' j') with (GetCell m i' j'). rewrite E' in *.
    cbn [with_values values]. rewrite (C i' j' w' r c Hi' Hj' E' Hr Hc), H, Eg. cbn [andb]. destruct (inside _ _ _ _ _ _ _ _); reflexivity.
  - rewrite (g_none _ _ _ G i j Hi Hj St). exists m. split; [reflexivity|]. split; [exact G|]. split; [reflexivity|].
    intros i' j' r c Hi' Hj' Hr Hc St'. rewrite (H i' j' r c Hi' Hj' Hr Hc St'), Eg. reflexivity.
Qed.
Lemma nth_error_repeat_in {A} (x : A) n p : p < n -> nth_error (repeat x n) p = Some x.
Proof. revert p. induction n as [|n IH]; intros p H; [lia|]. destruct p; [reflexivity|]. cbn. apply IH. lia. Qed.
Lemma clear_spec k bl m : good k bl m -> exists m', SetZero m = Some m' /\ good k bl m' /\ storage m' = storage m /\ holds k bl m' (fun _ _ _ _ => 0%R).
Proof.
  intros G. unfold SetZero. rewrite (g_clear _ _ _ G), Nat.leb_refl, skipn_all, app_nil_r. eexists. split; [reflexivity|].
  split; [apply good_values; [exact G|apply repeat_length]|]. split; [reflexivity|]. intros i j r c Hi Hj Hr Hc St. unfold cell_entry.
  destruct (g_window _ _ _ G i j Hi Hj St) as [w [E _]]. change (GetCell (with_values m (repeat 0%R (length (values m)))) i j) with (GetCell m i j). rewrite E.
  cbn [with_values values]. apply nth_error_repeat_in. exact (g_bound _ _ _ G i j w r c Hi Hj E Hr Hc).
Qed.
Lemma step_spec k bl m a o : good k bl m -> holds k bl m a -> valid_op bl o -> exists m', step m o = Some m' /\ good k bl m' /\ storage m' = storage m /\ holds k bl m' (ideal_step k a o).
Proof.
  intros G H V. destruct o as [|i j n l M|i j n l M]; cbn [step].
  - exact (clear_spec k bl m G).
  - destruct V as [A [B [C D]]]. exact (change_spec k bl m i j n l _ a _ G H A B C D (fun _ _ _ _ => eq_refl)).
  - destruct V as [A [B [C D]]]. exact (change_spec k bl m i j n l (fun r c _ => M r c) a _ G H A B C D (fun _ _ _ _ => eq_refl)).
Qed.
Lemma run_spec k bl os : forall m a, good k bl m -> holds k bl m a -> (forall o, In o os -> valid_op bl o) ->
  exists m', run m os = Some m' /\ good k bl m' /\ storage m' = storage m /\ holds k bl m' (ideal_run k a os).
Proof.
  induction os as [|o os IH]; intros m a G H V; [exists m; auto|]. cbn [run]. destruct (step_spec k bl m a o G H (V o (or_introl eq_refl))) as [m1 [A [B [C D]]]]. rewrite A.
  destruct (IH m1 _ B D (fun o' Ho => V o' (or_intror Ho))) as [m' [A' [B' [C' D']]]]. exists m'. split; [exact A'|]. split; [exact B'|]. split; [congruence|exact D'].
Qed.
(* every good matrix holds something *)
Lemma holds_some k bl m : good k bl m -> exists a, holds k bl m a.
Proof.
  intros G. exists (fun i j r c => match cell_entry m i j r c with Some x => x | None => 0%R end). intros i j r c Hi Hj Hr Hc St. unfold cell_entry.
  destruct (g_window _ _ _ G i j Hi Hj St) as [w [E _]]. rewrite E. pose proof (g_bound _ _ _ G i j w r c Hi Hj E Hr Hc) as B. apply nth_error_Some in B.
  destruct (nth_error (values m) (address w r c)); [reflexivity|congruence].
Qed.
