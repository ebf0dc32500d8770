(* C82: PermuteToCRS. *)
From Coq Require Import Reals List Arith Bool Lia Permutation.
From Verif Require Import SchurModel BlockSparseModel BlockSparseSpec BlockSparseProofs BlockSparseProofs2 GpuModel GpuSpec GpuProofs GpuProofs2 GpuProofs3.
Import ListNotations.
Close Scope R_scope. Open Scope nat_scope.

Section Cells.
Variable bl : list Block.
Notation W := (widths bl).
Lemma placed_split h pre c post : forall P, placed bl h P (pre ++ c :: post) -> cell_position c = P + h * W pre.
Proof. induction pre as [|x pre IH]; intros P H; cbn [app placed widths] in *; [lia|]. rewrite (IH _ (proj2 H)). lia. Qed.
Lemma all_placed_nth rs : forall P k, all_placed bl P rs -> k < length rs -> placed bl (size (block (nth k rs dr))) (P + rooms bl (firstn k rs)) (cells (nth k rs dr)).
Proof.
  induction rs as [|r rs IH]; intros P [|k] H K; cbn [length all_placed nth firstn rooms] in *; try lia; destruct H as [H1 H2]; [now rewrite Nat.add_0_r|]. rewrite Nat.add_assoc. apply IH; [auto|lia].
Qed.
Lemma find_in F h id pre c post : f_cols F = bl -> forall P before, placed bl h P (pre ++ c :: post) -> P + h * W pre <= id < P + h * W pre + h * cw bl c ->
  find_cell F h id before (pre ++ c :: post) = Some (c, before + W pre).
Proof.
  intros E. induction pre as [|x pre IH]; intros P before H B; cbn [app placed find_cell widths] in *; destruct H as [H1 H2]; unfold fcol; rewrite E.
  - fold (cw bl c). destruct (Nat.ltb_spec id (cell_position c + h * cw bl c)); [now rewrite Nat.add_0_r|lia].
  - fold (cw bl x). destruct (Nat.ltb_spec id (cell_position x + h * cw bl x)); [nia|]. rewrite (IH (P + h * cw bl x)); [f_equal; f_equal; lia|auto|lia].
Qed.
Lemma find_none F h id cs : f_cols F = bl -> forall P before, placed bl h P cs -> P + h * W cs <= id -> find_cell F h id before cs = None.
Proof.
  intros E. induction cs as [|x cs IH]; intros P before H B; cbn [placed find_cell widths] in *; [auto|]. destruct H as [H1 H2]. unfold fcol. rewrite E. fold (cw bl x). destruct (Nat.ltb_spec id (cell_position x + h * cw bl x)); [nia|]. apply (IH (P + h * cw bl x)); [auto|lia].
Qed.
(* every place of the block order and of the row order is that of an entry of a cell *)
Definition place (rs : list Row) (k i : nat) (pre : list Cell) (c : Cell) (post : list Cell) (j : nat) : Prop :=
  k < length rs /\ i < size (block (nth k rs dr)) /\ cells (nth k rs dr) = pre ++ c :: post /\ j < cw bl c.
Definition address (rs : list Row) (k i : nat) (pre : list Cell) (j : nat) : nat := rooms bl (firstn k rs) + i * W (cells (nth k rs dr)) + W pre + j.
Lemma cells_find h cs : forall t, t < h * W cs -> exists pre c post i j, cs = pre ++ c :: post /\ i < h /\ j < cw bl c /\ t = h * W pre + i * cw bl c + j.
Proof.
  induction cs as [|x cs IH]; intros t H; cbn [widths] in H; [lia|]. destruct (lt_dec t (h * cw bl x)) as [Q|Q].
  - exists [], x, cs, (t / cw bl x), (t mod cw bl x). assert (cw bl x <> 0) by nia. split; [auto|]. split; [apply Nat.div_lt_upper_bound; nia|]. split; [apply Nat.mod_upper_bound; auto|]. cbn [widths]. rewrite (Nat.div_mod t (cw bl x)) at 1 by auto. lia.
  - destruct (IH (t - h * cw bl x)) as [pre [c [post [i [j [E [I [J T]]]]]]]]; [nia|]. exists (x :: pre), c, post, i, j. split; [now rewrite E|]. split; [auto|]. split; [auto|]. cbn [widths]. lia.
Qed.
Lemma columns_find cs : forall t, t < W cs -> exists pre c post j, cs = pre ++ c :: post /\ j < cw bl c /\ t = W pre + j.
Proof.
  induction cs as [|x cs IH]; intros t H; cbn [widths] in H; [lia|]. destruct (lt_dec t (cw bl x)) as [Q|Q].
  - exists [], x, cs, t. cbn. auto.
  - destruct (IH (t - cw bl x)) as [pre [c [post [j [E [J T]]]]]]; [lia|]. exists (x :: pre), c, post, j. split; [now rewrite E|]. split; [auto|]. cbn [widths]. lia.
Qed.
Lemma place_find rs : forall t, t < rooms bl rs -> exists k i pre c post j, place rs k i pre c post j /\ t = rooms bl (firstn k rs) + size (block (nth k rs dr)) * W pre + i * cw bl c + j.
Proof.
  induction rs as [|r rs IH]; intros t H; cbn [rooms] in H; [lia|]. destruct (lt_dec t (room bl r)) as [Q|Q].
  - destruct (cells_find (size (block r)) (cells r) t Q) as [pre [c [post [i [j [E [I [J T]]]]]]]]. exists 0, i, pre, c, post, j. split; [split; [cbn; lia|auto]|]. cbn [firstn rooms nth]. lia.
  - destruct (IH (t - room bl r)) as [k [i [pre [c [post [j [[K PL] T]]]]]]]; [lia|]. exists (S k), i, pre, c, post, j. split; [split; [cbn; lia|exact PL]|]. cbn [firstn rooms nth]. lia.
Qed.
Lemma address_find rs : forall a, a < rooms bl rs -> exists k i pre c post j, place rs k i pre c post j /\ a = address rs k i pre j.
Proof.
  induction rs as [|r rs IH]; intros a H; cbn [rooms] in H; [lia|]. destruct (lt_dec a (room bl r)) as [Q|Q].
  - unfold room in Q. assert (W (cells r) <> 0) by nia. destruct (columns_find (cells r) (a mod W (cells r))) as [pre [c [post [j [E [J T]]]]]]; [now apply Nat.mod_upper_bound|].
    exists 0, (a / W (cells r)), pre, c, post, j. split; [split; [cbn; lia|]; split; [apply Nat.div_lt_upper_bound; cbn [nth]; lia|auto]|]. unfold address. cbn [firstn rooms nth]. rewrite (Nat.div_mod a (W (cells r))) at 1 by auto. lia.
  - destruct (IH (a - room bl r)) as [k [i [pre [c [post [j [[K PL] T]]]]]]]; [lia|]. exists (S k), i, pre, c, post, j. split; [split; [cbn; lia|exact PL]|]. unfold address in *. cbn [firstn rooms nth]. lia.
Qed.
Lemma place_bound rs k i pre c post j : place rs k i pre c post j -> rooms bl (firstn k rs) + size (block (nth k rs dr)) * W pre + i * cw bl c + j < rooms bl (firstn (S k) rs).
Proof. intros [K [I [E J]]]. rewrite rooms_firstn by auto. unfold room. rewrite E, widths_app. cbn [widths]. nia. Qed.
End Cells.

Lemma batches_seq per n : 0 < per -> forall fuel o, n - o <= fuel -> flat_map (fun b => seq (fst b) (snd b)) (batches fuel per o n) = seq o (n - o).
Proof.
  intros P. induction fuel as [|fuel IH]; intros o B; cbn [batches]; [replace (n - o) with 0 by lia; reflexivity|]. destruct (Nat.ltb_spec o n) as [Q|Q]; [|replace (n - o) with 0 by lia; reflexivity].
  cbn [flat_map fst snd]. rewrite IH by lia. destruct (le_dec (n - o) per) as [M|M].
  - rewrite Nat.min_l by lia. replace (n - (o + per)) with 0 by lia. apply app_nil_r.
  - rewrite Nat.min_r by lia. rewrite <- seq_app. f_equal. lia.
Qed.
Lemma permute_shift part e F rows base o from v : PermuteThread part e F rows (base + o) (fun i => from (o + i)) v = PermuteThread part e F rows base from (o + v).
Proof. unfold PermuteThread. replace (v + (base + o)) with (o + v + base) by lia. reflexivity. Qed.
Lemma batches_all part e F rows base per n from : 0 < per ->
  flat_map (fun b => map (PermuteThread part e F rows (base + fst b) (fun i => from (fst b + i))) (seq 0 (snd b))) (batches n per 0 n) = map (PermuteThread part e F rows base from) (seq 0 n).
Proof.
  intros P. replace (seq 0 n) with (seq 0 (n - 0)) by (f_equal; lia). rewrite <- (batches_seq per n P n 0) by lia. generalize (batches n per 0 n) as l. induction l as [|b l IH]; cbn [flat_map]; [reflexivity|]. rewrite map_app, IH. f_equal.
  rewrite (map_ext _ (fun v => PermuteThread part e F rows base from (fst b + v))) by (intros v; apply permute_shift). rewrite <- (map_map (fun v => fst b + v) (PermuteThread part e F rows base from)). f_equal.
  clear. destruct b as [o m]. cbn [fst snd]. revert o. induction m as [|m IH]; intros o; cbn [seq map]; [reflexivity|]. rewrite Nat.add_0_r. f_equal. rewrite <- (IH (S o)), <- seq_shift, map_map. apply map_ext. intros i. lia.
Qed.

Section Permute.
Variables (bl : list Block) (es fs : list Row) (part : bool) (F : Flat) (base : nat) (crs_rows : nat -> nat).
Let rs := es ++ fs.
Let frs := map without es ++ fs.
Hypotheses (H1 : f_first F = firsts 0 rs ++ [length (flat_map cells rs)]) (H2 : f_cells F = flat_map cells rs) (H3 : f_rows F = map block rs) (H4 : f_cols F = bl).
Hypotheses (NP : part = false -> es = []) (NE : forall row, In row es -> cells row <> []) (L : laid_out 0 (map block rs)).
Hypothesis PL : all_placed bl base frs.
Hypothesis DATA : forall i, i < length rs -> (if part then nth_error (f_offsets F)
              else fun i => match nth_error (f_first F) i with None => None | Some a => match nth_error (f_cells F) a with None => None | Some c => Some (cell_position c) end end) i = Some (base + rooms bl (firstn i frs)).
Hypothesis ROWS : forall k i, k < length frs -> i <= size (block (nth k frs dr)) -> crs_rows (row_of frs k i) = rooms bl (firstn k frs) + i * widths bl (cells (nth k frs dr)).

Lemma len : length frs = length rs. Proof. apply frs_len. Qed.
Lemma thread_in k i pre c post j offset values v : place bl frs k i pre c post j -> v + offset = cell_position c + i * cw bl c + j ->
  PermuteThread part (length es) F crs_rows offset values v = Some [(address bl frs k i pre j, values v)].
Proof.
  intros [K [I [E J]]] ID. unfold PermuteThread. rewrite H3, map_length.
  assert (Q := all_placed_nth bl frs base k PL K). rewrite E in Q. assert (PC := placed_split bl _ _ _ _ _ Q).
  assert (B := place_bound bl frs k i pre c post j (conj K (conj I (conj E J)))).
  assert (K' : k < length rs) by (rewrite <- len; auto).
  assert (N0 : 0 < length rs) by lia. assert (D0 : base + rooms bl (firstn 0 frs) <= v + offset) by (cbn; lia).
  destruct (point_ok _ (fun i => base + rooms bl (firstn i frs)) (v + offset) (length rs) N0 DATA D0) as [rb [-> [R1 [R2 R3]]]].
  assert (rb = k).
  { destruct (lt_eq_lt_dec rb k) as [[M|M]|M]; [|auto|].
    - exfalso. specialize (R3 ltac:(lia)). generalize (rooms_mono bl frs (S rb) k ltac:(lia)). lia.
    - exfalso. generalize (rooms_mono bl frs (S k) rb ltac:(lia)). lia. }
  subst rb. assert (EN : nth_error (map block rs) k = Some (block (nth k rs dr))) by (rewrite <- (map_nth block); apply nth_error_nth'; now rewrite map_length). rewrite EN, (cell_range_ok es fs F H1 H2 k K').
  rewrite (proj1 (split_ok es fs part NP NE k K')). fold frs. rewrite E. assert (EB : block (nth k rs dr) = block (nth k frs dr)) by (symmetry; apply (nth_block es fs frs (frs_blocks es fs))). rewrite EB.
  rewrite (find_in bl F _ _ pre c post H4 _ 0 Q) by nia. rewrite Nat.add_0_l. destruct (Nat.ltb_spec (v + offset) (cell_position c)); [lia|]. unfold fcol. rewrite H4. fold (cw bl c).
  replace (v + offset - cell_position c) with (i * cw bl c + j) by lia. rewrite Nat.div_add_l, Nat.div_small, Nat.add_0_r by lia. rewrite Nat.add_comm with (n := i * cw bl c), Nat.mod_add, Nat.mod_small by lia.
  do 3 f_equal. unfold address. rewrite <- (ROWS k i K ltac:(lia)). unfold row_of. do 2 f_equal. f_equal. lia.
Qed.
Lemma thread_out offset values v : 0 < length rs -> base + rooms bl frs <= v + offset -> PermuteThread part (length es) F crs_rows offset values v = Some [].
Proof.
  intros N B. unfold PermuteThread. rewrite H3, map_length. assert (D0 : base + rooms bl (firstn 0 frs) <= v + offset) by (cbn; lia). destruct (point_ok _ (fun i => base + rooms bl (firstn i frs)) (v + offset) (length rs) N DATA D0) as [k [-> [K' [_ _]]]].
  assert (K : k < length frs) by (rewrite len; auto).
  assert (EN : nth_error (map block rs) k = Some (block (nth k rs dr))) by (rewrite <- (map_nth block); apply nth_error_nth'; now rewrite map_length). rewrite EN, (cell_range_ok es fs F H1 H2 k K').
  rewrite (proj1 (split_ok es fs part NP NE k K')). fold frs. assert (EB : block (nth k rs dr) = block (nth k frs dr)) by (symmetry; apply (nth_block es fs frs (frs_blocks es fs))). rewrite EB.
  rewrite (find_none bl F _ _ _ H4 _ 0 (all_placed_nth bl frs base k PL K)); [reflexivity|]. generalize (rooms_firstn bl frs k K) (rooms_all bl frs (S k)). unfold room. lia.
Qed.
Theorem permute_ok per n from : 0 < per -> rooms bl frs <= n -> (length rs = 0 -> n = 0) ->
  exists ws, permute_writes part (length es) F crs_rows base per n from = Some ws /\ Permutation (map fst ws) (seq 0 (rooms bl frs)) /\ forall old new, launch ws old new ->
    forall k i pre c post j, place bl frs k i pre c post j -> new (address bl frs k i pre j) = from (cell_position c + i * cw bl c + j - base).
Proof.
  intros P N Z. unfold permute_writes. rewrite batches_all by auto. set (Q := PermuteThread part (length es) F crs_rows base from).
  set (q := fun t => match Q t with Some w => w | None => [] end). set (T := rooms bl frs) in *.
  assert (POS : forall k i pre c post j, place bl frs k i pre c post j -> cell_position c = base + rooms bl (firstn k frs) + size (block (nth k frs dr)) * widths bl pre).
  { intros k i pre c post j [K [I [E J]]]. assert (X := all_placed_nth bl frs base k PL K). rewrite E in X. exact (placed_split bl _ _ _ _ _ X). }
  assert (IN : forall t, t < T -> Q t = Some (q t) /\ length (q t) = 1).
  { intros t B. destruct (place_find bl frs t B) as [k [i [pre [c [post [j [PC E]]]]]]]. unfold q, Q. rewrite (thread_in k i pre c post j base from t PC) by (rewrite (POS _ _ _ _ _ _ PC); lia). auto. }
  assert (OUT : forall t, t < n -> T <= t -> Q t = Some (q t) /\ q t = []). { intros t B1 B2. unfold q, Q. rewrite thread_out; [auto|destruct (length rs); [specialize (Z eq_refl); lia|lia]|fold T; lia]. }
  rewrite (all_some_map Q q) by (intros t I; apply in_seq in I; destruct (lt_dec t T); [apply IN; auto|apply OUT; lia]). eexists. split; [reflexivity|].
  assert (LEN : length (concat (map q (seq 0 n))) = T).
  { replace n with (T + (n - T)) by lia. rewrite seq_app, map_app, concat_app, app_length, Nat.add_0_l. assert (E2 : concat (map q (seq T (n - T))) = []).
    { assert (G : forall l, (forall t, In t l -> q t = []) -> concat (map q l) = []) by (induction l as [|t l IH]; intros H; cbn [map concat]; [auto|rewrite (H t (or_introl eq_refl)), IH; [auto|intros; apply H; now right]]). apply G. intros t I. apply in_seq in I. apply OUT; lia. }
    rewrite E2. cbn [length]. rewrite Nat.add_0_r. assert (G : forall l, (forall t, In t l -> length (q t) = 1) -> length (concat (map q l)) = length l) by (induction l as [|t l IH]; intros H; cbn [map concat]; [auto|rewrite app_length, (H t (or_introl eq_refl)), IH; [auto|intros; apply H; now right]]).
    rewrite G; [apply seq_length|]. intros t I. apply in_seq in I. apply IN. lia. }
  assert (WR : forall k i pre c post j, place bl frs k i pre c post j -> In (address bl frs k i pre j, from (cell_position c + i * cw bl c + j - base)) (concat (map q (seq 0 n)))).
  { intros k i pre c post j PC. assert (EP := POS _ _ _ _ _ _ PC). assert (B := place_bound bl frs k i pre c post j PC). assert (B' := rooms_all bl frs (S k)). fold T in B'.
    apply in_concat. exists (q (cell_position c + i * cw bl c + j - base)). split; [apply in_map, in_seq; lia|]. unfold q, Q. rewrite (thread_in k i pre c post j base from _ PC) by lia. now left. }
  assert (INC : incl (seq 0 T) (map fst (concat (map q (seq 0 n))))).
  { intros a I. apply in_seq in I. destruct (address_find bl frs a) as [k [i [pre [c [post [j [PC ->]]]]]]]; [fold T; lia|]. apply in_map_iff. eexists. split; [|apply (WR _ _ _ _ _ _ PC)]. reflexivity. }
  assert (ND : NoDup (map fst (concat (map q (seq 0 n))))) by (apply (@NoDup_incl_NoDup nat (seq 0 T)); [apply seq_NoDup|rewrite map_length, LEN, seq_length; auto|exact INC]).
  split; [symmetry; apply NoDup_Permutation_bis; [apply seq_NoDup|rewrite map_length, LEN, seq_length; auto|exact INC]|]. intros old new LA.
  intros k i pre c post j PC. exact (launch_in _ _ _ _ _ LA ND (WR _ _ _ _ _ _ PC)).
Qed.
End Permute.
