(* C80: multiplication and inversion *)
From Coq Require Import Reals List Arith ZArith Bool Lia Lra Permutation Sorting.Sorted.
From Verif Require Import SchurModel SchurSpec SchurProofs SchurProofs4 BraModel BraSpec BraProofs BraProofs2.
Import ListNotations.
Close Scope R_scope.
Open Scope nat_scope.

(* ------------------------------------------------------------------ sums over pairs *)
Definition mem (P : list (nat * nat)) (i j : nat) : bool := existsb (fun p => (fst p =? i) && (snd p =? j)) P.
Lemma mem_iff P i j : mem P i j = true <-> In (i, j) P.
Proof. exact (stored_in_iff P i j). Qed.
Lemma suml_row P n b (g : nat -> R) : NoDup P -> (forall p, In p P -> snd p < n) ->
  suml P (fun p => if fst p =? b then g (snd p) else 0%R) = sumn n (fun j => if mem P b j then g j else 0%R).
Proof.
  induction P as [|[i j] P IH]; intros N H.
  - cbn. symmetry. apply sumn_zero. reflexivity.
  - inversion N as [|? ? N1 N2]. subst. cbn [suml fst snd]. rewrite IH by (auto; intros p Hp; apply H; right; exact Hp).
    transitivity (sumn n (fun j' => ((if (i =? b) && (j =? j') then g j' else 0) + (if mem P b j' then g j' else 0))%R)).
    + rewrite sumn_plus. f_equal. pose proof (H _ (or_introl eq_refl)) as Hj. cbn in Hj. rewrite (sumn_single n _ j Hj).
      * rewrite Nat.eqb_refl, andb_true_r. reflexivity.
      * intros z _ Z. replace (j =? z) with false by (symmetry; apply Nat.eqb_neq; congruence). rewrite andb_false_r. reflexivity.
    + apply sumn_ext. intros z _. cbn [mem existsb fst snd]. fold (mem P b z). destruct ((i =? b) && (j =? z)) eqn:E; cbn [orb].
      * apply andb_true_iff in E as [E1 E2]. apply Nat.eqb_eq in E1, E2. subst. destruct (mem P b z) eqn:M; [apply mem_iff in M; contradiction|]. lra.
      * lra.
Qed.
Lemma suml_col P n b (g : nat -> R) : NoDup P -> (forall p, In p P -> fst p < n) ->
  suml P (fun p => if snd p =? b then g (fst p) else 0%R) = sumn n (fun j => if mem P j b then g j else 0%R).
Proof.
  intros N H. pose (Q := map (fun p => (snd p, fst p)) P).
  assert (NQ : NoDup Q) by (apply nodup_map_in; [exact N|]; intros [? ?] [? ?] _ _ E; inversion E; reflexivity).
  assert (HQ : forall p, In p Q -> snd p < n) by (intros p Hp; apply in_map_iff in Hp as [q [<- Hq]]; exact (H q Hq)).
  pose proof (suml_row Q n b g NQ HQ) as S. unfold Q in S. rewrite suml_map in S. cbn [fst snd] in S. rewrite S. apply sumn_ext. intros j _.
  replace (mem (map (fun p => (snd p, fst p)) P) b j) with (mem P j b); [reflexivity|]. apply eq_true_iff_eq. rewrite !mem_iff, in_map_iff. split.
  - intros I. exists (j, b). auto.
  - intros [[x y] [E I]]. inversion E. subst. exact I.
Qed.

(* ------------------------------------------------------------------ the sparse matrix *)
Definition sparse_of (bl : list Block) (ps : list (nat * nat)) (m : Bram) : Prop :=
  exists css, storage m = Sparse css (make_layout 0 css) /\ length css = length bl /\ map fst (flat 0 css) = btree_set ps /\ chain bl 0 (flat 0 css) /\
    (Z.of_nat (length bl) <= INT_MAX)%Z /\ (forall i j, In (i, j) ps -> i < length bl /\ j < length bl).
Lemma sparse_of_new junk bl ps m : NewSparse junk bl ps = Some m -> sparse_of bl ps m.
Proof. intros H. destruct (sparse_shape _ _ _ _ H) as [css [-> [F [L [P [C [R _]]]]]]]. exists css. cbn [storage]. auto 10. Qed.
Lemma sparse_of_storage bl ps m m' : sparse_of bl ps m -> storage m' = storage m -> sparse_of bl ps m'.
Proof. intros [css H] E. exists css. rewrite E. exact H. Qed.

Definition touches (bl : list Block) (i p : nat) : bool := (block_position bl i <=? p) && (p <? block_position bl i + block_size bl i).
Definition cell_add (bl : list Block) (mem : nat -> R) (x : nat -> R) (p : nat) (e : nat * nat * nat) : R :=
  let '(i, j, v) := e in
  ((if touches bl i p then sumn (block_size bl j) (fun k => mem (v + (p - block_position bl i) * block_size bl j + k)%nat * x (block_position bl j + k)%nat) else 0) +
   (if j =? i then 0 else if touches bl j p then sumn (block_size bl i) (fun k => mem (v + k * block_size bl j + (p - block_position bl j))%nat * x (block_position bl i + k)%nat) else 0))%R.
Lemma sym_cell_add m bl i x y c p : blocks m = bl -> i < length bl ->
  sym_cell m i (nth i bl (mkBlock 0 0)) x y c p = (y p + cell_add bl (memory m) x p (i, block_id c, cell_position c))%R.
Proof.
  intros B Hi. unfold sym_cell, cell_add. rewrite B. cbv zeta. unfold touches, block_position, block_size. destruct (block_id c =? i).
  - unfold add_mv. destruct (_ && _); [rewrite Rplus_0_r; f_equal|lra].
  - unfold add_mv at 1. unfold transpose, block_at. destruct ((position (nth (block_id c) bl (mkBlock 0 0)) <=? p) && (p <? position (nth (block_id c) bl (mkBlock 0 0)) + size (nth (block_id c) bl (mkBlock 0 0)))).
    + rewrite <- Rplus_assoc. f_equal. unfold add_mv. destruct ((position (nth i bl (mkBlock 0 0)) <=? p) && _); [reflexivity|lra].
    + rewrite Rplus_0_r. unfold add_mv. destruct ((position (nth i bl (mkBlock 0 0)) <=? p) && _); [reflexivity|lra].
Qed.
Lemma sym_rows_add m bl x p todo : blocks m = bl -> forall i css y, todo = skipn i bl -> length css = length todo ->
  sym_rows m i (combine todo css) x y p = (y p + suml (flat i css) (cell_add bl (memory m) x p))%R.
Proof.
  intros B. induction todo as [|b todo IH]; intros i css y T L; destruct css as [|cs css]; try discriminate; [cbn; lra|].
  destruct (skipn_next _ _ _ _ T) as [T' Nb]. assert (Hi : i < length bl) by (apply nth_error_Some; congruence).
  assert (Eb : b = nth i bl (mkBlock 0 0)) by (rewrite (nth_error_nth _ _ _ Nb); reflexivity).
  cbn [combine sym_rows flat]. rewrite (IH (S i) css _ T') by (cbn in L; lia). rewrite suml_app, <- Rplus_assoc. f_equal.
  assert (G : forall y, fold_left (fun y c => sym_cell m i b x y c) cs y p = (y p + suml (flat_row i cs) (cell_add bl (memory m) x p))%R).
  { clear - B Eb Hi. induction cs as [|c cs IHc]; intros y; [cbn; lra|]. cbn [fold_left]. rewrite IHc, Eb, (sym_cell_add m bl i x y c p B Hi).
    cbn [flat_row map suml]. unfold flat_row. lra. }
  apply G.
Qed.
Lemma touches_block bl b r i : laid_out 0 bl -> b < length bl -> r < block_size bl b -> i < length bl -> touches bl i (block_position bl b + r) = (i =? b).
Proof.
  intros L Hb Hr Hi. unfold touches. apply eq_true_iff_eq. rewrite andb_true_iff, Nat.leb_le, Nat.ltb_lt, Nat.eqb_eq. split.
  - intros [A B]. destruct (laid_unique bl i b (block_position bl b + r - block_position bl i) r L Hi Hb ltac:(lia) Hr ltac:(lia)). assumption.
  - intros ->. lia.
Qed.
Lemma touches_outside bl p i : laid_out 0 bl -> i < length bl -> total bl <= p -> touches bl i p = false.
Proof.
  intros L Hi H. unfold touches. destruct (laid_in 0 bl i L Hi). apply andb_false_iff. right. apply Nat.ltb_ge. lia.
Qed.
Lemma sparse_memory bl ps m a i j v : good (KSparse ps) bl m -> sparse_of bl ps m -> holds (KSparse ps) bl m a ->
  (exists css, storage m = Sparse css (make_layout 0 css) /\ In (i, j, v) (flat 0 css) /\ NoDup (map fst (flat 0 css)) /\ forall e w, In (e, w) (flat 0 css) -> (Z.of_nat (snd e) <= INT_MAX)%Z) ->
  In (i, j) ps -> forall r c, r < block_size bl i -> c < block_size bl j -> memory m (v + r * block_size bl j + c) = a i j r c.
Proof.
  intros G [css0 [_ [_ [_ [_ [F R]]]]]] H [css [E [I [N B]]]] Ip r c Hr Hc. destruct (R i j Ip) as [Hi Hj].
  specialize (H i j r c Hi Hj Hr Hc (proj2 (stored_in_iff ps i j) Ip)). unfold cell_entry, GetCell in H. rewrite E, (g_blocks _ _ _ G), layout_flat in H.
  rewrite (find_flat _ i j v B ltac:(lia) N I), (nth_error_block bl i Hi), (nth_error_block bl j Hj) in H.
  unfold address in H. cbn in H. unfold memory. apply nth_error_nth with (d := 0%R) in H. rewrite <- H. reflexivity.
Qed.
Theorem symmetric_multiply bl ps m a x y : laid_out 0 bl -> good (KSparse ps) bl m -> sparse_of bl ps m -> holds (KSparse ps) bl m a ->
  (forall i j, In (i, j) ps -> i <= j) ->
  exists y', SymmetricRightMultiplyAndAccumulate m x y = Some y' /\
    (forall b r, b < length bl -> r < block_size bl b ->
      y' (block_position bl b + r) = (y (block_position bl b + r)%nat + block_product bl (symmetric_entry (KSparse ps) a) x b r)%R) /\
    (forall p, total bl <= p -> y' p = y p).
Proof.
  intros L G Sp H U. pose proof Sp as [css [E [Lc [P [C [F R]]]]]]. destruct (btree_spec ps) as [So I]. pose proof (sorted_nodup _ So) as Nd.
  unfold SymmetricRightMultiplyAndAccumulate. rewrite E, (g_blocks _ _ _ G). eexists. split; [reflexivity|].
  assert (Rf : forall i j v, In (i, j, v) (flat 0 css) -> In (i, j) ps).
  { intros i j v X. apply I. rewrite <- P. apply (in_map fst) in X. exact X. }
  split.
  - intros b r Hb Hr. rewrite (sym_rows_add m bl x _ bl (g_blocks _ _ _ G) 0 css y eq_refl Lc). f_equal.
    pose (g1 := fun j => sumn (block_size bl j) (fun c => a b j r c * x (block_position bl j + c)%nat)%R).
    pose (g2 := fun i => (if i =? b then 0 else sumn (block_size bl i) (fun c => a i b c r * x (block_position bl i + c)%nat))%R).
    transitivity (suml (btree_set ps) (fun p => (if fst p =? b then g1 (snd p) else 0) + (if snd p =? b then g2 (fst p) else 0))%R).
    { rewrite <- P, suml_map. apply suml_ext. intros [[i j] v] X. cbn [fst snd]. destruct (R i j (Rf _ _ _ X)) as [Hi Hj].
      assert (M : forall r c, r < block_size bl i -> c < block_size bl j -> memory m (v + r * block_size bl j + c) = a i j r c).
      { apply (sparse_memory bl ps m a i j v G Sp H); [|exact (Rf _ _ _ X)]. exists css. split; [exact E|]. split; [exact X|]. split; [rewrite P; exact Nd|].
        intros [i' j'] w' X'. destruct (R i' j' (Rf _ _ _ X')). cbn. lia. }
      unfold cell_add. rewrite !(touches_block bl b r _ L Hb Hr) by assumption. f_equal.
      - destruct (i =? b) eqn:Q; [|reflexivity]. apply Nat.eqb_eq in Q. subst i. unfold g1. apply sumn_ext. intros c Hc.
        replace (block_position bl b + r - block_position bl b) with r by lia. rewrite (M r c Hr Hc). reflexivity.
      - destruct (j =? b) eqn:Q.
        + apply Nat.eqb_eq in Q. subst j. unfold g2. rewrite (Nat.eqb_sym i b). destruct (b =? i); [reflexivity|]. apply sumn_ext. intros c Hc.
          replace (block_position bl b + r - block_position bl b) with r by lia. rewrite (M c r Hc Hr). reflexivity.
        + destruct (j =? i); reflexivity. }
    rewrite suml_plus, (suml_row _ (length bl)), (suml_col _ (length bl)); [|exact Nd| |exact Nd|];
      [|intros [i j] X; apply I in X; exact (proj1 (R i j X))|intros [i j] X; apply I in X; exact (proj2 (R i j X))].
    rewrite <- sumn_plus. unfold block_product. apply sumn_ext. intros j Hj. unfold symmetric_entry.
    assert (Mm : forall i j, mem (btree_set ps) i j = stored_in (KSparse ps) i j) by (intros i' j'; apply eq_true_iff_eq; rewrite mem_iff, stored_in_iff, I; tauto).
    rewrite !Mm. destruct (b <=? j) eqn:Q.
    + apply Nat.leb_le in Q. assert (Z : (if stored_in (KSparse ps) j b then g2 j else 0%R) = 0%R).
      { destruct (stored_in (KSparse ps) j b) eqn:S; [|reflexivity]. apply stored_in_iff in S. apply U in S. unfold g2. replace j with b by lia. rewrite Nat.eqb_refl. reflexivity. }
      rewrite Z, Rplus_0_r. destruct (stored_in (KSparse ps) b j); [reflexivity|]. symmetry. apply sumn_zero. intros c _. lra.
    + apply Nat.leb_gt in Q. assert (Z : stored_in (KSparse ps) b j = false).
      { destruct (stored_in (KSparse ps) b j) eqn:S; [|reflexivity]. apply stored_in_iff in S. apply U in S. lia. }
      rewrite Z, Rplus_0_l. unfold g2. replace (j =? b) with false by (symmetry; apply Nat.eqb_neq; lia).
      destruct (stored_in (KSparse ps) j b); [reflexivity|]. symmetry. apply sumn_zero. intros c _. lra.
  - intros p Hp. rewrite (sym_rows_add m bl x _ bl (g_blocks _ _ _ G) 0 css y eq_refl Lc). rewrite suml_zero; [lra|].
    intros [[i j] v] X. destruct (R i j (Rf _ _ _ X)) as [Hi Hj]. unfold cell_add. rewrite !(touches_outside bl p _ L) by assumption. destruct (j =? i); lra.
Qed.

(* ------------------------------------------------------------------ the diagonal matrix *)
Definition diagonal_of (m : Bram) : Prop := exists ra ca lay, storage m = Diagonal ra ca lay.
Lemma diagonal_of_new bl m : NewDiagonal bl = Some m -> diagonal_of m.
Proof. intros H. destruct (diagonal_shape _ _ H) as [n [_ ->]]. unfold diagonal_of. cbn. eauto. Qed.
Lemma diag_window bl m ra ca lay i : good KDiagonal bl m -> storage m = Diagonal ra ca lay -> i < length bl ->
  exists v, nth_error lay i = Some v /\ GetCell m i i = Some (Some (mkWindow (Z.of_nat i) v 0 0 (block_size bl i) (block_size bl i))).
Proof.
  intros G E Hi. destruct (g_window _ _ _ G i i Hi Hi (Nat.eqb_refl i)) as [w [W _]]. unfold GetCell in *. rewrite E, (g_blocks _ _ _ G), Nat.eqb_refl, (nth_error_block bl i Hi) in *.
  destruct (nth_error lay i) as [v|]; [|discriminate]. exists v. auto.
Qed.
Lemma diag_memory bl m a ra ca lay i v : good KDiagonal bl m -> holds KDiagonal bl m a -> storage m = Diagonal ra ca lay -> i < length bl -> nth_error lay i = Some v ->
  forall r c, r < block_size bl i -> c < block_size bl i -> memory m (v + r * block_size bl i + c) = a i i r c.
Proof.
  intros G H E Hi V r c Hr Hc. specialize (H i i r c Hi Hi Hr Hc (Nat.eqb_refl i)). unfold cell_entry in H. destruct (diag_window bl m ra ca lay i G E Hi) as [v' [V' W]]. rewrite W in H.
  rewrite V in V'. inversion V'. subst v'. unfold address in H. cbn in H. apply nth_error_nth with (d := 0%R) in H. unfold memory. rewrite <- H. reflexivity.
Qed.
Definition inverted (llt : nat -> matrix -> matrix) (bl : list Block) (a : blocks_of) (order : list nat) : blocks_of :=
  fun i j r c => if existsb (Nat.eqb i) order && (i =? j) then llt (block_size bl i) (from_upper (a i i)) r c else a i j r c.
Lemma invert_block_spec llt bl m a i : cholesky llt -> good KDiagonal bl m -> diagonal_of m -> holds KDiagonal bl m a -> i < length bl ->
  exists m', invert_block llt m i = Some m' /\ good KDiagonal bl m' /\ storage m' = storage m /\ holds KDiagonal bl m' (inverted llt bl a [i]).
Proof.
  intros [Ext _] G [ra [ca [lay E]]] H Hi. destruct (diag_window bl m ra ca lay i G E Hi) as [v [V W]].
  pose (f := fun (r c : nat) (_ : R) => llt (block_size bl i) (from_upper (block_at (memory m) v (block_size bl i))) r c).
  destruct (change_spec KDiagonal bl m i i (block_size bl i) (block_size bl i) f a _ G H Hi Hi (le_n _) (le_n _) (fun _ _ _ _ => eq_refl)) as [m' [A [B [C D]]]].
  exists m'. split; [|split; [exact B|split; [exact C|]]].
  - unfold change in A. rewrite W in A. unfold invert_block. rewrite E, (g_blocks _ _ _ G), (nth_error_block bl i Hi), V. exact A.
  - intros i' j' r c Hi' Hj' Hr Hc St. rewrite (D i' j' r c Hi' Hj' Hr Hc St). f_equal. cbn in St. apply Nat.eqb_eq in St. subst j'. unfold inverted, inside. cbn [existsb stored_in].
    rewrite !Nat.eqb_refl, andb_true_r, orb_false_r. cbn [andb]. destruct (i' =? i) eqn:Q; [|reflexivity]. apply Nat.eqb_eq in Q. subst i'. cbn [andb].
    assert (Q1 : r <? block_size bl i = true) by (apply Nat.ltb_lt; exact Hr). assert (Q2 : c <? block_size bl i = true) by (apply Nat.ltb_lt; exact Hc). rewrite Q1, Q2. cbn [andb].
    unfold f. apply Ext; auto. intros r' c' Hr' Hc'. pose proof (diag_memory bl m a ra ca lay i v G H E Hi V) as M. unfold from_upper, block_at. destruct (r' <=? c'); apply M; auto.
Qed.
Lemma invert_spec llt bl order : cholesky llt -> forall m a, good KDiagonal bl m -> diagonal_of m -> holds KDiagonal bl m a -> (forall i, In i order -> i < length bl) -> NoDup order ->
  exists m', Invert llt m order = Some m' /\ good KDiagonal bl m' /\ storage m' = storage m /\ holds KDiagonal bl m' (inverted llt bl a order).
Proof.
  intros Ch. induction order as [|i order IH]; intros m a G Dg H In N.
  - exists m. split; [reflexivity|]. split; [exact G|]. split; [reflexivity|]. exact H.
  - inversion N as [|? ? N1 N2]. subst. destruct (invert_block_spec llt bl m a i Ch G Dg H (In i (or_introl eq_refl))) as [m1 [A [B [C D]]]]. cbn [Invert]. rewrite A.
    destruct (IH m1 _ B ltac:(destruct Dg as [ra [ca [lay E]]]; exists ra, ca, lay; congruence) D (fun j Hj => In j (or_intror Hj)) N2) as [m' [A' [B' [C' D']]]].
    exists m'. split; [exact A'|]. split; [exact B'|]. split; [congruence|]. intros i' j' r c Hi' Hj' Hr Hc St. rewrite (D' i' j' r c Hi' Hj' Hr Hc St). f_equal.
    cbn in St. apply Nat.eqb_eq in St. subst j'. unfold inverted. cbn [existsb]. rewrite !Nat.eqb_refl, !andb_true_r, orb_false_r.
    destruct (existsb (Nat.eqb i') order) eqn:X; destruct (i' =? i) eqn:Y; cbn [orb]; try reflexivity.
    apply Nat.eqb_eq in Y. subst i'. exfalso. apply N1. apply existsb_exists in X as [z [Z1 Z2]]. apply Nat.eqb_eq in Z2. subst. exact Z1.
Qed.
Lemma right_multiply_spec bl order x : laid_out 0 bl -> forall m a y, good KDiagonal bl m -> diagonal_of m -> holds KDiagonal bl m a -> (forall i, In i order -> i < length bl) -> NoDup order ->
  exists y', RightMultiplyAndAccumulate m order x y = Some y' /\
    (forall b r, b < length bl -> r < block_size bl b ->
      y' (block_position bl b + r) = (y (block_position bl b + r)%nat + if existsb (Nat.eqb b) order then sumn (block_size bl b) (fun c => a b b r c * x (block_position bl b + c)%nat) else 0)%R) /\
    (forall p, total bl <= p -> y' p = y p).
Proof.
  intros L m a. induction order as [|i order IH]; intros y G Dg H In N.
  - exists y. split; [reflexivity|]. split; [intros; cbn; lra|reflexivity].
  - inversion N as [|? ? N1 N2]. subst. pose proof Dg as [ra [ca [lay E]]]. pose proof (In i (or_introl eq_refl)) as Hi. destruct (diag_window bl m ra ca lay i G E Hi) as [v [V _]].
    cbn [RightMultiplyAndAccumulate]. rewrite E, (g_blocks _ _ _ G), (nth_error_block bl i Hi), V. fold (block_size bl i). fold (block_position bl i).
    destruct (IH (add_mv (block_at (memory m) v (block_size bl i)) (block_size bl i) (block_size bl i) x (block_position bl i) y (block_position bl i)) G Dg H (fun j Hj => In j (or_intror Hj)) N2) as [y' [A [B C]]].
    exists y'. split; [exact A|]. split.
    + intros b r Hb Hr. rewrite (B b r Hb Hr). unfold add_mv. fold (touches bl i (block_position bl b + r)). rewrite (touches_block bl b r i L Hb Hr Hi). cbn [existsb].
      rewrite (Nat.eqb_sym b i). destruct (i =? b) eqn:Q; cbn [orb]; [|lra]. apply Nat.eqb_eq in Q. subst i.
      assert (X : existsb (Nat.eqb b) order = false).
      { destruct (existsb (Nat.eqb b) order) eqn:X; [|reflexivity]. exfalso. apply N1. apply existsb_exists in X as [z [Z1 Z2]]. apply Nat.eqb_eq in Z2. subst. exact Z1. }
      rewrite X, Rplus_0_r. f_equal. apply sumn_ext. intros c Hc. unfold block_at. replace (block_position bl b + r - block_position bl b) with r by lia.
      rewrite (diag_memory bl m a ra ca lay b v G H E Hb V r c Hr Hc). reflexivity.
    + intros p Hp. rewrite (C p Hp). unfold add_mv. fold (touches bl i p). rewrite (touches_outside bl p i L Hi Hp). reflexivity.
Qed.

(* inverting and multiplying solves with the diagonal blocks *)
Lemma inverse_applied n (A W : matrix) (x : nat -> R) : (forall r c, r < n -> c < n -> sumn n (fun k => A r k * W k c)%R = if r =? c then 1%R else 0%R) ->
  forall r, r < n -> sumn n (fun k => A r k * sumn n (fun c => W k c * x c))%R = x r.
Proof.
  intros H r Hr. transitivity (sumn n (fun c => (if r =? c then 1 else 0) * x c)%R).
  - rewrite (sumn_ext n _ (fun k => sumn n (fun c => A r k * W k c * x c)%R)) by (intros k _; rewrite <- sumn_scal; apply sumn_ext; intros c _; ring).
    rewrite sumn_swap. apply sumn_ext. intros c Hc. rewrite sumn_scal_r, (H r c Hr Hc). reflexivity.
  - rewrite (sumn_single n _ r Hr); [rewrite Nat.eqb_refl; ring|]. intros c _ Hc. replace (r =? c) with false by (symmetry; apply Nat.eqb_neq; congruence). ring.
Qed.
Theorem invert_multiply llt bl m a order order' x y : cholesky llt -> laid_out 0 bl -> good KDiagonal bl m -> diagonal_of m -> holds KDiagonal bl m a ->
  Permutation order (seq 0 (length bl)) -> Permutation order' (seq 0 (length bl)) ->
  exists m' y', Invert llt m order = Some m' /\ RightMultiplyAndAccumulate m' order' x y = Some y' /\ (forall p, total bl <= p -> y' p = y p) /\
    forall i, i < length bl -> definite (block_size bl i) (from_upper (a i i)) ->
      forall r, r < block_size bl i -> sumn (block_size bl i) (fun c => from_upper (a i i) r c * (y' (block_position bl i + c)%nat - y (block_position bl i + c)%nat))%R = x (block_position bl i + r).
Proof.
  intros Ch L G Dg H P P'.
  assert (Q : forall o, Permutation o (seq 0 (length bl)) -> NoDup o /\ (forall i, In i o -> i < length bl) /\ forall i, i < length bl -> existsb (Nat.eqb i) o = true).
  { intros o Po. split; [apply (Permutation_NoDup (Permutation_sym Po)); apply seq_NoDup|]. split.
    - intros i Hi. apply (Permutation_in _ Po) in Hi. apply in_seq in Hi. lia.
    - intros i Hi. apply existsb_exists. exists i. split; [apply (Permutation_in _ (Permutation_sym Po)); apply in_seq; lia|apply Nat.eqb_refl]. }
  destruct (Q _ P) as [N1 [I1 E1]]. destruct (Q _ P') as [N2 [I2 E2]].
  destruct (invert_spec llt bl order Ch m a G Dg H I1 N1) as [m' [A [B [C D]]]].
  destruct (right_multiply_spec bl order' x L m' _ y B ltac:(destruct Dg as [ra [ca [lay E]]]; exists ra, ca, lay; congruence) D I2 N2) as [y' [A' [B' C']]].
  exists m', y'. split; [exact A|]. split; [exact A'|]. split; [exact C'|]. intros i Hi Df r Hr.
  assert (Sy : symmetric (block_size bl i) (from_upper (a i i))).
  { intros u v _ _. unfold from_upper. destruct (u <=? v) eqn:X; destruct (v <=? u) eqn:Y; try reflexivity.
    - apply Nat.leb_le in X, Y. replace u with v by lia. reflexivity.
    - apply Nat.leb_gt in X, Y. lia. }
  rewrite <- (inverse_applied _ _ (llt (block_size bl i) (from_upper (a i i))) (fun c => x (block_position bl i + c)) (llt_inverse _ Ch _ _ Sy Df) r Hr).
  apply sumn_ext. intros k Hk. f_equal. rewrite (B' i k Hi Hk), (E2 i Hi). unfold inverted. rewrite (E1 i Hi), Nat.eqb_refl. cbn [andb]. ring_simplify. reflexivity.
Qed.

(* ------------------------------------------------------------------ extracting the block diagonal *)
Lemma extract_spec k bl sc a todo : forall i pre a', good k bl sc -> holds k bl sc a -> (forall i, i < length bl -> stored_in k i i = true) ->
  good KDiagonal bl pre -> holds KDiagonal bl pre a' -> todo = skipn i bl ->
  exists pre', extract_diagonal sc pre todo i = Some pre' /\ good KDiagonal bl pre' /\ storage pre' = storage pre /\
    holds KDiagonal bl pre' (fun i' j r c => if i <=? i' then a i' j r c else a' i' j r c).
Proof.
  induction todo as [|b todo IH]; intros i pre a' G H S Gp Hp T.
  - exists pre. split; [reflexivity|]. split; [exact Gp|]. split; [reflexivity|]. intros i' j r c Hi Hj Hr Hc St. rewrite (Hp i' j r c Hi Hj Hr Hc St). f_equal.
    assert (length bl <= i) by (apply (f_equal (@length _)) in T; rewrite skipn_length in T; cbn in T; lia). destruct (i <=? i') eqn:Q; [apply Nat.leb_le in Q; lia|reflexivity].
  - destruct (skipn_next _ _ _ _ T) as [T' Nb]. assert (Hi : i < length bl) by (apply nth_error_Some; congruence).
    assert (Sb : size b = block_size bl i) by (unfold block_size; rewrite (nth_error_nth _ _ _ Nb); reflexivity).
    cbn [extract_diagonal]. rewrite Sb. destruct (g_window _ _ _ G i i Hi Hi (S i Hi)) as [w [W [F1 F2]]]. rewrite W.
    apply Nat.leb_le in F1, F2. rewrite F1, F2. cbn [andb]. destruct (g_window _ _ _ Gp i i Hi Hi (Nat.eqb_refl i)) as [w' [W' _]]. rewrite W'.
    destruct (change_spec KDiagonal bl pre i i (block_size bl i) (block_size bl i) (fun r c _ => memory sc (address w r c)) a' _ Gp Hp Hi Hi (le_n _) (le_n _) (fun _ _ _ _ => eq_refl)) as [p1 [A [B [C D]]]].
    unfold change in A. rewrite W' in A. destruct (write_block (values pre) w' (block_size bl i) (block_size bl i) (fun r c _ => memory sc (address w r c))) as [v|]; [|discriminate]. inversion A. subst p1.
    destruct (IH (Datatypes.S i) (with_values pre v) _ G H S B D T') as [pre' [A1 [B1 [C1 D1]]]]. exists pre'. split; [exact A1|]. split; [exact B1|]. split; [exact C1|].
    intros i' j r c Hi' Hj Hr Hc St. rewrite (D1 i' j r c Hi' Hj Hr Hc St). f_equal. cbn in St. apply Nat.eqb_eq in St. subst j.
    destruct (Nat.leb_spec (Datatypes.S i) i') as [Q1|Q1]; destruct (Nat.leb_spec i i') as [Q2|Q2]; try lia; try reflexivity.
    + assert (i' = i) by lia. subst i'. cbn [stored_in]. unfold inside. rewrite !Nat.eqb_refl. cbn [andb].
      assert (X1 : r <? block_size bl i = true) by (apply Nat.ltb_lt; exact Hr). assert (X2 : c <? block_size bl i = true) by (apply Nat.ltb_lt; exact Hc). rewrite X1, X2. cbn [andb].
      specialize (H i i r c Hi Hi Hr Hc (S i Hi)). unfold cell_entry in H. rewrite W in H. apply nth_error_nth with (d := 0%R) in H. exact H.
    + cbn [stored_in]. unfold inside. replace (i' =? i) with false by (symmetry; apply Nat.eqb_neq; lia). cbn [andb]. rewrite andb_false_r. reflexivity.
Qed.
