(* C65: GetCovarianceMatrix *)
From Coq Require Import Reals ZArith List Arith Bool Lia Lra Permutation.
From Verif Require Import SchurModel CGModel PartitionModel PartitionProps SparseModel CovarianceModel.
Import ListNotations.
Open Scope R_scope.

Section Assemble.
Variables (p : CProblem) (s : Covariance) (l sizes : list nat) (lift : bool) (junk : nat -> matrix).
Notation n := (length l).
Hypothesis LS : length sizes = n.
Notation starts := (partial_sums 0 sizes).
Notation begin i := (nth i starts 0%nat).
Notation size i := (nth i sizes 0%nat).
Lemma sums_nth sz : forall a i, (i <= length sz)%nat -> nth i (partial_sums a sz) 0%nat = (a + list_sum (firstn i sz))%nat.
Proof. induction sz as [|x sz IH]; intros a [|i] H; cbn [partial_sums nth firstn] in *; try (cbn in *; lia). rewrite IH by (cbn in H; lia). change (list_sum (x :: firstn i sz)) with (x + list_sum (firstn i sz))%nat. lia. Qed.
Lemma sum_firstn_S sz i : (i < length sz)%nat -> list_sum (firstn (S i) sz) = (list_sum (firstn i sz) + nth i sz 0)%nat.
Proof. revert i. induction sz as [|x sz IH]; intros [|i] H; cbn [length] in H; try lia; [cbn; lia|]. cbn [nth]. rewrite (firstn_cons i). change (firstn (S (S i)) (x :: sz)) with (x :: firstn (S i) sz). change (list_sum (x :: firstn (S i) sz)) with (x + list_sum (firstn (S i) sz))%nat. change (list_sum (x :: firstn i sz)) with (x + list_sum (firstn i sz))%nat. rewrite IH by lia. lia. Qed.
Lemma sum_firstn_mono sz i j : (i <= j)%nat -> (list_sum (firstn i sz) <= list_sum (firstn j sz))%nat.
Proof. revert i j. induction sz as [|x sz IH]; intros [|i] [|j] H; cbn; try lia. specialize (IH i j). unfold list_sum in IH. lia. Qed.
Lemma begin_apart i j x : (i < n)%nat -> (j < n)%nat -> (x < size i)%nat -> (begin j <= begin i + x < begin j + size j)%nat -> i = j.
Proof.
  intros I J X H. rewrite !sums_nth in H by lia. destruct (Nat.lt_trichotomy i j) as [D|[D|D]]; [|auto|].
  - generalize (sum_firstn_mono sizes (S i) j ltac:(lia)). rewrite sum_firstn_S by lia. lia.
  - generalize (sum_firstn_mono sizes (S j) i ltac:(lia)). rewrite sum_firstn_S by lia. lia.
Qed.
Lemma block_entry M v i' j' i j x y : (i < n)%nat -> (j < n)%nat -> (i' < n)%nat -> (j' < n)%nat -> (x < size i)%nat -> (y < size j)%nat ->
  set_block M (begin i') (begin j') (size i') (size j') v (begin i + x)%nat (begin j + y)%nat = if ((i' =? i) && (j' =? j))%nat then v x y else M (begin i + x)%nat (begin j + y)%nat.
Proof.
  intros I J I' J' X Y. unfold set_block. destruct ((begin i' <=? begin i + x) && (begin i + x <? begin i' + size i') && (begin j' <=? begin j + y) && (begin j + y <? begin j' + size j'))%nat eqn:E.
  - rewrite !andb_true_iff, !Nat.leb_le, !Nat.ltb_lt in E. destruct E as [[[E1 E2] E3] E4]. assert (i = i') by (apply (begin_apart i i' x); auto). assert (j = j') by (apply (begin_apart j j' y); auto). subst. rewrite !Nat.eqb_refl. cbn [andb]. f_equal; lia.
  - destruct (Nat.eqb_spec i' i) as [->|]; [|auto]. destruct (Nat.eqb_spec j' j) as [->|]; [|auto]. exfalso. rewrite !(proj2 (Nat.leb_le _ _)), !(proj2 (Nat.ltb_lt _ _)) in E by lia. discriminate.
Qed.
Definition pos (k : nat) : nat * nat := (Z.to_nat (fst (linear_to_upper (Z.of_nat k) (Z.of_nat n))), Z.to_nat (snd (linear_to_upper (Z.of_nat k) (Z.of_nat n)))).
Definition count : nat := (n * (n + 1) / 2)%nat.
Lemma count_Z : Z.of_nat count = (Z.of_nat n * (Z.of_nat n + 1) / 2)%Z.
Proof. unfold count. rewrite Nat2Z.inj_div, Nat2Z.inj_mul, Nat2Z.inj_add. auto. Qed.
Lemma pos_in k : (k < count)%nat -> (fst (pos k) <= snd (pos k) < n)%nat.
Proof.
  intros K. destruct (triangular_index_bijection (Z.of_nat n) ltac:(lia)) as [A _]. specialize (A (Z.of_nat k)). rewrite <- count_Z in A. specialize (A ltac:(lia)). unfold pos. destruct (linear_to_upper (Z.of_nat k) (Z.of_nat n)). cbn [fst snd]. lia.
Qed.
Lemma pos_onto i j : (i <= j < n)%nat -> exists k, (k < count)%nat /\ pos k = (i, j).
Proof.
  intros H. destruct (triangular_index_bijection (Z.of_nat n) ltac:(lia)) as [_ B]. destruct (B (Z.of_nat i) (Z.of_nat j) ltac:(lia) ltac:(lia)) as [k [[K E] _]]. rewrite <- count_Z in K.
  exists (Z.to_nat k). split; [lia|]. unfold pos. rewrite Z2Nat.id by lia. rewrite E. cbn. now rewrite !Nat2Z.id.
Qed.

Variable G : nat -> nat -> option matrix.
Hypothesis HG : forall i j, (i <= j < n)%nat -> GetBlock p s (nth i l 0%nat) (nth j l 0%nat) lift = Done (G i j).
Lemma loop_spec order : (forall k, In k order -> (k < count)%nat) -> forall ok M, exists M',
  MatrixLoop p s l sizes starts lift junk (ok, M) order = Done (ok && forallb (fun k => match G (fst (pos k)) (snd (pos k)) with Some _ => true | None => false end) order, M') /\
  forall i j B x y, (i <= j < n)%nat -> G i j = Some B -> (x < size i)%nat -> (y < size j)%nat ->
    ((exists k, In k order /\ pos k = (i, j)) -> M' (begin i + x)%nat (begin j + y)%nat = B x y /\ (i <> j -> M' (begin j + y)%nat (begin i + x)%nat = B x y)) /\
    ((forall k, In k order -> pos k <> (i, j)) -> M' (begin i + x)%nat (begin j + y)%nat = M (begin i + x)%nat (begin j + y)%nat /\ M' (begin j + y)%nat (begin i + x)%nat = M (begin j + y)%nat (begin i + x)%nat).
Proof.
  induction order as [|k order IH]; intros K ok M; cbn [MatrixLoop forallb].
  - exists M. rewrite andb_true_r. split; [auto|]. intros. split; [intros [k [[] _]]|auto].
  - assert (KK := pos_in k (K k (or_introl eq_refl))). unfold MatrixStep.
    destruct (linear_to_upper (Z.of_nat k) (Z.of_nat n)) as [zi zj] eqn:EZ. assert (EP : pos k = (Z.to_nat zi, Z.to_nat zj)) by (unfold pos; now rewrite EZ).
    rewrite EP in KK. cbn [fst snd] in KK. set (i1 := Z.to_nat zi) in *. set (j1 := Z.to_nat zj) in *. rewrite (HG i1 j1 KK).
    set (w := match G i1 j1 with Some v => v | None => junk k end).
    set (M1 := set_block M (begin i1) (begin j1) (size i1) (size j1) w). set (M2 := if (i1 =? j1)%nat then M1 else set_block M1 (begin j1) (begin i1) (size j1) (size i1) (transposed_matrix w)).
    destruct (IH (fun k H => K k (or_intror H)) (match G i1 j1 with Some _ => ok | None => false end) M2) as [M' [E H]]. exists M'. split.
    + rewrite E. f_equal. f_equal. rewrite EP. cbn [fst snd]. destruct (G i1 j1); [auto|]. rewrite andb_false_r. auto.
    + intros i j B x y IJ GB X Y. destruct (H i j B x y IJ GB X Y) as [H1 H2].
      assert (U1 : M2 (begin i + x)%nat (begin j + y)%nat = if ((i1 =? i) && (j1 =? j))%nat then w x y else M (begin i + x)%nat (begin j + y)%nat).
      { unfold M2. destruct (Nat.eqb_spec i1 j1) as [D|D].
        - unfold M1. now rewrite block_entry by lia.
        - rewrite block_entry by lia. unfold M1. rewrite block_entry by lia. destruct (Nat.eqb_spec j1 i) as [F|F]; [|auto]. destruct (Nat.eqb_spec i1 j) as [F'|F']; [|auto]. lia. }
      assert (U2 : i <> j \/ ((i1 =? i) && (j1 =? j))%nat = false -> M2 (begin j + y)%nat (begin i + x)%nat = if ((i1 =? i) && (j1 =? j))%nat then w x y else M (begin j + y)%nat (begin i + x)%nat).
      { intros O. unfold M2. destruct (Nat.eqb_spec i1 j1) as [D|D].
        - unfold M1. rewrite block_entry by lia. destruct (Nat.eqb_spec i1 j) as [F|F]; destruct (Nat.eqb_spec j1 i) as [F'|F']; destruct (Nat.eqb_spec i1 i) as [F1|F1]; destruct (Nat.eqb_spec j1 j) as [F2|F2]; cbn [andb] in *; try reflexivity; try lia; destruct O; try lia; discriminate.
        - rewrite block_entry by lia. unfold M1. rewrite block_entry by lia. destruct (Nat.eqb_spec j1 j) as [F|F]; destruct (Nat.eqb_spec i1 i) as [F'|F']; destruct (Nat.eqb_spec i1 j) as [F1|F1]; destruct (Nat.eqb_spec j1 i) as [F2|F2]; cbn [andb] in *; try reflexivity; lia. }
      assert (DEC : (exists k, In k order /\ pos k = (i, j)) \/ (forall k, In k order -> pos k <> (i, j))).
      { destruct (existsb (fun k => ((fst (pos k) =? i) && (snd (pos k) =? j))%nat) order) eqn:EX.
        - left. apply existsb_exists in EX. destruct EX as [k' [K1 K2]]. rewrite andb_true_iff, !Nat.eqb_eq in K2. exists k'. split; [auto|]. destruct (pos k'). cbn in K2. f_equal; tauto.
        - right. intros k' K1 K2. assert (Z : existsb (fun k => ((fst (pos k) =? i) && (snd (pos k) =? j))%nat) order = true). { apply existsb_exists. exists k'. rewrite K2. cbn [fst snd]. rewrite !Nat.eqb_refl. auto. } congruence. }
      split.
      * intros [k0 [K0 P0]]. destruct DEC as [D|D]; [auto|]. destruct (H2 D) as [H3 H4]. destruct K0 as [<-|K0]; [|exfalso; now apply (D k0)].
        rewrite EP in P0. injection P0 as P1 P2. assert (W : w = B) by (unfold w; rewrite P1, P2, GB; auto).
        rewrite P1, P2, !Nat.eqb_refl in U1, U2. cbn [andb] in U1, U2. rewrite H3, U1, W. split; [auto|]. intros N. rewrite H4, U2 by auto. now rewrite W.
      * intros N. destruct (H2 (fun k' H => N k' (or_intror H))) as [H3 H4]. specialize (N k (or_introl eq_refl)). rewrite EP in N.
        assert (F : ((i1 =? i) && (j1 =? j))%nat = false). { destruct (Nat.eqb_spec i1 i) as [->|]; [|auto]. destruct (Nat.eqb_spec j1 j) as [->|]; [congruence|auto]. }
        rewrite H3, H4, U1, U2 by auto. rewrite F. auto.
Qed.
End Assemble.
Lemma find_sizes_spec p lift (ps : list PBlock) : (forall b, In b ps -> find_block p (pointer b) = Some b) -> find_sizes p lift (map pointer ps) = Some (map (fun b => if lift then p_size b else p_tangent b) ps).
Proof. induction ps as [|b ps IH]; intros H; cbn [map find_sizes]; [auto|]. rewrite (H b (or_introl eq_refl)), IH by (intros; apply H; right; auto). auto. Qed.
