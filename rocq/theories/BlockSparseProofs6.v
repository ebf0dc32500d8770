(* diagonal matrices *)
From Coq Require Import Reals List Arith Bool Lia Lra Permutation.
From Verif Require Import SchurModel SchurProofs BlockSparseModel BlockSparseSpec BlockSparseProofs BlockSparseProofs2 BlockSparseProofs3 BlockSparseProofs4 BlockSparseProofs5.
Import ListNotations.
Open Scope R_scope.

Lemma fill_block d v s diagonal : forall l m a, NoDup l -> fold_left (fun (m : vec) j => fun p => if (p =? v + j * (s + 1))%nat then diagonal (d + j)%nat else m p) l m a =
  match find (fun j => (a =? v + j * (s + 1))%nat) l with Some j => diagonal (d + j)%nat | None => m a end.
Proof.
  induction l as [|j l IH]; intros m a N; [reflexivity|]. inversion N as [|? ? N1 N2]; subst. cbn [fold_left find]. rewrite (IH _ a N2). destruct (Nat.eqb_spec a (v + j * (s + 1))) as [E|E].
  - destruct (find _ l) as [j'|] eqn:F; [|reflexivity]. apply find_some in F. destruct F as [F1 F2]. apply Nat.eqb_eq in F2. assert (j' = j) by nia. subst. contradiction.
  - destruct (find _ l); reflexivity.
Qed.
Lemma fill_below bl : forall d v diagonal m a, (a < v)%nat -> FillDiagonal bl d v diagonal m a = m a.
Proof.
  induction bl as [|b bl IH]; intros d v diagonal m a H; [reflexivity|]. cbn [FillDiagonal]. rewrite IH by lia. rewrite fill_block by apply seq_NoDup.
  destruct (find _ _) as [j|] eqn:F; [|reflexivity]. apply find_some in F. destruct F as [_ F]. apply Nat.eqb_eq in F. lia.
Qed.
Definition squares (bl : list Block) : nat := fold_right (fun b n => size b * size b + n)%nat 0%nat bl.
Lemma fill_above bl : forall d v diagonal m a, (v + squares bl <= a)%nat -> FillDiagonal bl d v diagonal m a = m a.
Proof.
  induction bl as [|b bl IH]; intros d v diagonal m a H; [reflexivity|]. cbn [FillDiagonal]. unfold squares in H. cbn [fold_right] in H. fold (squares bl) in H. rewrite IH by lia. rewrite fill_block by apply seq_NoDup.
  destruct (find _ _) as [j|] eqn:F; [|reflexivity]. apply find_some in F. destruct F as [F1 F]. apply Nat.eqb_eq in F. apply in_seq in F1. exfalso. clear IH. assert (j * (size b + 1) < size b * size b)%nat; [nia|lia].
Qed.
Lemma diagonal_blocks bl : forall i pos, map block (DiagonalRows bl i pos) = bl.
Proof. induction bl as [|b bl IH]; intros i pos; [reflexivity|]. cbn [DiagonalRows map block]. rewrite IH. reflexivity. Qed.
Lemma diagonal_cells bl : forall i pos row, In row (DiagonalRows bl i pos) -> exists j q, cells row = [mkCell j q] /\ (i <= j < i + length bl)%nat.
Proof.
  induction bl as [|b bl IH]; intros i pos row H; [contradiction|]. destruct H as [<-|H]; [exists i, pos; split; [reflexivity|cbn; lia]|]. destruct (IH _ _ _ H) as [j [q [E B]]]. exists j, q. split; [exact E|cbn; lia].
Qed.
Lemma diagonal_extents full bl : forall pre pos, full = pre ++ bl -> sequential pos (flat_map (row_extents (mkStructure full [])) (DiagonalRows bl (length pre) pos)) /\ sizes (flat_map (row_extents (mkStructure full [])) (DiagonalRows bl (length pre) pos)) = squares bl.
Proof.
  induction bl as [|b bl IH]; intros pre pos E; [split; [exact I|reflexivity]|]. cbn [DiagonalRows flat_map]. assert (col (mkStructure full []) (length pre) = b) as Ec by (unfold col; cbn [cols]; rewrite E, app_nth2, Nat.sub_diag by lia; reflexivity).
  destruct (IH (pre ++ [b]) (pos + size b * size b)%nat) as [I1 I2]; [rewrite <- app_assoc; exact E|]. rewrite app_length in I1, I2. cbn [length] in I1, I2. rewrite Nat.add_1_r in I1, I2.
  unfold row_extents at 1 3. cbn [cells map block block_id cell_position]. rewrite Ec. cbn [app sequential fst snd]. split; [split; [reflexivity|exact I1]|]. unfold sizes, squares. cbn [fold_right snd]. fold (sizes (flat_map (row_extents (mkStructure full [])) (DiagonalRows bl (S (length pre)) (pos + size b * size b)))). rewrite I2. reflexivity.
Qed.
Section DIAGONAL.
Variables (diagonal : vec) (bl : list Block) (junk : vec).
Hypothesis L : laid_out 0 bl.
Let bs := mkStructure bl (DiagonalRows bl 0 0).
Lemma diagonal_packed : packed bs /\ area bs = squares bl.
Proof. destruct (diagonal_extents bl bl [] 0 eq_refl) as [H1 H2]. split; [exact H1|exact H2]. Qed.
Lemma diagonal_valid : valid bs.
Proof.
  constructor; cbn [cols rows bs]; [exact L|rewrite diagonal_blocks; exact L|]. intros row Hr. destruct (diagonal_cells _ _ _ _ Hr) as [j [q [E B]]]. rewrite E. cbn [map block_id]. split; [constructor; [intros []|constructor]|]. intros c [<-|[]]. cbn [block_id]. lia.
Qed.
Lemma diagonal_good : good (CreateDiagonalMatrix diagonal bl junk) /\ packed (structure (CreateDiagonalMatrix diagonal bl junk)) /\ cols (structure (CreateDiagonalMatrix diagonal bl junk)) = bl /\ length (rows (structure (CreateDiagonalMatrix diagonal bl junk))) = length bl.
Proof.
  destruct diagonal_packed as [P E]. split; [|split; [exact P|split; [reflexivity|]]].
  - destruct (construct_good bs junk diagonal_valid (packed_disjoint _ P) (packed_contained _ P)) as [H1 H2 H3 H4 H5 H6 H7 H8]. constructor; assumption.
  - cbn. rewrite <- (map_length block), diagonal_blocks. reflexivity.
Qed.
Lemma diagonal_sum full rest : forall pre pos d m, full = pre ++ rest -> laid_out d rest -> (forall a, (pos <= a < pos + squares rest)%nat -> m a = 0) -> forall p q,
  suml (DiagonalRows rest (length pre) pos) (fun row => suml (cells row) (fun c => cell_entry (FillDiagonal rest d pos diagonal m) (block row) (nth (block_id c) full (mkBlock 0 0)) (cell_position c) p q)) =
  if (d <=? p)%nat && (p <? d + total rest)%nat && (p =? q)%nat then diagonal p else 0.
Proof.
  induction rest as [|b rest IH]; intros pre pos d m E LL Z p q.
  - cbn [DiagonalRows suml total fold_right]. rewrite Nat.add_0_r. destruct (Nat.leb_spec d p); destruct (Nat.ltb_spec p d); cbn; try reflexivity; lia.
  - destruct LL as [L1 L2]. cbn [DiagonalRows suml cells]. rewrite Rplus_0_r. cbn [block block_id cell_position].
    assert (nth (length pre) full (mkBlock 0 0) = b) as -> by (rewrite E, app_nth2, Nat.sub_diag by lia; reflexivity). cbn [FillDiagonal].
    set (m' := fold_left (fun (m : nat -> R) (j p : nat) => if (p =? pos + j * (size b + 1))%nat then diagonal (d + j)%nat else m p) (seq 0 (size b)) m).
    unfold squares in Z. cbn [fold_right] in Z. fold (squares rest) in Z.
    pose proof (IH (pre ++ [b]) (pos + size b * size b)%nat (d + size b)%nat m' ltac:(rewrite <- app_assoc; exact E) L2) as G. rewrite app_length in G. cbn [length] in G. rewrite Nat.add_1_r in G. rewrite G.
    2:{ intros a Ha. unfold m'. rewrite fill_block by apply seq_NoDup. destruct (find _ _) as [j|] eqn:F; [|apply Z; lia]. apply find_some in F. destruct F as [F1 F]. apply Nat.eqb_eq in F. apply in_seq in F1. exfalso. clear - F F1 Ha. assert (j * (size b + 1) < size b * size b)%nat by nia. lia. }
    clear G. unfold total. cbn [fold_right]. fold (total rest).
    assert (cell_entry (FillDiagonal rest (d + size b) (pos + size b * size b) diagonal m') b b pos p q = if holds b p && (p =? q)%nat then diagonal p else 0) as ->.
    { unfold cell_entry. destruct (holds b p) eqn:H1; [|reflexivity]. apply holds_spec in H1. unfold within in H1. cbn [andb]. destruct (holds b q) eqn:H2; [|destruct (Nat.eqb_spec p q) as [->|]; [assert (holds b q = true) by (apply holds_spec; exact H1); congruence|reflexivity]].
      apply holds_spec in H2. unfold within in H2. assert (exists i j, p = d + i /\ q = d + j /\ i < size b /\ j < size b)%nat as [i [j [-> [-> [Hi Hj]]]]] by (exists (p - d)%nat, (q - d)%nat; lia).
      rewrite L1. replace (d + i - d)%nat with i by lia. replace (d + j - d)%nat with j by lia. rewrite fill_below by (clear - Hi Hj; nia). unfold m'. rewrite fill_block by apply seq_NoDup.
      destruct (find _ _) as [k|] eqn:F.
      - apply find_some in F. destruct F as [F1 F]. apply Nat.eqb_eq in F. apply in_seq in F1. assert (k = i /\ k = j) as [-> <-].
        { assert (i * size b + j = k * size b + k)%nat as F' by lia. clear - F' Hi Hj F1. destruct (Nat.lt_trichotomy i k) as [T|[T|T]]; [exfalso; assert ((S i) * size b <= k * size b)%nat by (apply Nat.mul_le_mono_r; lia); lia| |exfalso; assert ((S k) * size b <= i * size b)%nat by (apply Nat.mul_le_mono_r; lia); lia]. subst. lia. }
        rewrite Nat.eqb_refl. reflexivity.
      - destruct (Nat.eqb_spec (d + i) (d + j)) as [Eij|Nij].
        + exfalso. assert (i = j) by lia. subst j. pose proof (find_none _ _ F i ltac:(apply in_seq; lia)) as F'. cbn beta in F'. apply Nat.eqb_neq in F'. apply F'. clear. lia.
        + apply Z. clear - Hi Hj. nia. }
    unfold holds. rewrite L1.
    destruct (Nat.eqb_spec p q); [|rewrite !andb_false_r; ring]. rewrite !andb_true_r.
    destruct (Nat.leb_spec d p); destruct (Nat.ltb_spec p (d + size b)); destruct (Nat.leb_spec (d + size b) p); destruct (Nat.ltb_spec p (d + size b + total rest)); destruct (Nat.ltb_spec p (d + (size b + total rest))); cbn; try ring; lia.
Qed.
Lemma diagonal_dense p q : entries (CreateDiagonalMatrix diagonal bl junk) p q = if (p <? total bl)%nat && (p =? q)%nat then diagonal p else 0.
Proof.
  unfold entries. rewrite dense_cells. destruct diagonal_packed as [P E].
  pose proof (diagonal_sum bl bl [] 0 0 (fun a => if (a <? nnz (Construct bs junk))%nat then 0 else junk a) eq_refl L) as G.
  assert (nnz (Construct bs junk) = squares bl) as En by (rewrite <- E; exact (g_nnz _ (construct_good bs junk diagonal_valid (packed_disjoint _ P) (packed_contained _ P)))).
  exact (G ltac:(intros a Ha; rewrite En; destruct (Nat.ltb_spec a (squares bl)); [reflexivity|lia]) p q).
Qed.
End DIAGONAL.
