(* deleting rows; diagonal matrices *)
From Coq Require Import Reals List Arith Bool Lia Lra Permutation.
From Verif Require Import SchurModel SchurProofs BlockSparseModel BlockSparseSpec BlockSparseProofs BlockSparseProofs2 BlockSparseProofs3 BlockSparseProofs4.
Import ListNotations.
Open Scope R_scope.

Lemma trim_map F new : forall n a i, trim (map F (seq a n)) i new = map (fun k => if (k =? a + i)%nat then mkRow (block (F k)) (rev (drop_back new (rev (cells (F k))))) else F k) (seq a n).
Proof.
  induction n as [|n IH]; intros a i; [reflexivity|]. cbn [seq map trim]. destruct i as [|i].
  - rewrite Nat.add_0_r, Nat.eqb_refl. f_equal. apply map_ext_in. intros k Hk. apply in_seq in Hk. destruct (Nat.eqb_spec k a); [lia|reflexivity].
  - rewrite IH. destruct (Nat.eqb_spec a (a + S i)); [lia|]. f_equal. apply map_ext. intro k. replace (S a + i)%nat with (a + S i)%nat by lia. reflexivity.
Qed.
Lemma drop_back_all new l1 l2 : (forall c, In c l1 -> (new <= block_id c)%nat) -> (forall c, In c l2 -> (block_id c < new)%nat) -> drop_back new (l1 ++ l2) = l2.
Proof.
  intros H1 H2. induction l1 as [|c l1 IH]; cbn [app drop_back].
  - destruct l2 as [|c l2]; [reflexivity|]. cbn [drop_back]. destruct (Nat.leb_spec new (block_id c)) as [L|L]; [|reflexivity]. specialize (H2 c (or_introl eq_refl)). lia.
  - destruct (Nat.leb_spec new (block_id c)) as [L|L]; [|specialize (H1 c (or_introl eq_refl)); lia]. apply IH. intros x Hx. apply H1. right. exact Hx.
Qed.
Lemma tcells_row k l c : In c (tcells k l) -> exists p, In p l /\ block_id c = fst p.
Proof. intro H. unfold tcells in H. apply in_map_iff in H. destruct H as [p [<- Hp]]. apply filter_In in Hp. exists p. split; [apply Hp|reflexivity]. Qed.
Lemma occurrence_bounds rs : forall i p, In p (occurrences i rs) -> (i <= fst p < i + length rs)%nat.
Proof.
  induction rs as [|r rs IH]; intros i p H; [contradiction|]. cbn [occurrences length] in *. apply in_app_or in H. destruct H as [H|H]; [apply in_map_iff in H; destruct H as [c [<- _]]; cbn; lia|]. specialize (IH _ _ H). lia.
Qed.
Section DELETE.
Variables (cs : list Block) (kept gone : list Row).
Let n := length kept.
Let occ := occurrences 0 (kept ++ gone).
Definition partly (touched : nat -> bool) : list Row := map (fun k => mkRow (nth k cs (mkBlock 0 0)) (if touched k then tcells k (occurrences 0 kept) else tcells k occ)) (seq 0 (length cs)).
Lemma back_cells k : rev (drop_back n (rev (tcells k occ))) = tcells k (occurrences 0 kept).
Proof.
  unfold occ. rewrite occurrences_app, tcells_app, rev_app_distr, drop_back_all; [apply rev_involutive| |].
  - intros c Hc. apply in_rev in Hc. destruct (tcells_row _ _ _ Hc) as [p [Hp ->]]. pose proof (occurrence_bounds _ _ _ Hp). unfold n. lia.
  - intros c Hc. apply in_rev in Hc. destruct (tcells_row _ _ _ Hc) as [p [Hp ->]]. pose proof (occurrence_bounds _ _ _ Hp). unfold n. lia.
Qed.
Lemma front_cells k : rev (drop_back n (rev (tcells k (occurrences 0 kept)))) = tcells k (occurrences 0 kept).
Proof.
  rewrite <- (app_nil_l (rev (tcells k (occurrences 0 kept)))), drop_back_all; [apply rev_involutive|intros c []|].
  intros c Hc. apply in_rev in Hc. destruct (tcells_row _ _ _ Hc) as [p [Hp ->]]. pose proof (occurrence_bounds _ _ _ Hp). unfold n. lia.
Qed.
Lemma trim_partly t i : trim (partly t) i n = partly (fun k => t k || (k =? i)%nat).
Proof.
  unfold partly. rewrite trim_map. apply map_ext. intro k. cbn [block cells]. rewrite Nat.add_0_l. destruct (Nat.eqb_spec k i) as [->|N].
  - rewrite orb_true_r. f_equal. destruct (t i); [apply front_cells|apply back_cells].
  - rewrite orb_false_r. reflexivity.
Qed.
Lemma trim_cells ccs : forall t, exists t', fold_left (fun tr c => trim tr (block_id c) n) ccs (partly t) = partly t' /\ (forall k, t k = true -> t' k = true) /\ forall c, In c ccs -> t' (block_id c) = true.
Proof.
  induction ccs as [|c ccs IH]; intro t; [exists t; split; [reflexivity|split; [auto|intros c []]]|]. cbn [fold_left]. rewrite trim_partly. destruct (IH (fun k => t k || (k =? block_id c)%nat)) as [t' [E [M C]]]. exists t'. split; [exact E|]. split.
  - intros k Hk. apply M. rewrite Hk. reflexivity.
  - intros x [<-|Hx]; [|apply C; exact Hx]. apply M. rewrite Nat.eqb_refl. apply orb_true_r.
Qed.
Lemma trim_rows l : forall t, exists t', fold_left (fun tr row => fold_left (fun tr c => trim tr (block_id c) n) (cells row) tr) l (partly t) = partly t' /\ (forall k, t k = true -> t' k = true) /\ forall row c, In row l -> In c (cells row) -> t' (block_id c) = true.
Proof.
  induction l as [|row l IH]; intro t; [exists t; split; [reflexivity|split; [auto|intros row c []]]|]. cbn [fold_left]. destruct (trim_cells (cells row) t) as [t1 [E1 [M1 C1]]]. rewrite E1. destruct (IH t1) as [t' [E [M C]]]. exists t'. split; [exact E|]. split; [auto|].
  intros r c [<-|Hr] Hc; [apply M, C1; exact Hc|exact (C r c Hr Hc)].
Qed.
Lemma trim_all : fold_left (fun tr row => fold_left (fun tr c => trim tr (block_id c) n) (cells row) tr) (rev gone) (trows cs occ) = trows cs (occurrences 0 kept).
Proof.
  destruct (trim_rows (rev gone) (fun _ => false)) as [t' [E [_ C]]]. change (partly (fun _ => false)) with (trows cs occ) in E. rewrite E. unfold partly, trows. apply map_ext. intro k. destruct (t' k) eqn:Ek; [reflexivity|]. f_equal.
  unfold occ. rewrite occurrences_app, tcells_app. replace (tcells k (occurrences (0 + length kept) gone)) with (@nil Cell); [apply app_nil_r|]. symmetry. unfold tcells.
  replace (filter (fun p => (block_id (snd p) =? k)%nat) (occurrences (0 + length kept) gone)) with (@nil (nat * Cell)); [reflexivity|]. symmetry.
  destruct (filter _ _) as [|p l] eqn:F; [reflexivity|]. exfalso. assert (In p (filter (fun p => (block_id (snd p) =? k)%nat) (occurrences (0 + length kept) gone))) as Hp by (rewrite F; left; reflexivity). apply filter_In in Hp. destruct Hp as [Hp Hk]. apply Nat.eqb_eq in Hk. destruct (occurrence_row _ _ _ Hp) as [row [_ [H2 [_ H4]]]]. specialize (C row (snd p) (proj1 (in_rev _ _) H4) H2). congruence.
Qed.
End DELETE.
Lemma delete_fold bs new l : forall d r tr,
  fold_left (fun '(dnnz, drows, trows) row =>
      let '(dnnz, trows) := fold_left (fun '(dnnz, trows) c => ((dnnz + size (block row) * size (col bs (block_id c)))%nat, trim trows (block_id c) new)) (cells row) (dnnz, trows) in
      (dnnz, (drows + size (block row))%nat, trows)) l (d, r, tr) =
  ((d + sizes (flat_map (row_extents bs) l))%nat, (r + total (map block l))%nat, fold_left (fun tr row => fold_left (fun tr c => trim tr (block_id c) new) (cells row) tr) l tr).
Proof.
  induction l as [|row l IH]; intros d r tr; [cbn; rewrite !Nat.add_0_r; reflexivity|]. cbn [fold_left].
  assert (forall ccs d tr, fold_left (fun '(dnnz, trows) c => ((dnnz + size (block row) * size (col bs (block_id c)))%nat, trim trows (block_id c) new)) ccs (d, tr) =
    ((d + sizes (map (fun c => (cell_position c, (size (block row) * size (col bs (block_id c)))%nat)) ccs))%nat, fold_left (fun tr c => trim tr (block_id c) new) ccs tr)) as ->.
  { clear. induction ccs as [|c ccs IH]; intros d tr; [cbn; rewrite Nat.add_0_r; reflexivity|]. cbn [fold_left]. rewrite IH. f_equal. unfold sizes. cbn [map fold_right snd]. lia. }
  rewrite IH. cbn [flat_map map total fold_right]. fold (total (map block l)). rewrite sizes_app. unfold row_extents at 2. f_equal. f_equal; lia.
Qed.
Lemma sizes_rev bs l : sizes (flat_map (row_extents bs) (rev l)) = sizes (flat_map (row_extents bs) l).
Proof. induction l as [|r l IH]; [reflexivity|]. cbn [rev flat_map]. rewrite flat_map_app, !sizes_app, IH. cbn [flat_map]. rewrite app_nil_r. lia. Qed.
Lemma total_rev l : total (map block (rev l)) = total (map block l).
Proof. induction l as [|r l IH]; [reflexivity|]. cbn [rev map]. rewrite map_app, total_app, IH. cbn. unfold total. lia. Qed.
Lemma delete_result a delta : good a -> (delta <= length (rows (structure a)))%nat ->
  let bs := top (length (rows (structure a)) - delta) (structure a) in
  DeleteRowBlocks a delta = Some (mkBlockSparse bs (CreateTranspose bs) (values a) (area bs) (max_nnz a) (height bs) (num_columns a)).
Proof.
  intros G H. cbv zeta. unfold DeleteRowBlocks. destruct (Nat.ltb_spec (length (rows (structure a))) delta); [lia|]. set (n := (length (rows (structure a)) - delta)%nat).
  rewrite delete_fold, sizes_rev, total_rev. set (kept := firstn n (rows (structure a))). set (gone := skipn n (rows (structure a))).
  assert (rows (structure a) = kept ++ gone) as E by (symmetry; apply firstn_skipn).
  assert (length kept = n) as Ln by (unfold kept; apply firstn_length_le; unfold n; lia).
  f_equal. rewrite (g_nnz _ G), (g_rows _ G), (g_transposed _ G), transpose_rows. fold kept gone.
  assert (fold_left (fun tr row => fold_left (fun tr c => trim tr (block_id c) n) (cells row) tr) (rev gone) (trows (cols (structure a)) (occurrences 0 (rows (structure a)))) = trows (cols (structure a)) (occurrences 0 kept)) as -> by (rewrite E, <- Ln; apply trim_all).
  assert (area (structure a) - (0 + sizes (flat_map (row_extents (structure a)) gone)) = area (top n (structure a)))%nat as ->.
  { change (area (structure a)) with (sizes (flat_map (row_extents (structure a)) (rows (structure a)))). rewrite E at 1. rewrite flat_map_app, sizes_app. change (area (top n (structure a))) with (sizes (flat_map (row_extents (structure a)) kept)). lia. }
  assert (height (structure a) - (0 + total (map block gone)) = height (top n (structure a)))%nat as ->.
  { unfold height at 1. rewrite E at 1. rewrite map_app, total_app. change (height (top n (structure a))) with (total (map block kept)). lia. }
  f_equal. apply transpose_eq.
  - cbn [cols]. cbn [CreateTranspose cols]. rewrite map_length. fold n. rewrite firstn_map. reflexivity.
  - cbn [rows]. rewrite transpose_rows. reflexivity.
Qed.
Lemma in_top n bs row : In row (rows (top n bs)) -> In row (rows bs).
Proof. cbn [top rows]. intro H. rewrite <- (firstn_skipn n (rows bs)). apply in_or_app. left. exact H. Qed.
Lemma top_valid n bs : valid bs -> valid (top n bs).
Proof.
  intro V. constructor; [exact (v_cols _ V)| |intros row Hr; exact (v_cells _ V row (in_top n bs row Hr))].
  pose proof (v_rows _ V) as L. rewrite <- (firstn_skipn n (rows bs)), map_app in L. apply laid_app in L. exact (proj1 L).
Qed.
Lemma top_extents n bs : extents bs = extents (top n bs) ++ flat_map (row_extents bs) (skipn n (rows bs)).
Proof. rewrite (extents_rows bs). rewrite <- (firstn_skipn n (rows bs)) at 1. rewrite flat_map_app. reflexivity. Qed.
Lemma fop_app {A} (P : A -> A -> Prop) l1 l2 : ForallOrdPairs P (l1 ++ l2) -> ForallOrdPairs P l1.
Proof. induction l1 as [|x l1 IH]; intro H; [constructor|]. inversion H as [|? ? H1 H2]; subst. apply Forall_app in H1. constructor; [apply H1|apply IH; exact H2]. Qed.
Lemma top_disjoint n bs : disjoint bs -> disjoint (top n bs).
Proof. unfold disjoint. intro D. rewrite (top_extents n bs) in D. exact (fop_app _ _ _ D). Qed.
Lemma top_packed n bs : packed bs -> packed (top n bs).
Proof. unfold packed. intro D. rewrite (top_extents n bs) in D. apply sequential_app in D. exact (proj1 D). Qed.
Lemma sequential_contained l : forall p, sequential p l -> Forall (fun r => (fst r + snd r <= p + sizes l)%nat) l.
Proof.
  induction l as [|r l IH]; intros p Q; [constructor|]. destruct Q as [Q1 Q2]. unfold sizes. cbn [fold_right]. fold (sizes l). constructor; [lia|]. eapply Forall_impl; [|exact (IH _ Q2)]. intros r' Hr'. cbn beta in Hr'. lia.
Qed.
Lemma packed_contained bs : packed bs -> contained bs (area bs).
Proof. intro P. exact (sequential_contained _ 0 P). Qed.
Lemma sequential_disjoint l : forall p, sequential p l -> ForallOrdPairs apart l /\ Forall (fun r => (p <= fst r)%nat) l.
Proof.
  induction l as [|r l IH]; intros p Q; [split; constructor|]. destruct Q as [Q1 Q2]. destruct (IH _ Q2) as [I1 I2]. split.
  - constructor; [|exact I1]. eapply Forall_impl; [|exact I2]. intros r' Hr'. cbn beta in Hr'. left. lia.
  - constructor; [lia|]. eapply Forall_impl; [|exact I2]. intros r' Hr'. cbn beta in Hr'. lia.
Qed.
Lemma packed_disjoint bs : packed bs -> disjoint bs.
Proof. intro P. exact (proj1 (sequential_disjoint _ 0 P)). Qed.
Lemma top_dense n bs v p q : valid bs -> dense (top n bs) v p q = if (p <? height (top n bs))%nat then dense bs v p q else 0.
Proof.
  intro V. destruct (Nat.ltb_spec p (height (top n bs))) as [H|H]; [|apply dense_below; [apply top_valid; exact V|exact H]].
  rewrite !dense_cells. cbn [top rows]. rewrite <- (firstn_skipn n (rows bs)) at 2. rewrite suml_app.
  assert (suml (skipn n (rows bs)) (fun row => suml (cells row) (fun c => cell_entry v (block row) (col bs (block_id c)) (cell_position c) p q)) = 0) as ->; [|rewrite Rplus_0_r; reflexivity].
  apply suml_zero. intros row Hr. apply suml_zero. intros c Hc. unfold cell_entry. destruct (holds (block row) p) eqn:E; [|reflexivity]. exfalso. apply holds_spec in E. unfold within in E.
  pose proof (v_rows _ V) as L. rewrite <- (firstn_skipn n (rows bs)), map_app in L. apply laid_app in L. destruct L as [_ L]. change (total (map block (firstn n (rows bs)))) with (height (top n bs)) in L.
  assert (forall bl p0, laid_out p0 bl -> forall b, In b bl -> (p0 <= position b)%nat) as G.
  { clear. induction bl as [|b bl IH]; intros p0 L b' Hb; [contradiction|]. destruct L as [L1 L2]. destruct Hb as [<-|Hb]; [lia|]. specialize (IH _ L2 _ Hb). lia. }
  specialize (G _ _ L (block row) (in_map block _ _ Hr)). lia.
Qed.
Lemma delete_good a n : good a -> contained (top n (structure a)) (area (top n (structure a))) ->
  good (mkBlockSparse (top n (structure a)) (CreateTranspose (top n (structure a))) (values a) (area (top n (structure a))) (max_nnz a) (height (top n (structure a))) (num_columns a)).
Proof.
  intros G C. constructor; cbn [structure transposed values nnz max_nnz num_rows num_columns]; try reflexivity; try assumption.
  - apply top_valid. exact (g_valid _ G).
  - exact (g_columns _ G).
  - pose proof (g_max _ G) as M. rewrite (g_nnz _ G) in M. assert (area (structure a) = area (top n (structure a)) + sizes (flat_map (row_extents (structure a)) (skipn n (rows (structure a)))))%nat as E; [|lia].
    change (area (structure a)) with (sizes (extents (structure a))). rewrite (top_extents n (structure a)), sizes_app. reflexivity.
  - apply top_disjoint. exact (g_disjoint _ G).
Qed.
