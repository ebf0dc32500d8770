(* Proofs for C73: dense QR and the sparse normal equations. *)
From Coq Require Import Reals List Arith Bool Lia Lra Psatz Sorted.
From Verif Require Import SchurModel BlockSparseModel BlockSparseSpec BlockSparseProps GramModel GramSpec GramProps SparseModel SparseSpec SparseProps LsqModel LsqSpec LsqProofs.
Import ListNotations.
Open Scope R_scope.

Lemma objective_ext m n A A' b b' D x : (forall p q, (p < m)%nat -> (q < n)%nat -> A p q = A' p q) -> (forall p, (p < m)%nat -> b p = b' p) -> objective m n A b D x = objective m n A' b' D x.
Proof.
  intros HA Hb. unfold objective. f_equal. apply sn_ext. intros p Hp. rewrite (Hb p Hp).
  replace (row_times n A x p) with (row_times n A' x p); [reflexivity|]. apply sn_ext. intros q Hq. rewrite (HA p q Hp Hq). reflexivity.
Qed.
Lemma full_rank_ext m n A A' D : (forall p q, (p < m)%nat -> (q < n)%nat -> A p q = A' p q) -> full_rank m n A D -> full_rank m n A' D.
Proof.
  intros HA F v H1 H2. apply F; [|exact H2]. intros p Hp. rewrite <- (H1 p Hp). apply sn_ext. intros q Hq. rewrite (HA p q Hp Hq). reflexivity.
Qed.
Lemma qr_exact q st junk junk' m n A b D x : exact_qr q -> full_rank m n A D ->
  exists x' st', DenseQR q st junk junk' m n A b D x = (SUCCESS, x', st') /\ minimizes m n A b D x'.
Proof.
  intros E F. unfold DenseQR. cbv zeta.
  set (st0 := if _ || _ then (junk, junk') else (q_lhs st, q_rhs st)). destruct st0 as [l0 r0].
  match goal with |- context [qr_factorize q ?r n _] => change r with (augmented_rows m n D); set (rows := augmented_rows m n D) end.
  match goal with |- context [qr_factorize q rows n ?L] => set (lhs := L) end.
  match goal with |- context [qr_solve q rows n _ ?L] => set (rhs := L) end.
  assert (forall i j, (i < rows)%nat -> (j < n)%nat -> lhs i j = augmented m n A D i j) as HL.
  { intros i j Hi Hj. unfold lhs, augmented, rows, augmented_rows in *. destruct D as [d|].
    - destruct (Nat.eqb_spec m (m + n)); [lia|]. cbn [negb]. replace (m + n - n)%nat with m by lia. destruct (Nat.leb_spec m i), (Nat.ltb_spec i m); try lia; reflexivity.
    - rewrite Nat.add_0_r in *. rewrite Nat.eqb_refl. cbn [negb]. destruct (Nat.ltb_spec i m); [reflexivity|lia]. }
  assert (forall i, (i < rows)%nat -> rhs i = if (i <? m)%nat then b i else 0) as HR.
  { intros i Hi. unfold rhs, rows, augmented_rows in *. destruct D as [d|].
    - destruct (Nat.eqb_spec m (m + n)); [assert (n = 0)%nat by lia; subst n; rewrite Nat.add_0_r in *; cbn [negb]; destruct (Nat.ltb_spec i m); [reflexivity|lia]|].
      cbn [negb]. replace (m + n - n)%nat with m by lia. destruct (Nat.leb_spec m i), (Nat.ltb_spec i m); try lia; reflexivity.
    - rewrite Nat.add_0_r in *. rewrite Nat.eqb_refl. cbn [negb]. destruct (Nat.ltb_spec i m); [reflexivity|lia]. }
  destruct (E rows n lhs rhs) as [s [Es Ms]].
  { apply (full_rank_ext rows n (augmented m n A D)); [intros; symmetry; apply HL; assumption|apply augmented_rank, F]. }
  rewrite Es. eexists. eexists. split; [reflexivity|]. intro y. rewrite <- !(augmented_objective m n A b D).
  rewrite <- !(objective_ext rows n lhs (augmented m n A D) rhs _ None) by assumption. apply Ms.
Qed.

(* ---------------- the compressed row matrix of the inner products ---------------- *)
Lemma sumn_below n f : sum_below n f = sumn n f.
Proof. induction n; cbn [sum_below sumn]; [reflexivity|]. rewrite IHn. reflexivity. Qed.
Lemma matrix_of_app l l' r c : matrix_of (l ++ l') r c = matrix_of l r c + matrix_of l' r c.
Proof. induction l as [|e l IH]; cbn [app matrix_of]; [lra|]. rewrite IH. lra. Qed.
Lemma row_matrix m r' r c l :
  matrix_of (map (fun cv => (r', fst cv, snd cv)) (map (fun idx => (col_at m idx, val_at m idx)) l)) r c =
  if (r' =? r)%nat then fold_right (fun t s => (if (col_at m t =? c)%nat then val_at m t else 0) + s) 0 l else 0.
Proof.
  induction l as [|t l IH]; cbn [map matrix_of fold_right]; [destruct (r' =? r)%nat; reflexivity|]. rewrite IH. unfold c_row, c_col, c_val. cbn [fst snd].
  destruct (r' =? r)%nat; cbn [andb]; [reflexivity|lra].
Qed.
Lemma m_matrix_entry m r c : (r < m_num_rows m)%nat -> m_matrix m r c = stored_entry m r c.
Proof.
  intro H. unfold m_matrix, m_entries, stored_entry, row_entries.
  assert (forall n a, (a <= r < a + n)%nat -> matrix_of (flat_map (fun r0 => map (fun cv => (r0, fst cv, snd cv)) (map (fun idx => (col_at m idx, val_at m idx)) (row_range m r0))) (seq a n)) r c =
    fold_right (fun t s => (if (col_at m t =? c)%nat then val_at m t else 0) + s) 0 (row_range m r)) as G; [|apply G; lia].
  assert (forall n a, (r < a)%nat -> matrix_of (flat_map (fun r0 => map (fun cv => (r0, fst cv, snd cv)) (map (fun idx => (col_at m idx, val_at m idx)) (row_range m r0))) (seq a n)) r c = 0) as Z.
  { induction n as [|n IH]; intros a Ha; [reflexivity|]. cbn [seq flat_map]. rewrite matrix_of_app, IH, row_matrix by lia. destruct (Nat.eqb_spec a r); [lia|lra]. }
  induction n as [|n IH]; intros a Ha; [lia|]. cbn [seq flat_map]. rewrite matrix_of_app, row_matrix. destruct (Nat.eqb_spec a r) as [->|Ne].
  - rewrite Z by lia. lra.
  - rewrite IH by lia. lra.
Qed.

Section Result.
Variables (bs : Structure) (vs : vec) (lower : bool) (old : vec).
Hypothesis V : valid bs.
Hypothesis O : ordered_cells bs.
Let e := length (rows bs).
Let r := Create bs 0 e lower.
Let n := breadth bs.
Variable v : vec.
Hypothesis Hv : Compute bs vs 0 e lower r old = Some v.
Let m := result_matrix lower n r v.

Lemma bounded p t : (p < n)%nat -> (t < nth (S p) (i_rows r) 0%nat)%nat -> (t < i_nonzeros r)%nat.
Proof.
  intros Hp Ht. destruct (inner_structure bs 0 e lower (fun _ => 0%nat) V O) as [Hl [H0 [Hn [Hm _]]]]. fold r in Hl, H0, Hn, Hm. fold n in Hl, Hn, Hm.
  assert (forall k, (S p + k <= n)%nat -> (nth (S p) (i_rows r) 0%nat <= nth (S p + k) (i_rows r) 0%nat)%nat) as G.
  { induction k as [|k IH]; intro Hk; [rewrite Nat.add_0_r; lia|]. rewrite Nat.add_succ_r. etransitivity; [apply IH; lia|]. apply Hm. lia. }
  pose proof (G (n - S p)%nat ltac:(lia)) as G'. replace (S p + (n - S p))%nat with n in G' by lia. lia.
Qed.
Lemma nth_col t : (t < i_nonzeros r)%nat -> col_at m t = columns r (fun _ => 0%nat) t.
Proof.
  intro H. unfold col_at, m, result_matrix. cbn [m_cols]. rewrite (nth_indep _ 0%nat (columns r (fun _ => 0%nat) 0%nat)) by (rewrite map_length, seq_length; exact H).
  rewrite (map_nth (columns r (fun _ => 0%nat))), seq_nth by exact H. reflexivity.
Qed.
Lemma nth_val t : (t < i_nonzeros r)%nat -> val_at m t = v t.
Proof.
  intro H. unfold val_at, m, result_matrix. cbn [m_values]. rewrite (nth_indep _ 0 (v 0%nat)) by (rewrite map_length, seq_length; exact H). rewrite (map_nth v), seq_nth by exact H. reflexivity.
Qed.
Lemma stored_crs p q : (p < n)%nat -> stored_entry m p q = crs_entry (i_rows r) (columns r (fun _ => 0%nat)) v p q.
Proof.
  intro Hp. unfold stored_entry, crs_entry, SparseModel.row_range, range, row_at. change (m_rows m) with (i_rows r).
  assert (forall k a, (a + k <= i_nonzeros r)%nat -> fold_right (fun t s => (if (col_at m t =? q)%nat then val_at m t else 0) + s) 0 (seq a k) = BlockSparseSpec.suml (seq a k) (fun t => if (columns r (fun _ => 0%nat) t =? q)%nat then v t else 0)) as G.
  { induction k as [|k IH]; intros a Ha; [reflexivity|]. cbn [seq fold_right BlockSparseSpec.suml]. rewrite IH, nth_col, nth_val by lia. reflexivity. }
  destruct (Nat.le_gt_cases (nth (S p) (i_rows r) 0%nat) (nth p (i_rows r) 0%nat)) as [L|L].
  - replace (nth (S p) (i_rows r) 0%nat - nth p (i_rows r) 0%nat)%nat with 0%nat by lia. reflexivity.
  - apply G. pose proof (bounded p (nth (S p) (i_rows r) 0%nat - 1)%nat Hp ltac:(lia)). lia.
Qed.
Lemma result_valid : m_valid m.
Proof.
  destruct (inner_structure bs 0 e lower (fun _ => 0%nat) V O) as [Hl [H0 [Hn [Hm [Hc _]]]]]. fold r in Hl, H0, Hn, Hm, Hc. fold n in Hl, Hn, Hm, Hc.
  assert (num_nonzeros m = i_nonzeros r) as Nz by exact Hn.
  constructor.
  - exact Hl.
  - exact H0.
  - exact Hm.
  - rewrite Nz. unfold m, result_matrix. cbn [m_cols]. rewrite map_length, seq_length. lia.
  - unfold m, result_matrix. cbn [m_cols m_values]. rewrite !map_length. reflexivity.
  - intros i Hi. rewrite Nz in Hi. rewrite (nth_col i Hi). change (m_num_cols m) with n.
    assert (forall k, (k <= n)%nat -> (i < nth k (i_rows r) 0%nat)%nat -> exists p, (p < n)%nat /\ (nth p (i_rows r) 0%nat <= i < nth (S p) (i_rows r) 0%nat)%nat) as G.
    { induction k as [|k IH]; intros Hk Hi'; [lia|]. destruct (Nat.lt_ge_cases i (nth k (i_rows r) 0%nat)) as [L|L]; [apply IH; lia|]. exists k. split; [lia|]. split; [exact L|exact Hi']. }
    destruct (G n ltac:(lia) ltac:(lia)) as [p [Hp Hi']]. exact (Hc p i Hp Hi').
Qed.
Lemma result_sorted : sorted_rows m.
Proof.
  intros p Hp. change (m_num_rows m) with n in Hp. destruct (inner_structure bs 0 e lower (fun _ => 0%nat) V O) as [_ [_ [_ [_ [_ Hs]]]]]. fold r in Hs. fold n in Hs.
  unfold row_entries. rewrite map_map. cbn [fst]. unfold SparseModel.row_range, range, row_at. change (m_rows m) with (i_rows r).
  assert (forall k a, (nth p (i_rows r) 0%nat <= a)%nat -> (a + k <= nth (S p) (i_rows r) 0%nat)%nat -> StronglySorted le (map (col_at m) (seq a k))) as G.
  { induction k as [|k IH]; intros a Ha Hk; [constructor|]. cbn [seq map]. constructor; [apply IH; lia|]. apply Forall_forall. intros c Hc. apply in_map_iff in Hc. destruct Hc as [t [<- Ht]]. apply in_seq in Ht.
    rewrite !nth_col by (apply (bounded p); [exact Hp|lia]). apply Nat.lt_le_incl. apply (Hs p a t Hp); lia. }
  destruct (Nat.le_gt_cases (nth p (i_rows r) 0%nat) (nth (S p) (i_rows r) 0%nat)) as [L|L]; [apply G; lia|]. replace (nth (S p) (i_rows r) 0%nat - nth p (i_rows r) 0%nat)%nat with 0%nat by lia. constructor.
Qed.
Lemma find_block p : (p < n)%nat -> exists i, (i < length (cols bs))%nat /\ within (col bs i) p.
Proof.
  intro Hp. destruct V as [Vc _ _]. unfold n, breadth in Hp. unfold col. revert Hp.
  assert (forall bl a, laid_out a bl -> (a <= p < a + total bl)%nat -> exists i, (i < length bl)%nat /\ within (nth i bl (mkBlock 0 0)) p) as G.
  { induction bl as [|b bl IH]; intros a L H; cbn [total fold_right] in H; [lia|]. destruct L as [L1 L2]. destruct (Nat.lt_ge_cases p (a + size b)) as [Lt|Ge].
    - exists 0%nat. split; [cbn; lia|]. unfold within. cbn [nth]. lia.
    - destruct (IH (a + size b)%nat L2) as [i [Hi Hw]]; [unfold total; lia|]. exists (S i). split; [cbn; lia|exact Hw]. }
  intro Hp. apply (G _ 0%nat Vc). lia.
Qed.
Lemma block_order i j p q : (i < length (cols bs))%nat -> (j < length (cols bs))%nat -> within (col bs i) p -> within (col bs j) q -> (p <= q)%nat -> (i <= j)%nat.
Proof.
  destruct V as [Vc _ _]. unfold col. intros Hi Hj. revert i j Hi Hj. assert (forall bl a i j, laid_out a bl -> (i < length bl)%nat -> (j < length bl)%nat -> within (nth i bl (mkBlock 0 0)) p -> within (nth j bl (mkBlock 0 0)) q -> (p <= q)%nat -> (i <= j)%nat) as G.
  { assert (forall bl a i, laid_out a bl -> (i < length bl)%nat -> within (nth i bl (mkBlock 0 0)) p -> (a <= p)%nat) as Lo.
    { induction bl as [|b bl IH]; intros a i L Hi W; [cbn in Hi; lia|]. destruct L as [L1 L2]. destruct i as [|i]; [unfold within in W; cbn [nth] in W; lia|]. pose proof (IH _ i L2 ltac:(cbn in Hi; lia) W). lia. }
    induction bl as [|b bl IH]; intros a i j L Hi Hj Wi Wj Le; [cbn in Hi; lia|]. destruct L as [L1 L2].
    destruct i as [|i]; [lia|]. cbn [nth length] in *. destruct j as [|j].
    - exfalso. pose proof (Lo bl _ i L2 ltac:(lia) Wi). unfold within in Wj. lia.
    - apply le_n_S. exact (IH _ i j L2 ltac:(lia) ltac:(lia) Wi Wj Le). }
  intros i j Hi Hj Wi Wj Le. exact (G (cols bs) 0%nat i j Vc Hi Hj Wi Wj Le).
Qed.
Lemma gram_sym s' e' p q : gram bs vs s' e' p q = gram bs vs s' e' q p.
Proof. unfold gram. induction (firstn _ _) as [|row l IH]; [reflexivity|]. cbn [BlockSparseSpec.suml]. rewrite IH. f_equal. apply sn_ext. intros. ring. Qed.
Lemma result_entry p q : (p < n)%nat -> (q < n)%nat -> (if lower then (q <= p)%nat else (p <= q)%nat) -> stored_entry m p q = gram bs vs 0 e p q.
Proof.
  intros Hp Hq T. rewrite (stored_crs p q Hp). destruct (find_block p Hp) as [i [Hi Wi]]. destruct (find_block q Hq) as [j [Hj Wj]].
  destruct (inner_product bs vs 0 e lower old (fun _ => 0%nat) V O) as [v' [Ev E]]. fold r in Ev, E. rewrite Hv in Ev. injection Ev as <-. rewrite (E i j p q Hi Hj Wi Wj).
  replace (in_triangle lower i j) with true; [reflexivity|]. unfold in_triangle. destruct lower; symmetry; apply Nat.leb_le.
  - exact (block_order j i q p Hj Hi Wj Wi T).
  - exact (block_order i j p q Hi Hj Wi Wj T).
Qed.
Lemma result_read p q : (p < n)%nat -> (q < n)%nat -> read_triangle m p q = gram bs vs 0 e p q.
Proof.
  intros Hp Hq. assert (read_triangle m p q = if lower then stored_entry m (Nat.max p q) (Nat.min p q) else stored_entry m (Nat.min p q) (Nat.max p q)) as ->.
  { unfold read_triangle. change (m_storage m) with (if lower then Lower else Upper). destruct lower; reflexivity. }
  assert ((if lower then stored_entry m (Nat.max p q) (Nat.min p q) else stored_entry m (Nat.min p q) (Nat.max p q)) = if lower then gram bs vs 0 e (Nat.max p q) (Nat.min p q) else gram bs vs 0 e (Nat.min p q) (Nat.max p q)) as ->.
  { pose proof (result_entry (Nat.max p q) (Nat.min p q) ltac:(lia) ltac:(lia)) as H1. pose proof (result_entry (Nat.min p q) (Nat.max p q) ltac:(lia) ltac:(lia)) as H2. destruct lower; [apply H1; lia|apply H2; lia]. }
  destruct (Nat.le_ge_cases p q) as [L|L]; [rewrite (Nat.min_l p q), (Nat.max_r p q) by exact L|rewrite (Nat.min_r p q), (Nat.max_l p q) by exact L]; destruct lower; try reflexivity; apply gram_sym.
Qed.
Lemma result_times x : same n (right_multiply m (range 0 (m_num_rows m)) x (fun _ => 0)) (row_times n (gram bs vs 0 e) x).
Proof.
  intros p Hp. rewrite crs_right_product.
  - rewrite Rplus_0_l, sumn_below. change (m_num_cols m) with n. change (m_num_rows m) with n. apply Nat.ltb_lt in Hp as Hp'. rewrite ?Hp'. unfold row_times. apply sn_ext. intros q Hq. f_equal.
    rewrite <- (result_read p q Hp Hq). unfold full_matrix, read_triangle. change (m_storage m) with (if lower then Lower else Upper).
    destruct lower; destruct (Nat.leb_spec p q), (Nat.leb_spec q p); try lia; rewrite ?m_matrix_entry by assumption; f_equal; lia.
  - apply result_valid.
  - unfold range. rewrite Nat.sub_0_r. apply Permutation.Permutation_refl.
  - intros _. split; [apply result_sorted|reflexivity].
Qed.
End Result.
