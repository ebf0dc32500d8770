(* C85: reading the inner product of a range of row blocks (as LsqProofs2.v, which is about all of
   them). *)
From Coq Require Import Reals List Arith Bool Lia Lra Psatz.
From Verif Require Import SparseModel SparseSpec SchurModel BlockSparseModel BlockSparseSpec BlockSparseProofs4 BlockSparseProofs6 BlockSparseProps GramModel GramSpec GramProps LsqModel LsqSpec LsqProofs LsqProofs2 LsqProofs3 SubModel SubSpec.
Import ListNotations.
Open Scope R_scope.

Section Result.
Variables (bs : Structure) (vs : vec) (lower : bool) (old : vec) (start : nat).
Hypothesis V : valid bs.
Hypothesis O : ordered_cells bs.
Let e := length (rows bs).
Let r := Create bs start e lower.
Let n := breadth bs.
Variable v : vec.
Hypothesis Hv : Compute bs vs start e lower r old = Some v.
Let m := result_matrix lower n r v.

Lemma s_bounded p t : (p < n)%nat -> (t < nth (S p) (i_rows r) 0%nat)%nat -> (t < i_nonzeros r)%nat.
Proof.
  intros Hp Ht. destruct (inner_structure bs start e lower (fun _ => 0%nat) V O) as [Hl [H0 [Hn [Hm _]]]]. fold r in Hl, H0, Hn, Hm. fold n in Hl, Hn, Hm.
  assert (forall k, (S p + k <= n)%nat -> (nth (S p) (i_rows r) 0%nat <= nth (S p + k) (i_rows r) 0%nat)%nat) as G.
  { induction k as [|k IH]; intro Hk; [rewrite Nat.add_0_r; lia|]. rewrite Nat.add_succ_r. etransitivity; [apply IH; lia|]. apply Hm. lia. }
  pose proof (G (n - S p)%nat ltac:(lia)) as G'. replace (S p + (n - S p))%nat with n in G' by lia. lia.
Qed.
Lemma s_nth_col t : (t < i_nonzeros r)%nat -> col_at m t = columns r (fun _ => 0%nat) t.
Proof.
  intro H. unfold col_at, m, result_matrix. cbn [m_cols]. rewrite (nth_indep _ 0%nat (columns r (fun _ => 0%nat) 0%nat)) by (rewrite map_length, seq_length; exact H).
  rewrite (map_nth (columns r (fun _ => 0%nat))), seq_nth by exact H. reflexivity.
Qed.
Lemma s_nth_val t : (t < i_nonzeros r)%nat -> val_at m t = v t.
Proof.
  intro H. unfold val_at, m, result_matrix. cbn [m_values]. rewrite (nth_indep _ 0 (v 0%nat)) by (rewrite map_length, seq_length; exact H). rewrite (map_nth v), seq_nth by exact H. reflexivity.
Qed.
Lemma s_stored_crs p q : (p < n)%nat -> stored_entry m p q = crs_entry (i_rows r) (columns r (fun _ => 0%nat)) v p q.
Proof.
  intro Hp. unfold stored_entry, crs_entry, SparseModel.row_range, range, row_at. change (m_rows m) with (i_rows r).
  assert (forall k a, (a + k <= i_nonzeros r)%nat -> fold_right (fun t s => (if (col_at m t =? q)%nat then val_at m t else 0) + s) 0 (seq a k) = BlockSparseSpec.suml (seq a k) (fun t => if (columns r (fun _ => 0%nat) t =? q)%nat then v t else 0)) as G.
  { induction k as [|k IH]; intros a Ha; [reflexivity|]. cbn [seq fold_right BlockSparseSpec.suml]. rewrite IH, s_nth_col, s_nth_val by lia. reflexivity. }
  destruct (Nat.le_gt_cases (nth (S p) (i_rows r) 0%nat) (nth p (i_rows r) 0%nat)) as [L|L].
  - replace (nth (S p) (i_rows r) 0%nat - nth p (i_rows r) 0%nat)%nat with 0%nat by lia. reflexivity.
  - apply G. pose proof (s_bounded p (nth (S p) (i_rows r) 0%nat - 1)%nat Hp ltac:(lia)). lia.
Qed.
Lemma s_find_block p : (p < n)%nat -> exists i, (i < length (cols bs))%nat /\ within (col bs i) p.
Proof.
  intro Hp. destruct V as [Vc _ _]. unfold n, breadth in Hp. unfold col. revert Hp.
  assert (forall bl a, laid_out a bl -> (a <= p < a + total bl)%nat -> exists i, (i < length bl)%nat /\ within (nth i bl (mkBlock 0 0)) p) as G.
  { induction bl as [|b bl IH]; intros a L H; cbn [total fold_right] in H; [lia|]. destruct L as [L1 L2]. destruct (Nat.lt_ge_cases p (a + size b)) as [Lt|Ge].
    - exists 0%nat. split; [cbn; lia|]. unfold within. cbn [nth]. lia.
    - destruct (IH (a + size b)%nat L2) as [i [Hi Hw]]; [unfold total; lia|]. exists (S i). split; [cbn; lia|exact Hw]. }
  intro Hp. apply (G _ 0%nat Vc). lia.
Qed.
Lemma s_block_order i j p q : (i < length (cols bs))%nat -> (j < length (cols bs))%nat -> within (col bs i) p -> within (col bs j) q -> (p <= q)%nat -> (i <= j)%nat.
Proof.
  destruct V as [Vc _ _]. unfold col. intros Hi Hj. revert i j Hi Hj. assert (forall bl a i j, laid_out a bl -> (i < length bl)%nat -> (j < length bl)%nat -> within (nth i bl (mkBlock 0 0)) p -> within (nth j bl (mkBlock 0 0)) q -> (p <= q)%nat -> (i <= j)%nat) as G.
  { assert (forall bl a i, laid_out a bl -> (i < length bl)%nat -> within (nth i bl (mkBlock 0 0)) p -> (a <= p)%nat) as Lo.
    { induction bl as [|b bl IH]; intros a i L Hi W; [cbn in Hi; lia|]. destruct L as [L1 L2]. destruct i as [|i]; [unfold within in W; cbn [nth] in W; lia|]. pose proof (IH _ i L2 ltac:(cbn in Hi; lia) W). lia. }
    induction bl as [|b bl IH]; intros a i j L Hi Hj Wi Wj Le; [cbn in Hi; lia|]. destruct L as [L1 L2].
    destruct i as [|i]; [lia|]. cbn [nth length] in *. destruct j as [|j].
    - exfalso. pose proof (Lo bl _ i L2 ltac:(lia) Wi). unfold within in Wj. lia.
    - apply le_n_S. exact (IH _ i j L2 ltac:(lia) ltac:(lia) Wi Wj Le). }
  intros i j Hi Hj Wi Wj Le. exact (G (cols bs) 0%nat i j Vc Hi Hj Wi Wj Le).
Qed.
Lemma s_gram_sym s' e' p q : gram bs vs s' e' p q = gram bs vs s' e' q p.
Proof. unfold gram. induction (firstn _ _) as [|row l IH]; [reflexivity|]. cbn [BlockSparseSpec.suml]. rewrite IH. f_equal. apply sn_ext. intros. ring. Qed.
Lemma s_result_entry p q : (p < n)%nat -> (q < n)%nat -> (if lower then (q <= p)%nat else (p <= q)%nat) -> stored_entry m p q = gram bs vs start e p q.
Proof.
  intros Hp Hq T. rewrite (s_stored_crs p q Hp). destruct (s_find_block p Hp) as [i [Hi Wi]]. destruct (s_find_block q Hq) as [j [Hj Wj]].
  destruct (inner_product bs vs start e lower old (fun _ => 0%nat) V O) as [v' [Ev E]]. fold r in Ev, E. rewrite Hv in Ev. injection Ev as <-. rewrite (E i j p q Hi Hj Wi Wj).
  replace (in_triangle lower i j) with true; [reflexivity|]. unfold in_triangle. destruct lower; symmetry; apply Nat.leb_le.
  - exact (s_block_order j i q p Hj Hi Wj Wi T).
  - exact (s_block_order i j p q Hi Hj Wi Wj T).
Qed.
Lemma s_result_read p q : (p < n)%nat -> (q < n)%nat -> read_triangle m p q = gram bs vs start e p q.
Proof.
  intros Hp Hq. assert (read_triangle m p q = if lower then stored_entry m (Nat.max p q) (Nat.min p q) else stored_entry m (Nat.min p q) (Nat.max p q)) as ->.
  { unfold read_triangle. change (m_storage m) with (if lower then Lower else Upper). destruct lower; reflexivity. }
  assert ((if lower then stored_entry m (Nat.max p q) (Nat.min p q) else stored_entry m (Nat.min p q) (Nat.max p q)) = if lower then gram bs vs start e (Nat.max p q) (Nat.min p q) else gram bs vs start e (Nat.min p q) (Nat.max p q)) as ->.
  { pose proof (s_result_entry (Nat.max p q) (Nat.min p q) ltac:(lia) ltac:(lia)) as H1. pose proof (s_result_entry (Nat.min p q) (Nat.max p q) ltac:(lia) ltac:(lia)) as H2. destruct lower; [apply H1; lia|apply H2; lia]. }
  destruct (Nat.le_ge_cases p q) as [L|L]; [rewrite (Nat.min_l p q), (Nat.max_r p q) by exact L|rewrite (Nat.min_r p q), (Nat.max_l p q) by exact L]; destruct lower; try reflexivity; apply s_gram_sym.
Qed.
End Result.
