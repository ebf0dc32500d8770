(* C65: sorting, where the blocks begin, the sparsity pattern *)
From Coq Require Import Reals ZArith List Arith Bool Lia Permutation Sorted.
From Verif Require Import SchurModel CGModel SparseModel SparseProofs CovarianceModel.
Import ListNotations.
Open Scope nat_scope.

(* ---- sorting ---- *)
Lemma insert_perm a l : Permutation (insert a l) (a :: l).
Proof. induction l as [|b l IH]; cbn [insert]; [auto|]. destruct (a <=? b); [auto|]. rewrite IH. constructor. Qed.
Lemma sort_perm l : Permutation (sort l) l.
Proof. induction l as [|a l IH]; cbn; [auto|]. rewrite insert_perm. now constructor. Qed.
Lemma insert_sorted a l : StronglySorted Peano.le l -> StronglySorted Peano.le (insert a l).
Proof.
  induction 1 as [|b l S IH F]; cbn [insert]; [repeat constructor|]. destruct (Nat.leb_spec a b).
  - constructor; [constructor; auto|]. constructor; [auto|]. eapply Forall_impl; [|exact F]. cbn. intros. lia.
  - constructor; [auto|]. rewrite Forall_forall in *. intros x X. apply (Permutation_in x (insert_perm a l)) in X. destruct X as [<-|X]; [lia|auto].
Qed.
Lemma sort_sorted l : StronglySorted Peano.le (sort l).
Proof. induction l; cbn; [constructor|now apply insert_sorted]. Qed.
Lemma sorted_strict l : StronglySorted Peano.le l -> NoDup l -> StronglySorted Peano.lt l.
Proof.
  induction 1 as [|a l S IH F]; intros N; [constructor|]. inversion N; subst. constructor; [auto|].
  rewrite Forall_forall in *. intros x X. specialize (F x X). assert (x <> a) by (intros ->; auto). lia.
Qed.
Lemma sort_strict l : NoDup l -> StronglySorted Peano.lt (sort l).
Proof. intros N. apply sorted_strict; [apply sort_sorted|]. now rewrite sort_perm. Qed.
Lemma strict_nodup l : StronglySorted Peano.lt l -> NoDup l.
Proof. induction 1 as [|a l S IH F]; constructor; [|auto]. intros X. rewrite Forall_forall in F. specialize (F a X). lia. Qed.
Lemma strict_unique l : forall l', StronglySorted Peano.lt l -> StronglySorted Peano.lt l' -> (forall x, In x l <-> In x l') -> l = l'.
Proof.
  induction l as [|a l IH]; intros [|b l'] S S' E; auto.
  - destruct (proj2 (E b)); left; auto.
  - destruct (proj1 (E a)); left; auto.
  - inversion S as [|? ? S1 F1]; inversion S' as [|? ? S2 F2]; subst. rewrite Forall_forall in *.
    assert (AB : a = b). { destruct (proj1 (E a) (or_introl eq_refl)) as [|X]; [auto|]. destruct (proj2 (E b) (or_introl eq_refl)) as [|Y]; [auto|]. specialize (F2 a X). specialize (F1 b Y). lia. }
    subst b. f_equal. apply IH; auto. intros x. split; intros X.
    + destruct (proj1 (E x) (or_intror X)) as [->|]; [|auto]. specialize (F1 x X). lia.
    + destruct (proj2 (E x) (or_intror X)) as [->|]; [|auto]. specialize (F2 x X). lia.
Qed.

Definition ple (x y : nat * nat) : Prop := fst x < fst y \/ (fst x = fst y /\ snd x <= snd y).
Lemma pair_le_spec x y : pair_le x y = true <-> ple x y.
Proof. unfold pair_le, ple. rewrite orb_true_iff, andb_true_iff, Nat.ltb_lt, Nat.eqb_eq, Nat.leb_le. tauto. Qed.
Lemma insert_pair_perm a l : Permutation (insert_pair a l) (a :: l).
Proof. induction l as [|b l IH]; cbn [insert_pair]; [auto|]. destruct (pair_le a b); [auto|]. rewrite IH. constructor. Qed.
Lemma sort_pairs_perm l : Permutation (sort_pairs l) l.
Proof. induction l as [|a l IH]; cbn; [auto|]. rewrite insert_pair_perm. now constructor. Qed.
Lemma insert_pair_sorted a l : StronglySorted ple l -> StronglySorted ple (insert_pair a l).
Proof.
  induction 1 as [|b l S IH F]; cbn [insert_pair]; [repeat constructor|]. destruct (pair_le a b) eqn:E.
  - apply pair_le_spec in E. constructor; [constructor; auto|]. constructor; [auto|]. eapply Forall_impl; [|exact F]. intros y. unfold ple in *. lia.
  - assert (ple b a). { destruct (pair_le a b) eqn:E'; [discriminate|]. assert (~ ple a b) by (intros X; apply pair_le_spec in X; congruence). unfold ple in *. lia. }
    constructor; [auto|]. rewrite Forall_forall in *. intros x X. apply (Permutation_in x (insert_pair_perm a l)) in X. destruct X as [<-|X]; auto.
Qed.
Lemma sort_pairs_sorted l : StronglySorted ple (sort_pairs l).
Proof. induction l; cbn; [constructor|now apply insert_pair_sorted]. Qed.
Lemma adjacent_pairs l : StronglySorted ple l -> (adjacent pair_eqb l = false <-> NoDup l).
Proof.
  induction 1 as [|a l S IH F]; [split; [constructor|auto]|]. destruct l as [|b l]; [split; [repeat constructor; auto|auto]|].
  cbn [adjacent]. rewrite orb_false_iff, IH. rewrite Forall_forall in F. split.
  - intros [E N]. constructor; [|auto]. intros X. inversion S as [|? ? S1 F1]; subst. rewrite Forall_forall in F1.
    assert (ple a b) by (apply F; left; auto). assert (b = a). { destruct X as [|X]; [auto|]. specialize (F1 a X). destruct a, b; unfold ple in *; cbn in *; f_equal; lia. }
    subst b. unfold pair_eqb in E. rewrite !Nat.eqb_refl in E. discriminate.
  - intros N. inversion N as [|? ? N1 N2]; subst. split; [|auto]. destruct (pair_eqb a b) eqn:E; [|auto]. exfalso. apply N1. left.
    unfold pair_eqb in E. rewrite andb_true_iff, !Nat.eqb_eq in E. destruct a, b; cbn in *; f_equal; lia.
Qed.
Lemma pairs_checked l : adjacent pair_eqb (sort_pairs l) = false <-> NoDup l.
Proof. rewrite (adjacent_pairs _ (sort_pairs_sorted l)). now rewrite sort_pairs_perm. Qed.
Lemma adjacent_nats l : StronglySorted Peano.le l -> (adjacent Nat.eqb l = false <-> NoDup l).
Proof.
  induction 1 as [|a l S IH F]; [split; [constructor|auto]|]. destruct l as [|b l]; [split; [repeat constructor; auto|auto]|].
  cbn [adjacent]. rewrite orb_false_iff, IH, Nat.eqb_neq. rewrite Forall_forall in F. split.
  - intros [E N]. constructor; [|auto]. intros X. inversion S as [|? ? S1 F1]; subst. rewrite Forall_forall in F1.
    assert (a <= b) by (apply F; left; auto). destruct X as [|X]; [lia|]. specialize (F1 a X). lia.
  - intros N. inversion N as [|? ? N1 N2]; subst. split; [|auto]. intros ->. apply N1. left; auto.
Qed.
Lemma blocks_checked l : adjacent Nat.eqb (sort l) = false <-> NoDup l.
Proof. rewrite (adjacent_nats _ (sort_sorted l)). now rewrite sort_perm. Qed.

(* ---- where the blocks begin ---- *)
Section Rows.
Variable p : CProblem.
Notation tan := (tangent_of p).
Lemma lookup_row l : NoDup l -> forall n i a, nth_error l i = Some a -> lookup (RowIndex p n l) a = Some (n + list_sum (map tan (firstn i l))).
Proof.
  induction l as [|b l IH]; intros N n i a E; [destruct i; discriminate|]. inversion N; subst. unfold lookup in *. cbn [RowIndex find fst].
  destruct i; cbn [nth_error firstn map list_sum fold_right] in *.
  - injection E as ->. rewrite Nat.eqb_refl. cbn. f_equal. lia.
  - assert (b <> a) by (intros ->; apply nth_error_In in E; auto). rewrite (proj2 (Nat.eqb_neq b a)) by auto.
    rewrite (IH H2 (n + tan b) i a E). change (fold_right Nat.add 0 (map tan (firstn i l))) with (list_sum (map tan (firstn i l))). f_equal. unfold list_sum in *. cbn [fold_right]. lia.
Qed.
Lemma lookup_out l : forall n a, ~ In a l -> lookup (RowIndex p n l) a = None.
Proof.
  induction l as [|b l IH]; intros n a N; [reflexivity|]. unfold lookup in *. cbn [RowIndex find fst].
  rewrite (proj2 (Nat.eqb_neq b a)) by (intros ->; apply N; left; auto). apply IH. intros X. apply N. right. auto.
Qed.
Lemma num_rows_sum l : num_rows_of p l = list_sum (map tan l).
Proof.
  unfold num_rows_of. assert (H : forall n, fold_left (fun n a => n + tan a) l n = n + list_sum (map tan l)).
  { induction l as [|a l IH]; intros n; cbn [fold_left map]; [unfold list_sum; cbn; lia|]. rewrite IH. change (list_sum (tan a :: map tan l)) with (tan a + list_sum (map tan l)). lia. }
  apply H.
Qed.

(* ---- the rows ---- *)
Lemma FillRows_spec n : forall begin cs rows cols, begin + n <= length rows ->
  let '(rows', cols') := FillRows begin cs n rows cols in
  cols' = cols ++ concat (repeat cs n) /\ length rows' = length rows /\
  (forall k, k < n -> nth (begin + k) rows' 0 = length cols + k * length cs) /\
  (forall k, k < begin \/ begin + n <= k -> nth k rows' 0 = nth k rows 0).
Proof.
  induction n as [|n IH]; intros begin cs rows cols L; cbn [FillRows repeat concat].
  - rewrite app_nil_r. repeat split; auto; intros; lia.
  - specialize (IH (S begin) cs (set_nth rows begin (length cols)) (cols ++ cs)). rewrite set_nth_length in IH.
    destruct (FillRows (S begin) cs n (set_nth rows begin (length cols)) (cols ++ cs)) as [rows' cols'].
    destruct IH as [A [B [C D]]]; [lia|]. rewrite A, <- app_assoc. repeat split; auto.
    + intros [|k] K.
      * rewrite Nat.add_0_r, D by lia. rewrite set_nth_same by lia. lia.
      * replace (begin + S k) with (S begin + k) by lia. rewrite C by lia. rewrite app_length. lia.
    + intros k K. rewrite D by lia. apply set_nth_other. lia.
Qed.

Definition sorted_first (L : list (nat * nat)) : Prop := StronglySorted (fun x y => fst x <= fst y) L.
Lemma sorted_pairs_first l : sorted_first (sort_pairs l).
Proof. generalize (sort_pairs_sorted l). unfold sorted_first. induction 1 as [|a L S IH F]; constructor; auto. eapply Forall_impl; [|exact F]. intros y. unfold ple. lia. Qed.
Lemma front_filter a L : sorted_first L -> (forall x, In x L -> a <= fst x) -> in_front a L = filter (fun x => fst x =? a) L.
Proof.
  induction 1 as [|x L S IH F]; intros G; cbn; [auto|]. destruct (Nat.eqb_spec (fst x) a).
  - f_equal. apply IH. intros; apply G; right; auto.
  - symmetry. rewrite Forall_forall in F. assert (forall y, In y L -> fst y <> a). { intros y Y. specialize (F y Y). specialize (G x (or_introl eq_refl)). lia. }
    clear - H. induction L as [|y L IH]; cbn; [auto|]. rewrite (proj2 (Nat.eqb_neq _ _)) by (apply H; left; auto). apply IH. intros; apply H; right; auto.
Qed.
Lemma front_rest a L : sorted_first L -> (forall x, In x L -> a <= fst x) -> skipn (length (in_front a L)) L = filter (fun x => negb (fst x =? a)) L.
Proof.
  induction 1 as [|x L S IH F]; intros G; cbn; [auto|]. destruct (Nat.eqb_spec (fst x) a); cbn.
  - apply IH. intros; apply G; right; auto.
  - f_equal. symmetry. rewrite Forall_forall in F. assert (forall y, In y L -> fst y <> a). { intros y Y. specialize (F y Y). specialize (G x (or_introl eq_refl)). lia. }
    clear - H. induction L as [|y L IH]; cbn; [auto|]. rewrite (proj2 (Nat.eqb_neq _ _)) by (apply H; left; auto). cbn. f_equal. apply IH. intros; apply H; right; auto.
Qed.
Lemma sorted_filter P L : sorted_first L -> sorted_first (filter P L).
Proof. induction 1 as [|x L S IH F]; cbn; [constructor|]. destruct (P x); [constructor; auto|auto]. rewrite Forall_forall in *. intros y Y. apply filter_In in Y. apply F. tauto. Qed.

Variable ri : list (nat * nat).
Definition of_row (L : list (nat * nat)) (a : nat) : list nat := columns_of p ri (filter (fun x => fst x =? a) L).
Definition rowlists (L : list (nat * nat)) (l : list nat) : list (list nat) := flat_map (fun a => repeat (of_row L a) (tan a)) l.
Lemma rowlists_length L l : length (rowlists L l) = list_sum (map tan l).
Proof. induction l as [|a l IH]; cbn; [auto|]. rewrite app_length, repeat_length. unfold rowlists in IH. now rewrite IH. Qed.
Lemma concat_repeat_length {A} (cs : list A) k : length (concat (repeat cs k)) = k * length cs.
Proof. induction k; cbn; [auto|]. rewrite app_length. lia. Qed.
Lemma firstn_repeat {A} (x : A) k : forall n, firstn k (repeat x n) = repeat x (Nat.min k n).
Proof. induction k; intros [|n]; cbn; auto. now rewrite IHk. Qed.
Lemma Fill_spec l : StronglySorted Peano.lt l -> forall n0 L rows cols, sorted_first L -> (forall x, In x L -> In (fst x) l) -> n0 + list_sum (map tan l) <= length rows ->
  let '(rows', cols') := Fill p ri (RowIndex p n0 l) L rows cols in
  cols' = cols ++ concat (rowlists L l) /\ length rows' = length rows /\
  (forall k, k < list_sum (map tan l) -> nth (n0 + k) rows' 0 = length cols + length (concat (firstn k (rowlists L l)))) /\
  (forall k, k < n0 \/ n0 + list_sum (map tan l) <= k -> nth k rows' 0 = nth k rows 0).
Proof.
  induction 1 as [|a l Sl IH F]; intros n0 L rows cols SL I B; cbn [RowIndex Fill].
  - cbn. rewrite app_nil_r. repeat split; auto. intros; lia.
  - rewrite Forall_forall in F. assert (G : forall x, In x L -> a <= fst x). { intros x X. destruct (I x X) as [<-|Y]; [auto|]. specialize (F _ Y). lia. }
    change (list_sum (map tan (a :: l))) with (tan a + list_sum (map tan l)) in *.
    rewrite (front_rest a L SL G), (front_filter a L SL G). fold (of_row L a).
    generalize (FillRows_spec (tan a) n0 (of_row L a) rows cols). destruct (FillRows n0 (of_row L a) (tan a) rows cols) as [rows1 cols1].
    intros H. destruct H as [A1 [A2 [A3 A4]]]; [lia|].
    specialize (IH (n0 + tan a) (filter (fun x => negb (fst x =? a)) L) rows1 cols1 (sorted_filter _ _ SL)).
    assert (E : rowlists (filter (fun x => negb (fst x =? a)) L) l = rowlists L l).
    { unfold rowlists. rewrite !flat_map_concat_map. f_equal. apply map_ext_in. intros b Hb. f_equal. unfold of_row. f_equal. specialize (F b Hb).
      clear - F. induction L as [|x L IH]; cbn; [auto|]. destruct (Nat.eqb_spec (fst x) a); cbn.
      - rewrite (proj2 (Nat.eqb_neq (fst x) b)) by lia. auto.
      - destruct (fst x =? b); [f_equal|]; auto. }
    rewrite E in IH. destruct (Fill p ri (RowIndex p (n0 + tan a) l) (filter (fun x => negb (fst x =? a)) L) rows1 cols1) as [rows2 cols2].
    destruct IH as [B1 [B2 [B3 B4]]]; [|lia|].
    { intros x X. apply filter_In in X. destruct X as [X Y]. destruct (I x X) as [Z|]; [|auto]. apply negb_true_iff, Nat.eqb_neq in Y. congruence. }
    assert (RC : rowlists L (a :: l) = repeat (of_row L a) (tan a) ++ rowlists L l) by reflexivity.
    rewrite RC. split; [rewrite B1, A1, concat_app, <- app_assoc; auto|]. split; [lia|]. split.
    + intros k K. rewrite firstn_app, repeat_length, firstn_repeat, concat_app, app_length, concat_repeat_length. destruct (Nat.lt_ge_cases k (tan a)) as [C|C].
      * rewrite B4 by lia. rewrite A3 by lia. rewrite Nat.min_l by lia. replace (k - tan a) with 0 by lia. cbn. lia.
      * replace (n0 + k) with (n0 + tan a + (k - tan a)) by lia. rewrite B3 by lia. rewrite A1, app_length, concat_repeat_length, Nat.min_r by lia. lia.
    + intros k K. rewrite B4 by lia. apply A4. lia.
Qed.

(* which list is which row *)
Lemma rowlists_nth L l i a k : nth_error l i = Some a -> k < tan a -> nth (list_sum (map tan (firstn i l)) + k) (rowlists L l) [] = of_row L a.
Proof.
  revert i. induction l as [|b l IH]; intros i E K; [destruct i; discriminate|].
  change (rowlists L (b :: l)) with (repeat (of_row L b) (tan b) ++ rowlists L l). destruct i; cbn [nth_error firstn map] in *.
  - injection E as ->. cbn. rewrite app_nth1 by (rewrite repeat_length; lia). rewrite (nth_indep _ [] (of_row L a)) by (rewrite repeat_length; lia). apply nth_repeat.
  - change (list_sum (tan b :: map tan (firstn i l))) with (tan b + list_sum (map tan (firstn i l))).
    rewrite app_nth2; rewrite repeat_length; [|lia]. replace (tan b + list_sum (map tan (firstn i l)) + k - tan b) with (list_sum (map tan (firstn i l)) + k) by lia. auto.
Qed.
(* the number of entries *)
Lemma sum_sizes_group (L : list (nat * nat)) (l : list nat) (w : nat * nat -> nat) : NoDup l -> (forall x, In x L -> In (fst x) l) ->
  list_sum (map (fun a => list_sum (map w (filter (fun x => fst x =? a) L))) l) = list_sum (map w L).
Proof.
  intros N. induction L as [|x L IH]; intros I; cbn [filter map list_sum fold_right].
  - clear. induction l as [|a l IHl]; cbn; auto.
  - change (fold_right Nat.add 0 (map w L)) with (list_sum (map w L)). rewrite <- IH by (intros y Y; apply I; right; auto). specialize (I x (or_introl eq_refl)). clear IH.
    induction l as [|a l IHl]; [destruct I|]. inversion N; subst. cbn [map list_sum fold_right]. destruct (Nat.eqb_spec (fst x) a) as [E|E].
    + cbn [map list_sum fold_right]. subst a. assert (Q : map (fun a => list_sum (map w (if fst x =? a then x :: filter (fun y => fst y =? a) L else filter (fun y => fst y =? a) L))) l = map (fun a => list_sum (map w (filter (fun y => fst y =? a) L))) l).
      { apply map_ext_in. intros b Hb. rewrite (proj2 (Nat.eqb_neq _ _)) by (intros Z; rewrite Z in *; auto). auto. }
      unfold list_sum in *. rewrite Q. lia.
    + destruct I as [I|I]; [congruence|]. specialize (IHl H2 I). unfold list_sum in *. lia.
Qed.
Lemma columns_length L : length (columns_of p ri L) = list_sum (map (fun x => tan (snd x)) L).
Proof. unfold columns_of. induction L as [|x L IH]; cbn; [auto|]. rewrite app_length, seq_length. now rewrite IH. Qed.
Lemma rowlists_total L l : NoDup l -> (forall x, In x L -> In (fst x) l) -> length (concat (rowlists L l)) = list_sum (map (fun x => tan (fst x) * tan (snd x)) L).
Proof.
  intros N I. rewrite <- (sum_sizes_group L l _ N I). clear N I. induction l as [|a l IH]; [reflexivity|].
  change (rowlists L (a :: l)) with (repeat (of_row L a) (tan a) ++ rowlists L l). rewrite concat_app, app_length, concat_repeat_length, IH. cbn [map list_sum fold_right]. unfold list_sum at 3. cbn [fold_right]. fold (list_sum (map (fun a0 => list_sum (map (fun x => tan (fst x) * tan (snd x)) (filter (fun x => fst x =? a0) L))) l)). f_equal.
  unfold of_row. rewrite columns_length. clear. induction L as [|x L IH]; [cbn; lia|]. cbn [filter]. destruct (Nat.eqb_spec (fst x) a) as [E|E]; [|auto]. cbn [map].
  assert (LS : forall n t, list_sum (n :: t) = n + list_sum t) by reflexivity. rewrite !LS, Nat.mul_add_distr_l, IH, E. auto.
Qed.
End Rows.
