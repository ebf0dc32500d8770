(* C66: what does not depend on the schedule; repeated arguments *)
From Coq Require Import Reals ZArith List Arith Bool Lia Permutation Sorted.
From Verif Require Import SchurModel SchurProofs SparseModel SparseSpec SparseProofs SparseProofs2 SparseProofs3 BlockSparseModel BlockSparseSpec JacobianModel JacobianSpec JacobianProofs JacobianProofs2 JacobianProofs3 JacobianProofs4 JacobianProofs5 JacobianProofs6.
Import ListNotations.
Open Scope R_scope.

Lemma set_all_same {A} (l l' : list (nat * A)) v : functional l -> functional l' -> (forall s, In s l <-> In s l') -> set_all l v = set_all l' v.
Proof.
  intros F F' H. destruct v as [|d v0] eqn:V.
  { assert (forall l : list (nat * A), set_all l [] = []) as Z by (intros l0; apply length_zero_iff_nil; rewrite set_all_length; auto). now rewrite !Z. }
  rewrite <- V. apply (nth_ext_len d); [now rewrite !set_all_length|]. intros i I. rewrite set_all_length in I. destruct (in_dec Nat.eq_dec i (map fst l)) as [X|X].
  - apply in_map_iff in X. destruct X as [[i' x] [E X]]. cbn in E. subst i'. rewrite (set_all_in l i x d F X v I). symmetry. apply set_all_in; auto. now apply H.
  - rewrite set_all_other by (intros x Y; apply X; apply in_map_iff; exists (i, x); auto). symmetry. apply set_all_other. intros x Y. apply X. apply in_map_iff. exists (i, x). split; [auto|now apply H].
Qed.
Lemma compressed_unique p m jac junk junk' m' m'' : shaped p m -> EvaluateCompressed p m jac junk m' -> EvaluateCompressed p m jac junk' m'' -> m' = m''.
Proof.
  intros S [l [I ->]] [l' [I' ->]]. f_equal. assert (P := interleaving_perm _ _ I). assert (P' := interleaving_perm _ _ I').
  destruct (tasks_separate p m jac junk S) as [N _]. destruct (tasks_separate p m jac junk' S) as [N' _]. apply set_all_same.
  - eapply functional_perm; [apply Permutation_sym; exact P|]. now apply functional_nodup.
  - eapply functional_perm; [apply Permutation_sym; exact P'|]. now apply functional_nodup.
  - intros [i x]. split; intros H.
    + apply (Permutation_in _ P) in H. apply (Permutation_in _ (Permutation_sym P')). apply (tasks_in p m jac junk i x S) in H. now apply (tasks_in p m jac junk' i x S).
    + apply (Permutation_in _ P') in H. apply (Permutation_in _ (Permutation_sym P)). apply (tasks_in p m jac junk' i x S) in H. now apply (tasks_in p m jac junk i x S).
Qed.
Lemma dynamic_unique p m jac junk junk' o o' : well_formed p -> dshaped p m -> EvaluateDynamic p m jac junk o -> EvaluateDynamic p m jac junk' o' -> o = o'.
Proof.
  intros W S [l [I ->]] [l' [I' ->]].
  destruct (dynamic_all p jac junk l (d_crs m) (d_rows m) W I (ds_nr p m S) (ds_nc p m S) (ds_len p m S)) as [d [E [L R]]].
  destruct (dynamic_all p jac junk' l' (d_crs m) (d_rows m) W I' (ds_nr p m S) (ds_nc p m S) (ds_len p m S)) as [d' [E' [L' R']]].
  rewrite E, E'. cbn [option_map]. f_equal. f_equal. apply (nth_ext_len []); [lia|]. intros r Hr. rewrite L in Hr. destruct (row_split (p_blocks p) r Hr) as [i [b [k [B [K ->]]]]]. change (rb (p_blocks p) i) with (rows_before p i). now rewrite (R i b k B K), (R' i b k B K).
Qed.
Lemma jacobian_unique p jac M M' : is_jacobian p jac M -> is_jacobian p jac M' -> forall r c, (r < num_rows_of p)%nat -> M r c = M' r c.
Proof.
  intros H H' r c R. destruct (row_split (p_blocks p) r R) as [i [b [k [B [K ->]]]]]. change (rb (p_blocks p) i) with (rows_before p i).
  destruct (H i b k B K) as [A1 A2], (H' i b k B K) as [A1' A2'].
  destruct (Exists_dec (fun v => (column p v <= c < column p v + tangent p v)%nat) (indices (r_args b))) as [E|E].
  - intros v. destruct (le_dec (column p v) c), (lt_dec c (column p v + tangent p v)); try (left; lia); right; lia.
  - apply Exists_exists in E. destruct E as [v [V C]]. apply indices_in in V. destruct V as [j J]. replace c with (column p v + (c - column p v))%nat by lia. rewrite (A1 j v _ J), (A1' j v _ J) by lia. auto.
  - rewrite A2, A2'; auto; intros v V C; apply E; apply Exists_exists; eauto.
Qed.

(* ---------------------------------------------------------- repeated arguments *)
Lemma insert_key_le a l : StronglySorted Peano.le (map fst l) -> StronglySorted Peano.le (map fst (insert_key a l)).
Proof.
  intros H. induction l as [|b l IH]; cbn [insert_key]; [repeat constructor|]. cbn [map] in *. inversion H as [|? ? H1 H2]; subst. destruct (Nat.leb_spec (fst a) (fst b)) as [L|L]; cbn [map].
  - constructor; [auto|]. constructor; [auto|]. rewrite Forall_forall in *. intros x X. specialize (H2 x X). lia.
  - constructor; [now apply IH|]. rewrite Forall_forall in *. intros x X. apply (Permutation_in _ (Permutation_map fst (insert_key_perm a l))) in X. destruct X as [<-|X]; [lia|auto].
Qed.
Lemma sort_keys_le l : StronglySorted Peano.le (map fst (sort_keys l)).
Proof. induction l as [|a l IH]; cbn [sort_keys fold_right map]; [constructor|]. now apply insert_key_le. Qed.
Lemma adjacent_nodup l : StronglySorted Peano.le (map fst l) -> adjacent_keys l = false -> NoDup (map fst l).
Proof.
  intros S H. apply sorted_nodup. induction l as [|a l IH]; [constructor|]. cbn [map] in *. inversion S as [|? ? S1 S2]; subst. destruct l as [|b l]; [repeat constructor|]. change (adjacent_keys (a :: b :: l)) with ((fst a =? fst b)%nat || adjacent_keys (b :: l)) in H. apply orb_false_iff in H. destruct H as [H1 H2]. specialize (IH S1 H2). constructor; [exact IH|].
  apply Nat.eqb_neq in H1. rewrite Forall_forall in S2. assert (fst a < fst b)%nat by (specialize (S2 (fst b) (or_introl eq_refl)); lia). cbn [map] in *. inversion IH as [|? ? I1 I2]; subst. constructor; [auto|]. rewrite Forall_forall in *. intros x X. specialize (I2 x X). lia.
Qed.
Lemma structure_fatal p bs b : In b bs -> ~ NoDup (indices (r_args b)) -> forall row_pos rows cols, Structure_ p bs row_pos rows cols = None.
Proof.
  intros I N. induction bs as [|a bs IH]; intros row_pos rows cols; [destruct I|]. cbn [Structure_]. destruct (adjacent_keys (Ordered a)) eqn:E; [auto|]. destruct I as [->|I]; [|now apply IH].
  exfalso. apply N. eapply Permutation_NoDup; [exact (ordered_keys b)|]. apply adjacent_nodup; [apply sort_keys_le|exact E].
Qed.
Lemma create_fatal p b m : In b (p_blocks p) -> ~ NoDup (indices (r_args b)) -> CreateCompressed p <> Made m.
Proof. intros I N. unfold CreateCompressed. destruct (CountNonzeros _ _ _); try discriminate. rewrite (structure_fatal p _ b I N). discriminate. Qed.
