(* C65: putting Compute together *)
From Coq Require Import Reals ZArith List Arith Bool Lia Lra Permutation Sorted.
From Verif Require Import SchurModel SchurProofs CGModel CGSpec PartitionModel SparseModel SparseSpec SparseProofs CovarianceModel ImplicitSchurSpec CovarianceSpec CovarianceProofs CovarianceProofs2 CovarianceProofs3 CovarianceProofs4 CovarianceProofs5 CovarianceProofs6 CovarianceProofs7.
From Verif Require SparseProofs2 SparseProofs4.
Import ListNotations.
Open Scope R_scope.

Lemma inverse_unique n H C D : inverse_of n H C -> inverse_of n H D -> forall i j, (i < n)%nat -> (j < n)%nat -> C i j = D i j.
Proof.
  intros A B i j I J. transitivity (sumn n (fun k => C i k * sumn n (fun l => H k l * D l j))).
  - rewrite (sumn_single n _ j J); [rewrite (proj1 (B j j J J)), Nat.eqb_refl; ring|]. intros k K N. rewrite (proj1 (B k j K J)), (proj2 (Nat.eqb_neq k j)) by auto. ring.
  - transitivity (sumn n (fun l => sumn n (fun k => C i k * H k l) * D l j)).
    + rewrite (sumn_ext n _ (fun k => sumn n (fun l => C i k * H k l * D l j))) by (intros k _; rewrite <- sumn_scal; apply sumn_ext; intros; ring). rewrite sumn_swap. apply sumn_ext. intros l _. now rewrite sumn_scal_r.
    + rewrite (sumn_single n _ i I); [rewrite (proj2 (A i i I I)), Nat.eqb_refl; ring|]. intros k K N. rewrite (proj2 (A i k I K)), (proj2 (Nat.eqb_neq i k)) by auto. ring.
Qed.
Lemma column_bound l i b : nth_error l i = Some b -> (first_column l i + p_tangent b <= columns l)%nat.
Proof. unfold columns. revert i. induction l as [|c l IH]; intros [|i] H; try discriminate; cbn in *; [injection H as ->; lia|]. specialize (IH i H). lia. Qed.
Lemma answers_ext p l pairs C D s : (forall i j, (i < columns l)%nat -> (j < columns l)%nat -> C i j = D i j) -> answers p l pairs C s -> answers p l pairs D s.
Proof.
  intros E A i j b c Hb Hc R. generalize (column_bound l i b Hb) (column_bound l j c Hc). intros Bb Bc. destruct (A i j b c Hb Hc R) as [[M [G H]] [M' [G' H']]]. split.
  - exists M. split; [auto|]. intros x y X Y. rewrite H by auto. apply E; lia.
  - exists M'. split; [auto|]. intros x y X Y. rewrite H' by auto. apply sumn_ext. intros u U. apply sumn_ext. intros v V. rewrite E by lia. auto.
Qed.
Lemma columns_num p l : proper p -> listing p l -> columns l = num_rows_of p (active_blocks p).
Proof.
  intros P LI. unfold columns. rewrite (first_column_sum p l P) by (intros b B; apply LI in B; apply B). rewrite (listing_active p l P LI).
  rewrite <- (map_length pointer l), (listing_active p l P LI), firstn_all, num_rows_sum. auto.
Qed.
Lemma sparsity_sizes p pairs ri cs m : Sparsity p pairs = Some (ri, cs, Some m) -> m_num_rows m = num_rows_of p (active_blocks p) /\ m_num_cols m = num_rows_of p (active_blocks p).
Proof. unfold Sparsity. destruct (CovarianceBlocks _ _ _ pairs) as [[[|x bs] nnz]|]; try discriminate. destruct (Fill _ _ _ _ _ _). intros E. injection E as <- <- <-. auto. Qed.

Section Done.
Variables (p : CProblem) (l : list PBlock) (pairs : list (nat * nat)).
Hypothesis P : proper p.
Hypothesis LI : listing p l.
Notation act := (active_blocks p).
Notation N := (num_rows_of p act).
Notation ri := (RowIndex p 0 act).
Lemma state_none ri' cs : Sparsity p pairs = Some (ri', cs, None) -> let s := mkCovariance true true ri' cs None in
  (forall a b, varying_at p a -> varying_at p b -> ~ requested pairs a b) /\ zero_answers p s /\ (forall C, answers p l pairs C s) /\
  forall a b lift, varying_at p a -> varying_at p b -> GetBlock p s a b lift = Undefined.
Proof.
  intros E. cbn zeta. destruct (Sparsity_spec p pairs P _ _ _ E) as [-> [-> H]]. split; [intros a b A B; apply H; now apply active_in|]. split; [now apply zero_after|]. split.
  - intros C i j b c Hb Hc R. exfalso. apply (H (pointer b) (pointer c)); auto; rewrite <- (listing_active p l P LI); apply in_map; eapply nth_error_In; eauto.
  - intros a b lift A B. apply active_in in A. apply active_in in B. destruct (In_nth_error _ _ A) as [i Hi]. destruct (In_nth_error _ _ B) as [j Hj].
    unfold GetBlock. cbn [is_computed is_valid constants row_index covariance_matrix negb]. rewrite (not_constant p P i _ Hi), (not_constant p P j _ Hj). cbn [orb].
    destruct (b <? a)%nat; rewrite (proj1 (index_start p P i _ Hi)), (proj1 (index_start p P j _ Hj)); auto.
Qed.
Lemma state_some ri' cs m f order : Sparsity p pairs = Some (ri', cs, Some m) -> (forall r c, (r < N)%nat -> (c < N)%nat -> f r c = f c r) ->
  (forall r, In r order -> (r < N)%nat) -> (forall r, (r < N)%nat -> row_at m (S r) <> row_at m r -> In r order) ->
  let s := mkCovariance true true ri' cs (Some (Assign m f order)) in zero_answers p s /\ answers p l pairs f s /\ misses p pairs s.
Proof.
  intros E SY F1 F2. cbn zeta. destruct (Sparsity_spec p pairs P _ _ _ E) as [-> [-> [L [SL [L1 [L2 PT]]]]]]. split; [now apply zero_after|]. split; [exact (answers_after p pairs L m P L1 L2 PT f order F1 F2 SY l LI)|].
  intros a b lift A B R. apply active_in in A. apply active_in in B. destruct (In_nth_error _ _ A) as [i Hi]. destruct (In_nth_error _ _ B) as [j Hj].
  assert (R' : ~ requested pairs b a) by (intros [X|X]; apply R; [right|left]; auto).
  assert (KEY : exists k a0 c0, nth_error act k = Some a0 /\ a0 = Nat.min a b /\ GetBlock p (after p m f order) a b lift = match nth_error (m_cols m) (row_at m (start (tangent_of p) act k) + length (of_row p ri L a0)) with None => Undefined | Some _ => Done c0 end /\ c0 = None).
  { destruct (Nat.le_ge_cases a b) as [O|O].
    - exists i, a, None. split; [auto|]. split; [lia|]. split; [|auto]. apply (get_absent p pairs L m P L1 PT f order i j a b lift Hi Hj O R).
    - exists j, b, None. split; [auto|]. split; [lia|]. split; [|auto]. apply (get_absent p pairs L m P L1 PT f order j i b a lift Hj Hi O R'). }
  destruct KEY as [k [a0 [c0 [Hk [EM [EG EC]]]]]]. unfold after in EG. rewrite EG, EC. split.
  - destruct (nth_error (m_cols m) _); auto.
  - intros c d VC VD RC LT. apply active_in in VC. apply active_in in VD.
    assert (B1 : nth_error (m_cols m) (row_at m (start (tangent_of p) act k) + length (of_row p ri L a0)) <> None).
    { destruct (Nat.le_ge_cases c d) as [O|O].
      - apply (entry_behind p pairs L m P L1 L2 PT f order F1 F2 k a0 c d Hk VC VD); [lia|lia|auto].
      - apply (entry_behind p pairs L m P L1 L2 PT f order F1 F2 k a0 d c Hk VD VC); [lia|lia|]. destruct RC; [right|left]; auto. }
    destruct (nth_error (m_cols m) _); [auto|congruence].
Qed.
End Done.
