(* C81: the block structure of the Jacobian of a prepared program *)
From Coq Require Import ZArith List Arith Bool Lia Permutation Sorting.Sorted.
From Verif Require Import ReorderModel ReorderProofs SchurModel SchurSpec SparseModel BlockSparseModel BlockSparseSpec JacobianModel JacobianSpec JacobianProofs JacobianProofs5 JacobianProofs6 PrepModel PrepSpec PrepProofs.
Import ListNotations.
Close Scope Z_scope. Close Scope R_scope. Open Scope nat_scope.

Definition conv (F : Facts) (idx : Z -> Z) (r : Res) : RBlock :=
  mkRBlock (res_num r) (map (fun a => if constant F a then Constant (size_of F a) else Varying (Z.to_nat (idx a))) (res_args r)).
Lemma conv_indices F idx l v : In v (indices (map (fun a => if constant F a then Constant (size_of F a) else Varying (Z.to_nat (idx a))) l)) <-> exists a, (In a l /\ constant F a = false) /\ Z.to_nat (idx a) = v.
Proof.
  induction l as [|a l IH]; cbn [map indices]; [split; [intros []|intros [? [[[] _] _]]]|]. destruct (constant F a) eqn:C; cbn [indices].
  - rewrite IH. split; intros [b [[I C'] E]]; exists b.
    + repeat split; auto; now right.
    + destruct I as [->|I]; [congruence|auto].
  - cbn [In]. rewrite IH. split.
    + intros [H|[b [[I C'] E]]]; [exists a|exists b]; repeat split; auto.
    + intros [b [[[<-|I] C'] E]]; [now left|right; eauto].
Qed.
Lemma conv_nodup F idx l : NoDup l -> (forall a b, In a l -> In b l -> constant F a = false -> constant F b = false -> Z.to_nat (idx a) = Z.to_nat (idx b) -> a = b) ->
  NoDup (indices (map (fun a => if constant F a then Constant (size_of F a) else Varying (Z.to_nat (idx a))) l)).
Proof.
  induction l as [|a l IH]; intros N D; cbn [map indices]; [constructor|]. inversion N; subst. assert (G := IH H2 (fun x y X Y => D x y (or_intror X) (or_intror Y))).
  destruct (constant F a) eqn:C; cbn [indices]; [auto|]. constructor; [|auto]. rewrite conv_indices. intros [b [[I C'] E]]. apply H1. rewrite (D a b); auto; [now left|now right].
Qed.

Section Structure.
Context (F : Facts) (p : Prg) (k : nat) (R : reduced F p) (K : 1 <= k <= length (blocks p)) (IND : no_two F p k)
  (SO : StronglySorted (fun r s => key F (index p) k r <= key F (index p) k s) (residuals p)).
Let idx := index p.
Let J := to_jacobian F p.
Lemma position_of r b : In r (residuals p) -> uses F r b -> exists i, nth_error (blocks p) i = Some b /\ i < length (blocks p) /\ idx b = Z.of_nat i.
Proof. intros H U. apply place_of; [apply R|]. apply (rd_blocks F p R). eauto. Qed.
Lemma used_indices r v : In r (residuals p) -> (In v (indices (r_args (conv F idx r))) <-> exists a, uses F r a /\ idx a = Z.of_nat v).
Proof.
  intros H. unfold conv. cbn [r_args]. rewrite conv_indices. split; intros [a [U E]]; exists a; (split; [exact U|]); destruct (position_of r a H U) as [i [_ [_ Q]]]; lia.
Qed.
Lemma jacobian_ok : JacobianSpec.well_formed J.
Proof.
  intros b B. unfold J, to_jacobian in B. cbn [p_blocks] in B. apply in_map_iff in B. destruct B as [r [<- H]]. fold (conv F idx r). split.
  - apply conv_nodup; [now apply (rd_args F p R)|]. intros a b Ia Ib Ca Cb E. destruct (position_of r a H (conj Ia Ca)) as [i [Ni [_ Qi]]]. destruct (position_of r b H (conj Ib Cb)) as [j [Nj [_ Qj]]]. unfold idx in Qi, Qj; assert (i = j) by lia. subst. congruence.
  - intros v V. apply (used_indices r v H) in V. destruct V as [a [U E]]. destruct (position_of r a H U) as [i [_ [L Q]]]. unfold J, to_jacobian. cbn [p_tangents]. rewrite map_length. lia.
Qed.

(* the row of a residual block *)
Definition row_of (row : Row) (r : Res) : Prop := exists l, cells row = map (of_pair l) (pairs (conv F idx r)).
Lemma row_ids row r : In r (residuals p) -> row_of row r -> StronglySorted lt (map block_id (cells row)) /\ cells row <> [] /\
  forall v, In v (map block_id (cells row)) <-> exists a, uses F r a /\ idx a = Z.of_nat v.
Proof.
  intros H [l E]. rewrite E, map_map. change (fun x => block_id (of_pair l x)) with (fun x : nat * nat => fst x).
  assert (W := jacobian_ok (conv F idx r)). destruct W as [N _]; [unfold J, to_jacobian; cbn [p_blocks]; apply in_map_iff; exists r; auto|].
  assert (V : forall v, In v (map fst (pairs (conv F idx r))) <-> exists a, uses F r a /\ idx a = Z.of_nat v).
  { intros v. rewrite <- (used_indices r v H). split; apply Permutation_in; [|apply Permutation_sym]; apply pairs_keys. }
  split; [unfold pairs; apply sort_keys_sorted; now rewrite numbered_fst, active_keys|]. split; [|exact V].
  destruct (rd_uses F p R r H) as [a U]. destruct (position_of r a H U) as [i [_ [_ Q]]]. assert (I : In i (map fst (pairs (conv F idx r)))) by (apply V; eauto). intros Z. apply map_eq_nil in Z. rewrite Z in I. destruct I.
Qed.
Definition row_key (row : Row) : nat := match cells row with [] => k | c :: _ => Nat.min (block_id c) k end.
Lemma row_key_ok row r : In r (residuals p) -> row_of row r -> row_key row = key F idx k r.
Proof.
  intros H Q. destruct (row_ids row r H Q) as [S [N V]]. unfold row_key. destruct (cells row) as [|c cs]; [congruence|]. cbn [map] in S, V.
  assert (X : indexed (mkR 0 (params F idx r))).
  { intros i I. cbn [r_params] in I. apply in_params in I. destruct I as [a [U <-]]. destruct (position_of r a H U) as [j [_ [_ ->]]]. lia. }
  destruct (bucket_ok k _ X) as [_ [B [M W]]]. change (bucket k (mkR 0 (params F idx r))) with (key F idx k r) in B, M, W. cbn [r_params] in *.
  destruct (proj1 (V (block_id c)) (or_introl eq_refl)) as [a [U E]]. assert (M1 : (Z.of_nat (key F idx k r) <= Z.of_nat (block_id c))%Z) by (apply M; apply in_params; eauto).
  destruct W as [W|W]; [lia|]. apply in_params in W. assert (I := proj2 (V (key F idx k r)) W). inversion S as [|? ? _ FA]; subst. rewrite Forall_forall in FA. destruct I as [I|I]; [lia|]. specialize (FA _ I). lia.
Qed.
Lemma rows_of lay : forall rs pos, (forall r, In r rs -> In r (residuals p)) -> Forall2 (fun b l => length l = length (active 0 (r_args b))) (map (conv F idx) rs) lay ->
  Forall2 row_of (CellRows (map (conv F idx) rs) lay pos) rs.
Proof.
  induction lay as [|l lay IH]; intros [|r rs] pos I FT; inversion FT; subst; cbn [map CellRows]; [constructor|]. constructor.
  - exists l. cbn [cells]. apply cells_eq. assert (W := jacobian_ok (conv F idx r)). apply W. unfold J, to_jacobian. cbn [p_blocks]. apply in_map_iff. exists r. split; [auto|]. apply I. now left.
  - apply IH; [|auto]. intros x X. apply I. now right.
Qed.
Lemma rows_sorted rows rs : Forall2 row_of rows rs -> (forall r, In r rs -> In r (residuals p)) -> StronglySorted (fun r s => key F idx k r <= key F idx k s) rs ->
  StronglySorted (fun a b => row_key a <= row_key b) rows.
Proof.
  induction 1 as [|row r rows rs Q FA IH]; intros I S; [constructor|]. inversion S as [|? ? S' H]; subst. rewrite Forall_forall in H.
  constructor; [apply IH; [intros; apply I; now right|auto]|]. apply Forall_forall. intros row' X.
  assert (E : exists r', In r' rs /\ row_of row' r'). { clear - FA X. induction FA as [|a b l l' Q FA IH]; [destruct X|]; destruct X as [<-|X]; [exists b; split; [now left|auto]|]. destruct (IH X) as [r' [A B]]. exists r'. split; [now right|auto]. }
  destruct E as [r' [I' Q']]. rewrite (row_key_ok row r) by (auto; apply I; now left). rewrite (row_key_ok row' r') by (auto; apply I; now right). auto.
Qed.
Lemma row_exists rows rs : Forall2 row_of rows rs -> (forall r, In r rs -> exists row, In row rows /\ row_of row r) /\ (forall row, In row rows -> exists r, In r rs /\ row_of row r).
Proof.
  induction 1 as [|row r rows rs Q FA [A B]]; [split; intros ? []|]. split; intros ? [H|H].
  - subst. exists row. split; [now left|auto].
  - destruct (A _ H) as [x [X Y]]. exists x. split; [now right|auto].
  - subst. exists r. split; [now left|auto].
  - destruct (B _ H) as [x [X Y]]. exists x. split; [now right|auto].
Qed.

Theorem structure_ok layout : fits J layout -> SchurSpec.well_formed k (JacobianStructure J layout).
Proof.
  intros FT. set (bs := JacobianStructure J layout). destruct (structure_valid J layout jacobian_ok FT) as [VAL [_ [_ INC]]]. fold bs in VAL, INC.
  assert (NC : num_cols bs = length (blocks p)). { unfold num_cols, bs. rewrite (cols_count J layout). unfold J, to_jacobian. cbn [p_tangents]. now rewrite map_length. }
  assert (RO : Forall2 row_of (rows bs) (residuals p)). { unfold bs, JacobianStructure. cbn [rows]. apply (rows_of layout (residuals p) 0); [auto|exact FT]. }
  destruct (row_exists _ _ RO) as [RA RB]. pose proof (rows_sorted _ _ RO (fun r H => H) SO) as RS.
  assert (LEN : forall row c, In row (rows bs) -> In c (cells row) -> block_id c < num_cols bs).
  { intros row c H C. destruct (RB row H) as [r [Hr Q]]. destruct (row_ids row r Hr Q) as [_ [_ V]]. destruct (proj1 (V (block_id c)) (in_map _ _ _ C)) as [a [U E]]. destruct (position_of r a Hr U) as [i [_ [L E']]]. rewrite NC. lia. }
  assert (KEYS : forall row, In row (rows bs) -> row_key row <= k). { intros row _. unfold row_key. destruct (cells row); lia. }
  constructor.
  - rewrite NC. lia.
  - apply VAL.
  - apply VAL.
  - intros row H. split; [now apply INC|]. intros c C. eapply LEN; eauto.
  - exists (map (fun e => (e, filter (fun row => row_key row =? e) (rows bs))) (seq 0 k)), (filter (fun row => row_key row =? k) (rows bs)).
    split; [|split; [|split; [|split]]].
    + rewrite map_map. cbn [snd]. rewrite <- flat_map_concat_map. rewrite (sorted_buckets row_key (k + 1) 0 (rows bs) RS) at 1 by (intros row H; specialize (KEYS row H); lia).
      rewrite seq_app, flat_map_app. f_equal. cbn [seq flat_map plus]. now rewrite app_nil_r.
    + rewrite map_map. cbn [fst]. rewrite map_id. apply seq_NoDup.
    + destruct k; [lia|]. cbn [seq map]. discriminate.
    + intros e rs H. apply in_map_iff in H. destruct H as [e' [E H]]. injection E as -> <-. apply in_seq in H. split; [lia|]. split.
      * destruct (nth_error (blocks p) e) as [a|] eqn:Ea; [|apply nth_error_None in Ea; lia]. assert (Ia : In a (blocks p)) by (eapply nth_error_In; eauto). apply (rd_blocks F p R) in Ia. destruct Ia as [r [Hr U]].
        destruct (RA r Hr) as [row [Hrow Q]]. assert (RK : row_key row = e).
        { destruct (row_ids row r Hr Q) as [S [N V]]. unfold row_key. destruct (cells row) as [|c cs] eqn:Ec; [congruence|]. cbn [map] in S, V.
          assert (I := proj2 (V e) (ex_intro _ a (conj U (rd_index F p R _ _ Ea)))). inversion S as [|? ? _ FA]; subst. rewrite Forall_forall in FA.
          destruct (proj1 (V (block_id c)) (or_introl eq_refl)) as [a' [U' E']]. destruct I as [I|I]; [lia|]. specialize (FA e I).
          assert (a' = a). { apply (IND r); auto; fold idx; [lia|]. unfold idx. rewrite (rd_index F p R _ _ Ea). lia. } subst. unfold idx in E'. rewrite (rd_index F p R _ _ Ea) in E'. lia. }
        intros Q0. assert (X : In row []) by (rewrite <- Q0; apply filter_In; split; [auto|now apply Nat.eqb_eq]). destruct X.
      * intros row X. apply filter_In in X. destruct X as [Hrow RK]. apply Nat.eqb_eq in RK. destruct (RB row Hrow) as [r [Hr Q]]. destruct (row_ids row r Hr Q) as [S [N V]]. unfold row_key in RK. destruct (cells row) as [|c cs] eqn:Ec; [congruence|]. cbn [map] in S, V.
        exists c, cs. split; [auto|]. split; [lia|]. intros c' C'. destruct (le_lt_dec k (block_id c')) as [L|L]; [auto|exfalso]. inversion S as [|? ? _ FA]; subst. rewrite Forall_forall in FA. assert (LT := FA _ (in_map block_id _ _ C')).
        destruct (proj1 (V (block_id c)) (or_introl eq_refl)) as [a [U E]]. destruct (proj1 (V (block_id c')) (or_intror (in_map block_id _ _ C'))) as [a' [U' E']].
        assert (a = a') by (apply (IND r); auto; fold idx; lia). subst. lia.
    + intros row X. apply filter_In in X. destruct X as [Hrow RK]. apply Nat.eqb_eq in RK. destruct (RB row Hrow) as [r [Hr Q]]. destruct (row_ids row r Hr Q) as [S [N V]]. split; [auto|]. unfold row_key in RK. destruct (cells row) as [|c cs] eqn:Ec; [congruence|]. cbn [map] in S. inversion S as [|? ? _ FA]; subst. rewrite Forall_forall in FA.
      intros c' [<-|C']; [lia|]. specialize (FA _ (in_map block_id _ _ C')). lia.
Qed.
End Structure.
