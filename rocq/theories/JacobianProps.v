(* C66: theorems about the Jacobian writers *)
From Coq Require Import Reals ZArith List Arith Bool Lia Lra Permutation Sorted.
From Verif Require Import SchurModel SchurProofs SchurProofs6 SparseModel SparseSpec BlockSparseModel BlockSparseSpec BlockSparseProofs4 JacobianModel JacobianSpec JacobianProofs JacobianProofs2 JacobianProofs3 JacobianProofs4 JacobianProofs5 JacobianProofs6 JacobianProofs7.
Import ListNotations.
Open Scope R_scope.

(* a residual block with arguments in decreasing order and a constant one in between; parameter
   block 1 occurs twice, parameter block 2 nowhere *)
Definition ex_p : Program := mkProgram [2; 1; 3]%nat [mkRBlock 2 [Varying 1; Constant 4; Varying 0]; mkRBlock 1 [Varying 1]].
Lemma ex_wf : well_formed ex_p.
Proof. intros b [<-|[<-|[]]]; cbn; (split; [repeat constructor; cbn; intuition lia|cbn; intuition lia]). Qed.
Lemma ex_small : small_blocks ex_p.
Proof. intros b v [<-|[<-|[]]] V; cbn in V; destruct V as [<-|V]; try destruct V as [<-|[]]; try destruct V; cbn; unfold INT_MAX; lia. Qed.

(* ---------------------------------------------------------- compressed rows *)
(* Creation fails exactly if the entries with the room for the diagonal are too many; otherwise the
   matrix is well formed and has a place for every derivative *)
Theorem compressed_created p : well_formed p -> small_blocks p -> (Z.of_nat (num_columns_of p) <= INT_MAX)%Z ->
  ((Z.of_nat (num_entries p + num_columns_of p) > INT_MAX)%Z -> CreateCompressed p = TooMany) /\
  ((Z.of_nat (num_entries p + num_columns_of p) <= INT_MAX)%Z -> exists m, CreateCompressed p = Made m /\ m_valid m /\
    m_num_rows m = num_rows_of p /\ m_num_cols m = num_columns_of p /\ m_storage m = Unsymmetric /\ num_nonzeros m = num_entries p /\ length (m_values m) = (num_entries p + num_columns_of p)%nat /\
    consecutive 0 (m_row_blocks m) /\ map fst (m_row_blocks m) = map r_num (p_blocks p) /\ consecutive 0 (m_col_blocks m) /\ map fst (m_col_blocks m) = p_tangents p).
Proof.
  intros W S C. generalize (create_compressed p W S C). destruct (Z.ltb_spec INT_MAX (Z.of_nat (num_entries p + num_columns_of p))) as [L|L]; [intros E; split; [auto|lia]|]. intros [m [E H]]. split; [lia|]. intros _. exists m. split; [auto|]. split; [now apply (shaped_valid p)|].
  split; [apply H|]. split; [apply H|]. split; [apply H|]. split; [unfold num_nonzeros, row_at; rewrite (s_nr p m H); apply H|]. split; [apply H|]. rewrite (s_rb p m H), (s_cb p m H). destruct (blocks_of_consecutive (map r_num (p_blocks p)) 0). destruct (blocks_of_consecutive (p_tangents p) 0). auto.
Qed.
Print Assumptions compressed_created.
Example ex_created : exists m, CreateCompressed ex_p = Made m /\ m_rows m = [0; 3; 6; 7]%nat /\ firstn 7 (m_cols m) = [0; 1; 2; 0; 1; 2; 2]%nat /\ num_entries ex_p = 7%nat.
Proof. eexists. split; [vm_compute; reflexivity|]. repeat split. Qed.

(* a residual block that uses a parameter block twice is never accepted *)
Theorem compressed_repeated p b m : In b (p_blocks p) -> ~ NoDup (indices (r_args b)) -> CreateCompressed p <> Made m.
Proof. apply create_fatal. Qed.
Print Assumptions compressed_repeated.
Example ex_repeated : let p := mkProgram [2]%nat [mkRBlock 2 [Varying 0; Varying 0]] in CreateCompressed p = Fatal /\ ~ NoDup (indices [Varying 0; Varying 0]).
Proof. split; [vm_compute; reflexivity|]. intros H. cbn in H. inversion H as [|? ? A B]. apply A. left. auto. Qed.

(* the matrix after any evaluations *)
Inductive reached (p : Program) : crs -> Prop :=
| reached_created m : CreateCompressed p = Made m -> reached p m
| reached_evaluated m jac junk m' : reached p m -> EvaluateCompressed p m jac junk m' -> reached p m'.
Lemma reached_shaped p m : well_formed p -> small_blocks p -> (Z.of_nat (num_columns_of p) <= INT_MAX)%Z -> reached p m -> shaped p m.
Proof.
  intros W S C. induction 1 as [m E|m jac junk m' R IH EV]; [|now apply (evaluate_shaped p m jac junk)]. generalize (create_compressed p W S C). destruct (Z.ltb_spec INT_MAX (Z.of_nat (num_entries p + num_columns_of p))) as [L|L]; [congruence|]. intros [m' [E' H]]. congruence.
Qed.
(* Whatever was evaluated before, whatever the scratch areas hold, however the threads interleave:
   the matrix is the Jacobian *)
Theorem compressed_evaluated p m jac junk m' : well_formed p -> small_blocks p -> (Z.of_nat (num_columns_of p) <= INT_MAX)%Z -> reached p m -> EvaluateCompressed p m jac junk m' ->
  is_jacobian p jac (m_matrix m') /\ m_valid m' /\ increasing_rows m' /\ num_nonzeros m' = num_entries p /\ m_rows m' = m_rows m /\ m_cols m' = m_cols m /\ m_num_rows m' = num_rows_of p /\ m_num_cols m' = num_columns_of p /\
  separate (CompressedTasks p m jac junk) (num_entries p) /\
  (forall junk' m'', EvaluateCompressed p m jac junk' m'' -> m'' = m').
Proof.
  intros W S C R EV. assert (H := reached_shaped p m W S C R). destruct (evaluate_all p m jac junk m' W H EV) as [H' [V [I J]]]. split; [auto|]. split; [auto|]. split; [auto|]. split; [unfold num_nonzeros, row_at; rewrite (s_nr p m' H'); apply H'|].
  split; [destruct EV as [l [_ ->]]; reflexivity|]. split; [destruct EV as [l [_ ->]]; reflexivity|]. split; [apply H'|]. split; [apply H'|]. split; [now apply tasks_separate|]. intros junk' m'' EV'. exact (compressed_unique p m jac junk' junk m'' m' H EV' EV).
Qed.
Print Assumptions compressed_evaluated.
(* an evaluation ends *)
Theorem compressed_evaluates p m jac junk : exists m', EvaluateCompressed p m jac junk m'.
Proof. destruct (interleaving_exists (CompressedTasks p m jac junk)) as [l I]. eexists. exists l. split; [exact I|reflexivity]. Qed.
Example ex_compressed (jac : nat -> nat -> vec) : exists m m', CreateCompressed ex_p = Made m /\ EvaluateCompressed ex_p m jac (fun _ _ => 7) m' /\ m_matrix m' 1%nat 0%nat = jac 0%nat 2%nat 2%nat /\ m_matrix m' 1%nat 2%nat = jac 0%nat 0%nat 1%nat /\ m_matrix m' 2%nat 1%nat = 0.
Proof.
  destruct (compressed_created ex_p ex_wf ex_small) as [_ H]; [vm_compute; discriminate|]. destruct H as [m [E _]]; [vm_compute; discriminate|]. destruct (compressed_evaluates ex_p m jac (fun _ _ => 7)) as [m' EV]. exists m, m'. split; [auto|]. split; [auto|].
  destruct (compressed_evaluated ex_p m jac _ m' ex_wf ex_small ltac:(vm_compute; discriminate) (reached_created _ _ E) EV) as [J _].
  destruct (J 0%nat _ 1%nat eq_refl ltac:(cbn; lia)) as [J0 _]. destruct (J 1%nat _ 0%nat eq_refl ltac:(cbn; lia)) as [_ J1]. split; [|split].
  - exact (J0 2%nat 0%nat 0%nat eq_refl ltac:(cbn; lia)).
  - exact (J0 0%nat 1%nat 0%nat eq_refl ltac:(cbn; lia)).
  - apply (J1 1%nat). intros v V. cbn in V. destruct V as [<-|[]]. cbn. lia.
Qed.

(* ---------------------------------------------------------- dynamic compressed rows *)
Inductive dynamic_reached (p : Program) : Dynamic -> Prop :=
| dynamic_created : dynamic_reached p (CreateDynamic p)
| dynamic_again m jac junk m' : dynamic_reached p m -> EvaluateDynamic p m jac junk (Some m') -> dynamic_reached p m'.
Lemma dynamic_reached_shaped p m : well_formed p -> dynamic_reached p m -> dshaped p m.
Proof. intros W. induction 1 as [|m jac junk m' R IH EV]; [apply create_dynamic|]. destruct (evaluate_dynamic_all p m jac junk _ W IH EV) as [m0 [E [S _]]]. injection E as ->. exact S. Qed.
Theorem dynamic_evaluated p m jac junk o : well_formed p -> dynamic_reached p m -> EvaluateDynamic p m jac junk o ->
  exists m', o = Some m' /\ is_jacobian p jac (m_matrix (d_crs m')) /\ m_valid (d_crs m') /\ increasing_rows (d_crs m') /\
  m_num_rows (d_crs m') = num_rows_of p /\ m_num_cols (d_crs m') = num_columns_of p /\ length (m_cols (d_crs m')) = (num_nonzeros (d_crs m') + num_columns_of p)%nat /\
  (forall r c x, (r < num_rows_of p)%nat -> In (c, x) (row_entries (d_crs m') r) -> x <> 0) /\
  (forall junk' o', EvaluateDynamic p m jac junk' o' -> o' = o).
Proof.
  intros W R EV. assert (S := dynamic_reached_shaped p m W R). destruct (evaluate_dynamic_all p m jac junk o W S EV) as [m' [E [S' [V [L [I [J N]]]]]]]. exists m'. split; [auto|]. split; [auto|]. split; [auto|]. split; [auto|]. split; [apply S'|]. split; [apply S'|]. split; [auto|]. split; [auto|]. intros junk' o' EV'. exact (dynamic_unique p m jac junk' junk o' o W S EV' EV).
Qed.
Print Assumptions dynamic_evaluated.
Example ex_dynamic (jac : nat -> nat -> vec) : jac 0%nat 2%nat 2%nat = 0 -> exists m', EvaluateDynamic ex_p (CreateDynamic ex_p) jac (fun _ _ => 7) (Some m') /\ m_matrix (d_crs m') 1%nat 2%nat = jac 0%nat 0%nat 1%nat /\ forall x, ~ In (0%nat, x) (row_entries (d_crs m') 1).
Proof.
  intros Z. destruct (interleaving_exists (DynamicTasks ex_p jac (fun _ _ => 7))) as [l I].
  assert (EV : EvaluateDynamic ex_p (CreateDynamic ex_p) jac (fun _ _ => 7) (option_map (fun d => Finalize (d_crs (CreateDynamic ex_p)) d (NumEffectiveParameters ex_p)) (do_ops (d_crs (CreateDynamic ex_p)) (d_rows (CreateDynamic ex_p)) l))) by (exists l; auto).
  destruct (dynamic_evaluated ex_p _ jac _ _ ex_wf (dynamic_created ex_p) EV) as [m' [E [J [V [IR [NR [NC [L [N U]]]]]]]]]. rewrite E in EV. exists m'. split; [auto|].
  destruct (J 0%nat _ 1%nat eq_refl ltac:(cbn; lia)) as [J0 _]. split; [exact (J0 0%nat 1%nat 0%nat eq_refl ltac:(cbn; lia))|]. intros x X. assert (NZ := N 1%nat 0%nat x ltac:(cbn; lia) X). apply NZ.
  assert (M : m_matrix (d_crs m') 1%nat 0%nat = x). { rewrite SparseProofs3.m_matrix_row, NR. cbn [Nat.ltb Nat.leb num_rows_of]. change (1 <? num_rows_of ex_p)%nat with true. apply rowval_in; [|exact X]. apply sorted_nodup. apply IR. rewrite NR. cbn. lia. }
  rewrite <- M. rewrite <- Z. exact (J0 2%nat 0%nat 0%nat eq_refl ltac:(cbn; lia)).
Qed.

(* ---------------------------------------------------------- block sparse *)
(* Creation fails exactly if there are too many entries (or blocks), as long as the E entries alone
   are not too many; otherwise the values of the E cells come first and those of the F cells follow,
   by rows and columns *)
Theorem block_created p nelim junk : well_formed p -> small_blocks p -> (Z.of_nat (e_entries p nelim) <= INT_MAX)%Z ->
  ((Z.of_nat (num_entries p) > INT_MAX)%Z \/ (Z.of_nat (num_blocks p) > INT_MAX)%Z -> CreateBlock p nelim junk = TooMany) /\
  ((Z.of_nat (num_entries p) <= INT_MAX)%Z -> (Z.of_nat (num_blocks p) <= INT_MAX)%Z -> exists layout m, CreateBlock p nelim junk = Made (layout, m) /\ good m /\
    nnz m = num_entries p /\ num_rows m = num_rows_of p /\ num_columns m = num_columns_of p /\ increasing_cells (structure m) /\
    sequential 0 (class_extents nelim true (structure m)) /\ sequential (e_entries p nelim) (class_extents nelim false (structure m)) /\ (nelim = 0%nat -> packed (structure m))).
Proof.
  intros W S E. generalize (create_block p nelim junk W S E). destruct (Z.ltb_spec INT_MAX (Z.of_nat (num_blocks p))) as [L|L]; [intros H; split; [auto|lia]|]. cbn [orb]. destruct (Z.ltb_spec INT_MAX (Z.of_nat (num_entries p))) as [L'|L']; [intros H; split; [auto|lia]|].
  intros [layout [C [FT [G [AR [A [B P]]]]]]]. split; [lia|]. intros _ _. exists layout, (Construct (JacobianStructure p layout) junk). split; [auto|]. split; [auto|]. destruct (structure_valid p layout W FT) as [_ [HH [BB IC]]].
  split; [rewrite (g_nnz _ G); exact AR|]. split; [rewrite (g_rows _ G); exact HH|]. split; [rewrite (g_columns _ G); exact BB|]. auto.
Qed.
Print Assumptions block_created.
Example ex_block_created junk : exists m, CreateBlock ex_p 1 junk = Made ([[4; 0]; [6]]%nat, m) /\ num_entries ex_p = 7%nat /\ e_entries ex_p 1 = 4%nat /\ extents (structure m) = [(0, 4); (4, 2); (6, 1)]%nat.
Proof. eexists. split; [cbv; reflexivity|]. repeat split. Qed.

(* the matrix after any evaluations or other stores into its values *)
Definition same_structure (m m' : BlockSparse) : Prop := structure m' = structure m /\ transposed m' = transposed m /\ nnz m' = nnz m /\ max_nnz m' = max_nnz m /\ num_rows m' = num_rows m /\ num_columns m' = num_columns m.
Theorem block_evaluated p nelim junk layout m0 m jac m' : well_formed p -> small_blocks p -> (Z.of_nat (e_entries p nelim) <= INT_MAX)%Z -> CreateBlock p nelim junk = Made (layout, m0) -> same_structure m0 m -> EvaluateBlock p layout m jac m' ->
  is_jacobian p jac (entries m') /\ good m' /\ same_structure m0 m' /\ separate (BlockTasks p layout jac) (nnz m) /\
  (forall m'', EvaluateBlock p layout m jac m'' -> forall a, values m'' a = values m' a).
Proof.
  intros W S E C [S1 [S2 [S3 [S4 [S5 S6]]]]] [l [I ->]]. generalize (create_block p nelim junk W S E). destruct (_ || _)%bool; [congruence|]. intros [layout' [C' [FT [G [AR _]]]]]. rewrite C in C'. injection C' as <- ->.
  assert (SEP := block_separate p layout W FT jac (g_disjoint _ G)). destruct G as [g1 g2 g3 g4 g5 g6 g7 g8]. rewrite g3 in g7. change (structure (Construct (JacobianStructure p layout) junk)) with (JacobianStructure p layout) in *. specialize (SEP g7).
  split; [|split; [|split; [|split]]].
  - unfold entries. cbn [structure values]. rewrite S1. change (structure (Construct (JacobianStructure p layout) junk)) with (JacobianStructure p layout). apply (stores_jacobian p layout W FT jac l _ g8 g7 I).
  - constructor; cbn [structure transposed nnz max_nnz num_rows num_columns values]; rewrite ?S1, ?S2, ?S3, ?S4, ?S5, ?S6; auto. rewrite g3. exact g7.
  - repeat split; cbn [structure transposed nnz max_nnz num_rows num_columns]; auto.
  - rewrite S3, g3. exact SEP.
  - intros m'' [l' [I' ->]] a. cbn [values]. assert (P := interleaving_perm _ _ I). assert (P' := interleaving_perm _ _ I'). destruct SEP as [N _].
    assert (FU : functional (concat (BlockTasks p layout jac))) by now apply functional_nodup.
    destruct (in_dec Nat.eq_dec a (map fst (concat (BlockTasks p layout jac)))) as [X|X].
    + apply in_map_iff in X. destruct X as [[a' x] [EQ X]]. cbn in EQ. subst a'. rewrite (puts_in l' a x); [|eapply functional_perm; [apply Permutation_sym; exact P'|exact FU]|apply (Permutation_in _ (Permutation_sym P')); exact X]. rewrite (puts_in l a x); [auto|eapply functional_perm; [apply Permutation_sym; exact P|exact FU]|apply (Permutation_in _ (Permutation_sym P)); exact X].
    + assert (O : forall q, Permutation q (concat (BlockTasks p layout jac)) -> forall x, ~ In (a, x) q) by (intros q Q x Y; apply X; apply in_map_iff; exists (a, x); split; [auto|]; eapply Permutation_in; eauto). rewrite !puts_other; auto.
Qed.
Print Assumptions block_evaluated.
Example ex_block (jac : nat -> nat -> vec) : exists layout m m', CreateBlock ex_p 1 (fun _ => 7) = Made (layout, m) /\ EvaluateBlock ex_p layout m jac m' /\ entries m' 1%nat 0%nat = jac 0%nat 2%nat 2%nat /\ entries m' 1%nat 2%nat = jac 0%nat 0%nat 1%nat /\ entries m' 2%nat 1%nat = 0.
Proof.
  destruct (block_created ex_p 1 (fun _ => 7) ex_wf ex_small) as [_ H]; [vm_compute; discriminate|]. destruct H as [layout [m [E _]]]; [vm_compute; discriminate|vm_compute; discriminate|]. destruct (interleaving_exists (BlockTasks ex_p layout jac)) as [l I].
  eexists layout, m, _. split; [auto|]. split; [exists l; split; [exact I|reflexivity]|].
  match goal with |- entries ?q _ _ = _ /\ _ => assert (EV : EvaluateBlock ex_p layout m jac q) by (exists l; auto) end.
  destruct (block_evaluated ex_p 1 (fun _ => 7) layout m m jac _ ex_wf ex_small ltac:(vm_compute; discriminate) E ltac:(repeat split) EV) as [J _].
  destruct (J 0%nat _ 1%nat eq_refl ltac:(cbn; lia)) as [J0 _]. destruct (J 1%nat _ 0%nat eq_refl ltac:(cbn; lia)) as [_ J1]. split; [|split].
  - exact (J0 2%nat 0%nat 0%nat eq_refl ltac:(cbn; lia)).
  - exact (J0 0%nat 1%nat 0%nat eq_refl ltac:(cbn; lia)).
  - apply (J1 1%nat). intros v V. cbn in V. destruct V as [<-|[]]. cbn. lia.
Qed.

(* ---------------------------------------------------------- all of them *)
(* there is only one Jacobian *)
Theorem jacobian_same p jac M M' : is_jacobian p jac M -> is_jacobian p jac M' -> forall r c, (r < num_rows_of p)%nat -> M r c = M' r c.
Proof. apply jacobian_unique. Qed.
Print Assumptions jacobian_same.
(* the scratch area of MaxDerivativesPerResidualBlock() doubles is large enough, and the Jacobians
   in it do not overlap *)
Theorem scratch_safe p b jac : In b (p_blocks p) ->
  let stores := EvaluateStores p (r_num b) 0 (r_args b) (ScratchPrepare p (r_num b) 0 (r_args b)) jac in
  NoDup (map fst stores) /\ forall s, In s stores -> (fst s < MaxDerivatives p)%nat.
Proof. apply scratch_bound. Qed.
Print Assumptions scratch_safe.
Example ex_scratch : MaxDerivatives ex_p = 14%nat /\ map fst (EvaluateStores ex_p 2 0 [Varying 1; Constant 4; Varying 0] (ScratchPrepare ex_p 2 0 [Varying 1; Constant 4; Varying 0]) (fun _ _ => 0)) = [0; 1; 2; 3; 4; 5]%nat.
Proof. split; reflexivity. Qed.

(* ---------------------------------------------------------- refuted *)
(* e_block_pos is an int and not checked: with too many E entries it overflows, where the
   same Jacobian without partition is refused *)
Definition big : nat := Z.to_nat 32768.
Definition big_p : Program := mkProgram [big] [mkRBlock big [Varying 0]; mkRBlock big [Varying 0]].
Lemma big_z : Z.of_nat big = 32768%Z. Proof. unfold big. rewrite Z2Nat.id; lia. Qed.
Lemma big_tangent : tangent big_p 0 = big. Proof. reflexivity. Qed.
Theorem e_overflow_refuted junk : well_formed big_p /\ small_blocks big_p /\ (Z.of_nat (num_columns_of big_p) <= INT_MAX)%Z /\ (Z.of_nat (num_entries big_p) > INT_MAX)%Z /\
  CreateBlock big_p 1 junk = Overflow /\ CreateBlock big_p 0 junk = TooMany /\ CreateCompressed big_p = TooMany.
Proof.
  assert (W : well_formed big_p) by (intros b [<-|[<-|[]]]; cbn; (split; [repeat constructor; auto|intros v [<-|[]]; lia])).
  assert (S : small_blocks big_p) by (intros b v [<-|[<-|[]]] V; cbn in V; destruct V as [<-|[]]; cbn [r_num]; rewrite big_tangent, big_z; unfold INT_MAX; lia).
  assert (C : num_columns_of big_p = (big + 0)%nat) by reflexivity.
  assert (N : num_entries big_p = (big * (big + 0) + (big * (big + 0) + 0))%nat) by reflexivity.
  assert (C' : (Z.of_nat (num_columns_of big_p) <= INT_MAX)%Z) by (rewrite C, Nat.add_0_r, big_z; unfold INT_MAX; lia).
  assert (N' : (Z.of_nat (num_entries big_p) > INT_MAX)%Z) by (rewrite N, !Nat.add_0_r, Nat2Z.inj_add, Nat2Z.inj_mul, big_z; unfold INT_MAX; lia).
  split; [auto|]. split; [auto|]. split; [auto|]. split; [auto|]. split; [|split].
  - unfold CreateBlock, BuildLayout, big_p. cbn -[big]. rewrite !big_z. cbn -[big]. rewrite ?big_z. reflexivity.
  - destruct (block_created big_p 0 junk W S) as [H _]; [change (e_entries big_p 0) with (big * 0 + (big * 0 + 0))%nat; rewrite !Nat.mul_0_r; cbn; unfold INT_MAX; lia|]. apply H. left. exact N'.
  - destruct (compressed_created big_p W S C') as [H _]. apply H. rewrite Nat2Z.inj_add. lia.
Qed.
Print Assumptions e_overflow_refuted.
(* so does the size of a single block, in every format that counts *)
Definition huge : nat := Z.to_nat 65536.
Definition huge_p : Program := mkProgram [huge] [mkRBlock huge [Varying 0]].
Lemma huge_z : Z.of_nat huge = 65536%Z. Proof. unfold huge. rewrite Z2Nat.id; lia. Qed.
Theorem block_overflow_refuted junk : well_formed huge_p /\ (Z.of_nat (num_entries huge_p) > INT_MAX)%Z /\ CreateBlock huge_p 0 junk = Overflow /\ CreateBlock huge_p 1 junk = Overflow /\ CreateCompressed huge_p = Overflow.
Proof.
  assert (T : tangent huge_p 0 = huge) by reflexivity. assert (N : num_entries huge_p = (huge * (huge + 0) + 0)%nat) by reflexivity. assert (C : NumEffectiveParameters huge_p = huge) by reflexivity.
  split; [intros b [<-|[]]; cbn; (split; [repeat constructor; auto|intros v [<-|[]]; lia])|]. split; [rewrite N, !Nat.add_0_r, Nat2Z.inj_mul, huge_z; unfold INT_MAX; lia|].
  split; [|split].
  - unfold CreateBlock, BuildLayout, huge_p. cbn -[huge]. rewrite huge_z. reflexivity.
  - unfold CreateBlock, BuildLayout, huge_p. cbn -[huge]. rewrite huge_z. reflexivity.
  - unfold CreateCompressed. rewrite C. unfold huge_p. cbn -[huge]. rewrite huge_z. reflexivity.
Qed.
Print Assumptions block_overflow_refuted.
