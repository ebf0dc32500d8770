(* Proofs for C86. *)
From Coq Require Import Reals List Arith Bool Lia Lra.
From Verif Require Import SparseModel SparseSpec SparseProofs3 SparseProps SchurModel BlockSparseModel LsqModel LsqSpec LsqProofs LsqProofs2 LsqProofs3 DsnModel DsnSpec.
Import ListNotations.
Open Scope R_scope.

Lemma crs_diagonal_blocks d n m : crs_diagonal d n = Some m -> m_row_blocks m = [] /\ m_col_blocks m = [].
Proof. unfold crs_diagonal. destruct (fold_left _ _ _) as [[rs cs] vs]. cbv zeta. destruct (Nat.eqb _ _); [|discriminate]. intro E. injection E as <-. split; reflexivity. Qed.

Lemma regularizer A d : jacobian A -> exists r, Regularizer A d = Some r /\ m_valid r /\ m_num_rows r = m_num_cols A /\ m_num_cols r = m_num_cols A /\
  m_row_blocks r = m_col_blocks A /\ forall p q, m_matrix r p q = if Nat.eqb p q && (p <? m_num_cols A)%nat then d p else 0.
Proof.
  intros [V [_ B]]. unfold Regularizer. destruct B as [[_ Hc]|[_ [Hc [_ [C [T _]]]]]].
  - rewrite Hc. cbn [is_nil negb]. destruct (crs_diagonal_matrix d (m_num_cols A)) as [m [E [Vm [_ [N1 [N2 M]]]]]]. exists m. split; [exact E|]. split; [exact Vm|]. split; [exact N1|]. split; [exact N2|]. split; [exact (proj1 (crs_diagonal_blocks _ _ _ E))|exact M].
  - destruct (block_diagonal_matrix (Some d) (m_col_blocks A) C) as [m [E [Vm [_ [_ [N1 [N2 [B1 [_ [M _]]]]]]]]]]. rewrite T in *. exists m.
    replace (negb (is_nil (m_col_blocks A))) with true by (destruct (m_col_blocks A); [congruence|reflexivity]). auto 8.
Qed.
Lemma append_blocks A r A1 : append_rows A r = Some A1 -> m_col_blocks A1 = m_col_blocks A /\
  (m_row_blocks A1 = m_row_blocks A /\ m_num_rows r = 0%nat \/ m_row_blocks A1 = match m_row_blocks A with [] => [] | _ => m_row_blocks A ++ m_row_blocks r end).
Proof.
  unfold append_rows. destruct (m_storage A); [|discriminate..]. destruct (Nat.eqb (m_num_cols r) (m_num_cols A)); [|discriminate]. cbn [negb]. destruct (Bool.eqb _ _); [|discriminate]. cbn [negb].
  destruct (Nat.eqb_spec (m_num_rows r) 0) as [Z|NZ]; intro E; injection E as <-; [split; [reflexivity|left; split; [reflexivity|exact Z]]|]. cbn [m_col_blocks m_row_blocks]. split; [reflexivity|right; reflexivity].
Qed.
Lemma append_some A r : m_storage A = Unsymmetric -> m_num_cols r = m_num_cols A -> is_nil (m_row_blocks A) = is_nil (m_row_blocks r) -> exists A1, append_rows A r = Some A1.
Proof.
  intros H1 H2 H3. unfold append_rows. rewrite H1, H2, Nat.eqb_refl, H3, Bool.eqb_reflx. cbn [negb]. destruct (Nat.eqb _ _); eexists; reflexivity.
Qed.

(* what the libraries are given and what is left afterwards *)
Lemma prepare_call A D : jacobian A -> exists A1,
  (match D with Some d => match Regularizer A d with None => None | Some r => append_rows A r end | None => Some A end) = Some A1 /\
  m_num_cols A1 = m_num_cols A /\
  (forall i j, (i < m_num_cols A)%nat -> (j < m_num_cols A)%nat -> Product A1 i j = normal_matrix (m_num_rows A) (m_matrix A) D i j) /\
  exists A2, (match D with Some _ => delete_rows A1 (m_num_cols A) | None => Some A1 end) = Some A2 /\ jacobian A2 /\ unchanged A A2.
Proof.
  intros J. pose proof J as [V [St B]]. destruct D as [d|].
  - destruct (regularizer A d J) as [r [Er [Vr [R1 [R2 [RB RM]]]]]]. rewrite Er.
    destruct (append_some A r St R2) as [A1 E1].
    { rewrite RB. destruct B as [[-> ->]|[B1 [B2 _]]]; [reflexivity|]. destruct (m_row_blocks A), (m_col_blocks A); congruence || reflexivity. }
    exists A1. split; [exact E1|]. destruct (append_shape A r A1 V Vr E1) as [N1 [N2 [_ [_ [S1 [V1 [Re1 _]]]]]]].
    destruct (rows_appended A r A1 V Vr E1) as [_ [_ [_ [_ [M1 M2]]]]]. split; [exact N2|]. split.
    + intros i j Hi Hj. unfold Product, normal_matrix. rewrite N1, sn_app. f_equal.
      * apply sn_ext. intros k Hk. rewrite <- !m_matrix_entry by lia. rewrite !M1 by exact Hk. reflexivity.
      * rewrite R1. rewrite (sn_ext _ _ (fun k => if (i =? k)%nat then (if (j =? k)%nat then d k * d k else 0) else 0)).
        -- rewrite (sn_pick _ i (fun k => if (j =? k)%nat then d k * d k else 0) Hi). rewrite (Nat.eqb_sym j i). reflexivity.
        -- intros k Hk. rewrite <- !m_matrix_entry by lia. rewrite !M2, !RM. apply Nat.ltb_lt in Hk. rewrite Hk, !andb_true_r, (Nat.eqb_sym k i), (Nat.eqb_sym k j). destruct (i =? k)%nat, (j =? k)%nat; ring.
    + assert (exists A2, delete_rows A1 (m_num_cols A) = Some A2) as [A2 E2].
      { unfold delete_rows. rewrite S1. replace (m_num_cols A <=? m_num_rows A1)%nat with true by (symmetry; apply Nat.leb_le; lia). eexists. reflexivity. }
      exists A2. split; [exact E2|]. destruct (delete_shape A1 _ A2 V1 E2) as [_ [_ [S2 [N3 [N4 [V2 Re2]]]]]].
      rewrite <- R1 in E2. destruct (append_then_delete A r A1 A2 V Vr E1 E2) as [N5 [N6 M]].
      assert (m_col_blocks A2 = m_col_blocks A) as CB.
      { transitivity (m_col_blocks A1); [|exact (proj1 (append_blocks A r A1 E1))]. unfold delete_rows in E2. destruct (negb _); [discriminate|]. destruct (m_storage A1); [|discriminate..]. injection E2 as <-. reflexivity. }
      assert (m_row_blocks A2 = m_row_blocks A) as RBk.
      { destruct (append_blocks A r A1 E1) as [_ AB]. destruct B as [[B1 B2]|[B1 [B2 [[_ [TR PR]] [_ [_ PC]]]]]].
        - assert (m_row_blocks A1 = []) as E0 by (destruct AB as [[AB _]|AB]; rewrite B1 in AB; exact AB).
          unfold delete_rows in E2. destruct (negb _); [discriminate|]. destruct (m_storage A1); [|discriminate..]. injection E2 as <-. cbn [m_row_blocks]. rewrite E0, B1. reflexivity.
        - assert (exists l, m_row_blocks A1 = m_row_blocks A ++ l /\ Forall (fun b => (0 < fst b)%nat) l) as [l [El Pl]].
          { destruct AB as [[AB _]|AB]; [exists []; rewrite app_nil_r; split; [exact AB|constructor]|]. exists (m_row_blocks r). split; [|rewrite RB; exact PC]. rewrite AB. destruct (m_row_blocks A); [congruence|reflexivity]. }
          assert (firstn (length (m_row_blocks A)) (m_row_blocks A1) = m_row_blocks A) as F by (rewrite El, firstn_app, Nat.sub_diag, firstn_all; cbn [firstn]; apply app_nil_r).
          transitivity (firstn (length (m_row_blocks A)) (m_row_blocks A1)); [|exact F]. apply (rows_deleted_blocks A1 _ A2 _ E2).
          + rewrite El, app_length. lia.
          + rewrite El. apply Forall_app. split; assumption.
          + rewrite F, TR. lia. }
      split.
      * split; [exact V2|]. split; [exact S2|]. rewrite RBk, CB, N5, N6. exact B.
      * split; [exact N5|]. split; [exact N6|]. split; [exact RBk|]. split; [exact CB|]. split; [|exact M]. intros r0 Hr0. rewrite Re2 by lia. apply Re1, Hr0.
  - exists A. split; [reflexivity|]. split; [reflexivity|]. split.
    + intros i j _ _. unfold Product, normal_matrix. cbn [weight]. rewrite (sn_ext _ _ (fun k => m_matrix A k i * m_matrix A k j)) by (intros k Hk; rewrite <- !m_matrix_entry by exact Hk; reflexivity). destruct (i =? j)%nat; ring.
    + exists A. split; [reflexivity|]. split; [exact J|]. unfold unchanged. auto 8.
Qed.

(* the three back ends *)
Definition backend (t : LibraryType) : Library -> crs -> vec -> Termination * vec :=
  match t with SUITE_SPARSE => SolveImplUsingSuiteSparse | EIGEN_SPARSE => SolveImplUsingEigen | CUDA_SPARSE => SolveImplUsingCuda end.
Lemma product_sym A i j : Product A i j = Product A j i.
Proof. unfold Product. apply sn_ext. intros. ring. Qed.
Lemma read_lower A i j : ReadLower (Product A) i j = Product A i j.
Proof.
  unfold ReadLower. destruct (Nat.le_ge_cases i j) as [L|L]; [rewrite (Nat.max_r _ _ L), (Nat.min_l _ _ L); apply product_sym|rewrite (Nat.max_l _ _ L), (Nat.min_r _ _ L); reflexivity].
Qed.
(* the matrix a back end hands to its library *)
Definition handed (t : LibraryType) (A : crs) : matrix := match t with SUITE_SPARSE => Product A | _ => ReadLower (Product A) end.
Lemma handed_product t A i j : handed t A i j = Product A i j.
Proof. destruct t; cbn [handed]; rewrite ?read_lower; reflexivity. Qed.
Lemma backend_success t l A x y : exact_library l -> backend t l A x = (SUCCESS, y) -> same (m_num_cols A) (row_times (m_num_cols A) (Product A) y) x.
Proof.
  intros [E F] H.
  assert (exists f, symbolic l (m_num_cols A) (handed t A) = true /\ numeric l (m_num_cols A) (handed t A) = inl f /\ back l (m_num_cols A) f x = (true, y)) as [f [H1 [H2 H3]]].
  { destruct t; cbn [backend handed] in *; unfold SolveImplUsingSuiteSparse, SolveImplUsingEigen, SolveImplUsingCuda in H; cbv zeta in H; (destruct (symbolic l _ _) eqn:Sy; cbn [negb] in H; [|discriminate]);
      (destruct (numeric l _ _) as [f|s] eqn:Nu; [|first [discriminate | exfalso; injection H as Hs _; exact (F _ _ _ Nu Hs)]]); exists f; (split; [reflexivity|]); (split; [reflexivity|]); destruct (back l _ f x) as [[|] z]; try discriminate; injection H as <-; reflexivity. }
  assert (symmetric_matrix (m_num_cols A) (handed t A)) as Sm by (intros i j _ _; rewrite !handed_product; apply product_sym).
  intros q Hq. rewrite <- (E _ _ f x y Sm H1 H2 H3 q Hq). apply row_times_ext; [|intros i _; reflexivity]. intros i _. symmetry. apply handed_product.
Qed.
Lemma backend_complete t l A x : complete_library l -> positive_definite (m_num_cols A) (Product A) -> fst (backend t l A x) = SUCCESS.
Proof.
  intros C P. assert (positive_definite (m_num_cols A) (handed t A)) as P' by (apply (positive_ext _ _ (Product A)); [intros; apply handed_product|exact P]).
  destruct (C _ _ P') as [H1 [f [H2 H3]]]. specialize (H3 x). destruct (back l (m_num_cols A) f x) as [ok y] eqn:Eb. cbn [fst] in H3. subst ok.
  destruct t; cbn [backend handed] in *; unfold SolveImplUsingSuiteSparse, SolveImplUsingEigen, SolveImplUsingCuda; cbv zeta; rewrite H1, H2, Eb; reflexivity.
Qed.
Lemma backend_early t l A x : fails_early l -> snd (backend t l A x) = x.
Proof.
  intro H. destruct (H (m_num_cols A) (handed t A)) as [H1|[s H1]]; destruct t; cbn [backend handed] in *; unfold SolveImplUsingSuiteSparse, SolveImplUsingEigen, SolveImplUsingCuda; cbv zeta; rewrite H1; cbn [negb]; try reflexivity; destruct (symbolic l _ _); reflexivity.
Qed.

(* one call *)
Definition call_result (l : Library) (A : crs) (b : vec) (D : option vec) (o : Termination * vec * crs) : Prop :=
  let '(s, x, A') := o in let m := m_num_rows A in let n := m_num_cols A in
  (exact_library l -> s = SUCCESS -> minimizes m n (m_matrix A) b D x) /\
  (complete_library l -> full_rank m n (m_matrix A) D -> s = SUCCESS) /\
  (fails_early l -> forall q, x q = sumn m (fun p => m_matrix A p q * b p)) /\
  jacobian A' /\ unchanged A A'.
Lemma solve_call t l A b D : jacobian A -> exists o, SolveImpl t l A b D = Some o /\ call_result l A b D o.
Proof.
  intro J. destruct (prepare_call A D J) as [A1 [E1 [N1 [P [A2 [E2 R]]]]]]. unfold SolveImpl. cbv zeta. rewrite E1.
  set (x := left_multiply A b (fun _ => 0)).
  assert (forall q, x q = normal_rhs (m_num_rows A) (m_matrix A) b q) as Hx.
  { intro q. destruct J as [V [St _]]. unfold x. rewrite crs_left_product; [|exact V|congruence]. rewrite Rplus_0_l, sumn_below. unfold full_matrix. rewrite St. reflexivity. }
  assert ((match t with SUITE_SPARSE => SolveImplUsingSuiteSparse l A1 x | EIGEN_SPARSE => SolveImplUsingEigen l A1 x | CUDA_SPARSE => SolveImplUsingCuda l A1 x end) = backend t l A1 x) as -> by (destruct t; reflexivity).
  destruct (backend t l A1 x) as [s y] eqn:Eb. rewrite E2. eexists. split; [reflexivity|]. cbn [call_result]. split; [|split; [|split; [|exact R]]].
  - intros Ex ->. apply normal_minimizes. intros q Hq. rewrite <- Hx. rewrite <- N1 in Hq. pose proof (backend_success t l A1 x y Ex Eb q Hq) as H. rewrite N1 in *. rewrite <- H. apply row_times_ext; [|intros i _; reflexivity]. intros i Hi. symmetry. apply P; assumption.
  - intros C F. change s with (fst (s, y)). rewrite <- Eb. apply backend_complete; [exact C|]. rewrite N1. apply (positive_ext _ _ (normal_matrix (m_num_rows A) (m_matrix A) D)); [exact P|apply normal_positive, F].
  - intros F q. change y with (snd (s, y)). rewrite <- Eb, (backend_early t l A1 x F). apply Hx.
Qed.
Lemma unchanged_trans A B C : unchanged A B -> unchanged B C -> unchanged A C.
Proof.
  intros [H1 [H2 [H3 [H4 [H5 H6]]]]] [G1 [G2 [G3 [G4 [G5 G6]]]]]. unfold unchanged. do 4 (split; [congruence|]). split; [intros r Hr; rewrite G5, H5 by congruence; reflexivity|intros; rewrite G6; apply H6].
Qed.
