(* C74: the block sizes that a Schur solver is compiled for are those of the problem. *)
From Coq Require Import Reals List Arith ZArith Bool Lia Lra Sorted Permutation.
From Verif Require Import SchurModel SchurSpec SchurProps TplModel TplSpec TplProofs.
Import ListNotations.
Open Scope Z_scope.

(* The detected sizes tell exactly which sizes are constant over the rows with e blocks; a CHECK
   fails if and only if there is no such row. *)
Theorem detected_sizes bs nelim es fs : split nelim bs es fs -> positive (row_sizes es) -> positive (e_sizes bs es) -> positive (f_sizes bs es) ->
  (DetectStructure bs nelim = None <-> es = []) /\
  forall s, DetectStructure bs nelim = Some s ->
    summarizes (row_sizes es) (row_block_size s) /\ summarizes (e_sizes bs es) (e_block_size s) /\ summarizes (f_sizes bs es) (f_block_size s).
Proof.
  intros Sp P1 P2 P3. destruct (detects bs nelim es fs Sp P1 P2 P3) as [[E D]|[E [s [D H]]]]; rewrite D.
  - split; [split; [intros _; exact E|reflexivity]|discriminate].
  - split; [split; [discriminate|intro E'; contradiction]|]. intros s' Q. injection Q as <-. exact H.
Qed.
Print Assumptions detected_sizes.

(* The three generated tables choose the same specialization.  It is a compiled one, or the
   general one; it applies to the sizes; and every other one that applies fixes fewer of them. *)
Theorem best_specialization o : let t := GetBestSchurTemplateSpecialization false o in
  SchurEliminatorCreate false o = t /\ PartitionedMatrixViewCreate false o = t /\
  (In t specializations \/ t = general) /\ applies t o /\ forall t', In t' specializations -> applies t' o -> applies t' t.
Proof. cbv zeta. split; [reflexivity|]. split; [reflexivity|]. unfold GetBestSchurTemplateSpecialization.
  match goal with |- context [choose ?table false o] => exact (choose_best table o eq_refl eq_refl eq_refl) end. Qed.
Print Assumptions best_specialization.
Theorem restricted_specialization o :
  GetBestSchurTemplateSpecialization true o = general /\ SchurEliminatorCreate true o = general /\ PartitionedMatrixViewCreate true o = general.
Proof. repeat split. Qed.
Print Assumptions restricted_specialization.

(* Whatever is chosen suits all rows with e blocks, so the solvers read the blocks with the strides
   and sizes they have. *)
Theorem chosen_sizes_suit restricted bs nelim es fs : split nelim bs es fs -> positive (row_sizes es) -> positive (e_sizes bs es) -> positive (f_sizes bs es) -> es <> [] ->
  (exists k, ChooseEliminator restricted bs nelim = Some k /\ suitable bs es (match k with General t => t | OneFBlock t => t end)) /\
  (exists v e, ChooseView restricted bs nelim = Some (v, e) /\ suitable bs es v /\ suitable bs es e) /\
  exists g u, Reported restricted bs nelim = Some (g, u) /\ suitable bs es u.
Proof.
  intros Sp P1 P2 P3 Ne. destruct (detects bs nelim es fs Sp P1 P2 P3) as [[E _]|[_ [s [D [S1 [S2 S3]]]]]]; [contradiction|].
  assert (forall t, applies t s -> suitable bs es t) as A by (intros t Ht; exact (applies_suitable bs es s t S1 S2 S3 Ht)).
  assert (forall o, applies general o) as Ag by (intro o; repeat split; left; reflexivity).
  assert (applies (GetBestSchurTemplateSpecialization restricted s) s /\ applies (SchurEliminatorCreate restricted s) s /\ applies (PartitionedMatrixViewCreate restricted s) s) as [T1 [T2 T3]].
  { destruct restricted; [repeat split; left; reflexivity|]. destruct (best_specialization s) as [-> [-> [_ [H _]]]]. auto. }
  unfold ChooseEliminator, ChooseView, Reported. rewrite D. split; [|split].
  - destruct (_ && _) eqn:B.
    + rewrite !andb_true_iff, !Z.eqb_eq in B. destruct B as [[[B1 B2] B3] _]. eexists. split; [reflexivity|]. apply A. repeat split; right; cbn; congruence.
    + eexists. split; [reflexivity|]. apply A, T2.
  - eexists. eexists. split; [reflexivity|]. split; apply A; assumption.
  - eexists. eexists. split; [reflexivity|]. apply A, T1.
Qed.
Print Assumptions chosen_sizes_suit.

(* The summary reports the sizes that were detected and, unless the specializations are restricted,
   the template arguments of what is used. *)
Theorem reported_sizes bs nelim s : DetectStructure bs nelim = Some s ->
  exists u, Reported false bs nelim = Some (s, u) /\ ChooseView false bs nelim = Some (u, u) /\
    (ChooseEliminator false bs nelim = Some (General u) \/ ChooseEliminator false bs nelim = Some (OneFBlock u)).
Proof.
  intro D. unfold Reported, ChooseView, ChooseEliminator. rewrite D. eexists. split; [reflexivity|]. split; [reflexivity|].
  destruct (_ && _) eqn:B; [|left; reflexivity]. right. rewrite !andb_true_iff, !Z.eqb_eq in B. destruct B as [[[B1 B2] B3] _]. destruct s as [r e f]. cbn [row_block_size e_block_size f_block_size] in B1, B2, B3. subst. reflexivity.
Qed.
Print Assumptions reported_sizes.

(* When DENSE_SCHUR or SPARSE_SCHUR choose the eliminator for one f block, it computes the same
   reduced system and the same solution as the general one. *)
Theorem one_f_block_choice restricted invert nelim bs values b D st t :
  inverts invert -> well_formed nelim bs -> (forall row, In row (rows bs) -> (0 < size (block row))%nat) -> (forall c, In c (cols bs) -> (0 < size c)%nat) ->
  ChooseEliminator restricted bs nelim = Some (OneFBlock t) -> Init nelim true bs = Some st ->
  row_block_size t = 2 /\ e_block_size t = 3 /\ f_block_size t = 6 /\
  exists one l r invs, OneInit nelim bs = Some one /\ OneEliminate (invert true) 2 3 6 one bs values b D = Some (l, r, invs) /\
    (forall i j, (i < 6)%nat -> (j < 6)%nat -> l i j = schur invert true nelim bs values D nelim i nelim j) /\
    (forall i, (i < 6)%nat -> r i = schur_rhs invert true nelim bs values b D nelim i) /\
    forall order z y, Permutation order (chunks st) -> (forall p, (p < total (firstn nelim (cols bs)))%nat -> y p = 0%R) ->
      exists x x', BackSubstitute invert st bs values b D z order y = Some x /\ OneBackSubstitute 2 3 6 bs values b z (one_chunks one) invs y = Some x' /\
        forall c i, (c < num_cols bs)%nat -> (i < width bs c)%nat -> x' (position (col bs c) + i)%nat = x (position (col bs c) + i)%nat.
Proof.
  intros Hi W Pr Pc Ch In_. unfold ChooseEliminator in Ch. destruct (DetectStructure bs nelim) as [s|] eqn:Ds; [|discriminate].
  destruct (_ && _) eqn:B; [|discriminate]. injection Ch as <-. rewrite !andb_true_iff, !Z.eqb_eq in B. destruct B as [[[B1 B2] B3] B4].
  split; [reflexivity|]. split; [reflexivity|]. split; [reflexivity|].
  destruct (wf_groups _ _ W) as [groups [tail [Er [_ [_ [Hg Ht]]]]]]. set (es := concat (map snd groups)) in *.
  assert (Hes : forall row, In row es -> exists c cs, cells row = c :: cs /\ (block_id c < nelim)%nat /\ forall c', In c' cs -> (nelim <= block_id c')%nat).
  { intros row Hr. apply in_concat in Hr. destruct Hr as [rs [Hrs Hr]]. apply in_map_iff in Hrs. destruct Hrs as [[e rs'] [E Hin]]. cbn [snd] in E. subst rs'. destruct (Hg e rs Hin) as [He [_ H]]. destruct (H row Hr) as [c [cs [E1 [E2 E3]]]]. exists c, cs. split; [exact E1|]. split; [lia|exact E3]. }
  assert (Sp : split nelim bs es tail).
  { constructor; [exact Er| |].
    - intros row Hr. destruct (Hes row Hr) as [c [cs [E1 [E2 _]]]]. exists c, cs. auto.
    - intros row Hr. destruct (Ht row Hr) as [N H]. destruct (cells row) as [|c cs] eqn:Ec; [contradiction|]. exists c, cs. split; [reflexivity|]. apply H. left. reflexivity. }
  assert (forall row, In row es -> In row (rows bs)) as Hin by (intros row Hr; rewrite Er; apply in_or_app; left; exact Hr).
  assert (Pcol : forall row c, In row es -> In c (cells row) -> (0 < size (col bs (block_id c)))%nat).
  { intros row c Hr Hc. apply Pc. unfold col. apply nth_In. exact (proj2 (wf_sorted _ _ W row (Hin row Hr)) c Hc). }
  destruct (detects bs nelim es tail Sp) as [[_ D0]|[_ [s' [D' [S1 [S2 S3]]]]]].
  - intros n Hn. apply in_map_iff in Hn. destruct Hn as [row [<- Hr]]. apply Pr, Hin, Hr.
  - intros n Hn. apply in_flat_map in Hn. destruct Hn as [row [Hr Hn]]. destruct (cells row) as [|c cs] eqn:Ec; [destruct Hn|]. destruct Hn as [<-|[]]. apply (Pcol row c Hr). rewrite Ec. left. reflexivity.
  - intros n Hn. apply in_flat_map in Hn. destruct Hn as [row [Hr Hn]]. apply in_map_iff in Hn. destruct Hn as [c [<- Hc]]. apply (Pcol row c Hr). destruct (cells row); [destruct Hc|right; exact Hc].
  - rewrite Ds in D0. discriminate.
  - rewrite Ds in D'. injection D' as <-.
    assert (forall l z, summarizes l z -> 0 < z -> l <> [] /\ forall n, In n l -> Z.of_nat n = z) as Sm.
    { intros l z [[_ H]|[[n [H1 [H2 H3]]]|[m [n [_ [_ [_ H]]]]]]] Hz; [lia| |lia]. split; [exact H1|]. intros m Hm. rewrite (H2 m Hm). symmetry. exact H3. }
    assert (num_cols bs = S nelim) as Hn by (unfold num_cols; lia).
    apply (schur_one_f_block invert 2 3 6 nelim bs values b D st Hi W Hn).
    + destruct (Sm _ _ S3 ltac:(lia)) as [N H]. destruct (f_sizes bs es) as [|k l] eqn:Ef; [contradiction|].
      assert (In k (f_sizes bs es)) as Hk by (rewrite Ef; left; reflexivity). pose proof (H k ltac:(left; reflexivity)) as Ek.
      apply in_flat_map in Hk. destruct Hk as [row [Hr Hk]]. apply in_map_iff in Hk. destruct Hk as [c [Ec Hc]]. destruct (Hes row Hr) as [c0 [cs [E1 [_ E3]]]]. rewrite E1 in Hc. cbn [tl] in Hc.
      assert (block_id c = nelim) as Eb. { pose proof (E3 c Hc). assert (block_id c < num_cols bs)%nat by (apply (proj2 (wf_sorted _ _ W row (Hin row Hr))); rewrite E1; right; exact Hc). lia. }
      rewrite Eb in Ec. unfold width. lia.
    + intros row c cs Hr Ec Hc. assert (In row es) as He.
      { rewrite Er in Hr. apply in_app_iff in Hr. destruct Hr as [Hr|Hr]; [exact Hr|]. destruct (Ht row Hr) as [_ H]. specialize (H c ltac:(rewrite Ec; left; reflexivity)). lia. }
      split.
      * assert (In (size (col bs (block_id c))) (e_sizes bs es)) as Hk by (apply in_flat_map; exists row; split; [exact He|]; rewrite Ec; left; reflexivity).
        pose proof (proj2 (Sm _ _ S2 ltac:(lia)) _ Hk). unfold width. lia.
      * assert (In (size (block row)) (row_sizes es)) as Hk by (apply in_map_iff; exists row; split; [reflexivity|exact He]).
        pose proof (proj2 (Sm _ _ S1 ltac:(lia)) _ Hk). lia.
    + exact In_.
Qed.
Print Assumptions one_f_block_choice.

(* Without the assumption on the sizes: a row without residuals (a cost function may have none)
   is not told apart from no row.  Here the rows have 0 and 2 residuals; the eliminator is compiled
   for rows of 2. *)
Definition empty_row_bs : Structure := mkStructure [mkBlock 2 0; mkBlock 2 2]
  [mkRow (mkBlock 0 0) [mkCell 0 0; mkCell 1 0]; mkRow (mkBlock 2 0) [mkCell 0 0; mkCell 1 4]].
Theorem empty_rows_refuted : exists bs nelim es t, split nelim bs es [] /\ positive (e_sizes bs es) /\ positive (f_sizes bs es) /\
  ChooseEliminator false bs nelim = Some (General t) /\ ~ suitable bs es t.
Proof.
  exists empty_row_bs, 1%nat, (rows empty_row_bs), (mkSizes 2 2 2). split; [|split; [|split; [|split]]].
  - constructor; [reflexivity| |intros row []]. intros row [<-|[<-|[]]]; eexists; eexists; (split; [reflexivity|cbn; lia]).
  - intros n [<-|[<-|[]]]; cbn; lia.
  - intros n [<-|[<-|[]]]; cbn; lia.
  - reflexivity.
  - intros [[H|H] _]; [discriminate H|]. specialize (H 0%nat ltac:(left; reflexivity)). discriminate H.
Qed.
Print Assumptions empty_rows_refuted.
(* if no row has residuals, a CHECK fails although there are e blocks *)
Theorem all_rows_empty_refuted : exists bs nelim es, split nelim bs es [] /\ es <> [] /\ positive (e_sizes bs es) /\ DetectStructure bs nelim = None.
Proof.
  exists (mkStructure [mkBlock 2 0] [mkRow (mkBlock 0 0) [mkCell 0 0]]), 1%nat, [mkRow (mkBlock 0 0) [mkCell 0 0]]. split; [|split; [discriminate|split]].
  - constructor; [reflexivity| |intros row []]. intros row [<-|[]]; eexists; eexists; (split; [reflexivity|cbn; lia]).
  - intros n [<-|[]]; cbn; lia.
  - reflexivity.
Qed.
Print Assumptions all_rows_empty_refuted.

(* With restricted specializations the summary says that nothing was specialized, but the
   eliminator for one f block is. *)
Definition two_view : Structure := mkStructure [mkBlock 3 0; mkBlock 3 3; mkBlock 6 6]
  [mkRow (mkBlock 2 0) [mkCell 0 0; mkCell 2 6]; mkRow (mkBlock 2 2) [mkCell 0 18]; mkRow (mkBlock 2 4) [mkCell 1 24; mkCell 2 30]; mkRow (mkBlock 7 6) [mkCell 2 42]].
Theorem restricted_report_refuted : exists bs nelim g t, ChooseEliminator true bs nelim = Some (OneFBlock t) /\ Reported true bs nelim = Some (g, general) /\ t <> general.
Proof. exists two_view, 2%nat, (mkSizes 2 3 6), (mkSizes 2 3 6). split; [reflexivity|]. split; [reflexivity|discriminate]. Qed.
Print Assumptions restricted_report_refuted.

(* ------------------------------------------------------------------ instances *)
Example two_view_split : split 2 two_view (firstn 3 (rows two_view)) (skipn 3 (rows two_view)) /\ ChooseEliminator false two_view 2 = Some (OneFBlock (mkSizes 2 3 6)) /\ well_formed 2 two_view.
Proof.
  split; [|split; [reflexivity|]].
  - constructor; [reflexivity| |].
    + intros row [<-|[<-|[<-|[]]]]; eexists; eexists; (split; [reflexivity|cbn; lia]).
    + intros row [<-|[]]; eexists; eexists; (split; [reflexivity|cbn; lia]).
  - constructor.
    + unfold num_cols. cbn. lia.
    + cbn. auto.
    + cbn. auto.
    + intros row H. assert (StronglySorted lt [0%nat; 2%nat]) by (repeat constructor). assert (StronglySorted lt [1%nat; 2%nat]) by (repeat constructor). assert (StronglySorted lt [2%nat]) by (repeat constructor). assert (StronglySorted lt [0%nat]) by (repeat constructor).
      destruct H as [<-|[<-|[<-|[<-|[]]]]]; (split; [assumption|]); intros c Hc; cbn in Hc; repeat (match goal with Q : _ \/ _ |- _ => destruct Q | Q : False |- _ => destruct Q end); subst; unfold num_cols; cbn; lia.
    + exists [(0%nat, [mkRow (mkBlock 2 0) [mkCell 0 0; mkCell 2 6]; mkRow (mkBlock 2 2) [mkCell 0 18]]); (1%nat, [mkRow (mkBlock 2 4) [mkCell 1 24; mkCell 2 30]])], [mkRow (mkBlock 7 6) [mkCell 2 42]].
      split; [reflexivity|]. split; [repeat constructor; cbn; intuition discriminate|]. split; [discriminate|]. split.
      * intros e rs [Q|[Q|[]]]; injection Q as <- <-; (split; [lia|]); (split; [discriminate|]).
        -- intros row [<-|[<-|[]]]; cbn; eexists; eexists; (split; [reflexivity|]); (split; [reflexivity|]); [intros c [<-|[]]; cbn; lia|intros c []].
        -- intros row [<-|[]]; cbn; eexists; eexists; (split; [reflexivity|]); (split; [reflexivity|]); intros c [<-|[]]; cbn; lia.
      * intros row [<-|[]]. split; [discriminate|]. intros c [<-|[]]. cbn. lia.
Qed.
(* rows of two sizes, e blocks of size 3, f blocks of two sizes: only the e size is fixed, for which
   there is no specialization *)
Definition mixed : Structure := mkStructure [mkBlock 3 0; mkBlock 6 3; mkBlock 9 9]
  [mkRow (mkBlock 2 0) [mkCell 0 0; mkCell 1 6]; mkRow (mkBlock 1 2) [mkCell 0 18; mkCell 1 21; mkCell 2 27]].
Example mixed_sizes : DetectStructure mixed 1 = Some (mkSizes (-1) 3 (-1)) /\ ChooseEliminator false mixed 1 = Some (General general) /\
  GetBestSchurTemplateSpecialization false (mkSizes 2 3 7) = mkSizes 2 3 (-1) /\ GetBestSchurTemplateSpecialization false (mkSizes 2 7 7) = mkSizes 2 (-1) (-1).
Proof. repeat split. Qed.
