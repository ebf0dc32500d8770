From Coq Require Import Reals List Arith Lia Lra Psatz Bool Sorting.Sorted Sorting.Permutation.
From Verif Require Import SchurModel SchurSpec SchurProofs SchurProofs2 SchurProofs3 SchurProofs4 SchurProofs5 SchurProofs6 SchurProofs7 SchurProofs8 SchurProofs11.
Import ListNotations.
Open Scope R_scope.

Lemma suml_split {A} (l : list A) f g : suml l (fun x => f x - g x) = suml l f - suml l g.
Proof. induction l; cbn [suml]; lra. Qed.

Theorem one_all invert k_row k_e k_f nelim bs values b D st :
  inverts invert -> well_formed nelim bs -> num_cols bs = S nelim -> width bs nelim = k_f ->
  (forall row c cs, In row (rows bs) -> cells row = c :: cs -> (block_id c < nelim)%nat -> width bs (block_id c) = k_e /\ size (block row) = k_row) ->
  Init nelim true bs = Some st ->
  exists one l r invs, OneInit nelim bs = Some one /\ OneEliminate (invert true) k_row k_e k_f one bs values b D = Some (l, r, invs) /\
    (forall i j, (i < k_f)%nat -> (j < k_f)%nat -> l i j = schur invert true nelim bs values D nelim i nelim j) /\
    (forall i, (i < k_f)%nat -> r i = schur_rhs invert true nelim bs values b D nelim i) /\
    forall order z y, Permutation order (chunks st) -> (forall p, (p < total (firstn nelim (cols bs)))%nat -> y p = 0) ->
      exists x x', BackSubstitute invert st bs values b D z order y = Some x /\ OneBackSubstitute k_row k_e k_f bs values b z (one_chunks one) invs y = Some x' /\
        forall c i, (c < num_cols bs)%nat -> (i < width bs c)%nat -> x' (position (col bs c) + i)%nat = x (position (col bs c) + i)%nat.
Proof.
  intros Inv W Nc Kf Ks Es. destruct (init_unique nelim true bs st W Es) as [gs [tail [zz Ini]]].
  pose proof (wf_cols _ _ W) as LC. pose proof (wf_rows _ _ W) as LR. pose proof (wf_nelim _ _ W) as Wn.
  pose proof (ini_rows _ _ _ _ _ _ _ Ini) as Er. pose proof (ini_nodup _ _ _ _ _ _ _ Ini) as ND. pose proof (ini_groups _ _ _ _ _ _ _ Ini) as Hg.
  pose proof (hg_weak _ _ _ _ _ _ _ Ini) as Hgw. pose proof (ht_weak _ _ _ _ _ _ _ Ini) as Htw.
  destruct (one_init nelim true bs st gs tail zz W Nc Ini) as [one [Eo [En [Ec Eb]]]].
  assert (forall e rs, In (e, rs) gs -> (e < nelim)%nat /\ size (col bs e) = k_e /\ rs <> [] /\ forall row, In row rs -> e_row nelim e row /\ good bs row /\ size (block row) = k_row) as Hg2.
  { intros e rs I. destruct (Hg e rs I) as [He [Nr Hr]].
    assert (forall row, In row rs -> width bs e = k_e /\ size (block row) = k_row) as K.
    { intros row Ir. destruct (Hr row Ir) as [[c [cs [Ecl [Ei _]]]] _]. rewrite <- Ei. apply (Ks row c cs); [|exact Ecl|lia]. rewrite Er. apply in_or_app. left. apply in_concat. exists rs. split; [|exact Ir]. apply (in_map snd) in I. exact I. }
    split; [exact He|]. split; [destruct rs as [|row rs']; [contradiction|]; apply (K row (or_introl eq_refl))|]. split; [exact Nr|]. intros row Ir. split; [apply Hr; exact Ir|]. split; [apply Hr; exact Ir|apply K; exact Ir]. }
  assert (forall row, In row tail -> cells row <> [] /\ good bs row /\ forall c, In c (cells row) -> (nelim <= block_id c)%nat) as Ht2.
  { intros row Ir. split; [apply (proj1 (rows_nonempty nelim bs W)); rewrite Er; apply in_or_app; right; exact Ir|]. apply (ini_tail _ _ _ _ _ _ _ Ini row Ir). }
  destruct (one_chunks_spec (invert true) k_row k_e k_f nelim bs values b D Nc Kf (inv_matrix invert Inv true k_e) gs 0 [] tail (diagonal D (position (col bs nelim))) (fun _ => 0) Er eq_refl Hg2) as [l1 [r1 [invs [E1 [A1 [A2 A3]]]]]].
  destruct (one_tail k_f nelim bs values b Nc Kf tail Ht2 l1 r1) as [l [r [E2 [B1 B2]]]].
  assert (forall e rs a a', In (e, rs) gs -> (a < k_e)%nat -> (a' < k_e)%nat -> one_inv (invert true) k_e bs values D e rs a a' = inverse_of invert true bs values D e a a') as Iv.
  { intros e rs a a' I Ha Ha'. destruct (Hg2 e rs I) as [_ [Ke _]]. unfold one_inv, inverse_of, width. rewrite Ke. apply (inv_matrix invert Inv); [|exact Ha|exact Ha']. intros i j _ _. apply (ete_normal bs values D nelim gs tail Er ND Hgw Htw e rs i j I). }
  exists one, l, r, invs. split; [exact Eo|]. split. { unfold OneEliminate. rewrite Ec, En, E1, Eb, E2. reflexivity. }
  split; [|split].
  - intros i j Hi Hj. rewrite B1, A1, suml_split. unfold schur. rewrite <- (minus_lhs_all invert nelim true bs values D st gs tail zz Inv Ini nelim i nelim j) by lia.
    rewrite normal_NN, (NN_rows bs values gs tail Er), Nat.eqb_refl. cbn [andb].
    assert (suml gs (minus_lhs invert st bs values D nelim i nelim j) = suml gs (fun p => sumn k_e (fun a => sumn k_e (fun a' => NN bs values (snd p) nelim i (fst p) a * one_inv (invert true) k_e bs values D (fst p) (snd p) a a' * NN bs values (snd p) (fst p) a' nelim j)))) as ->.
    { apply suml_ext. intros [e rs] I. unfold minus_lhs. cbn [fst snd]. destruct (Hg2 e rs I) as [_ [Ke _]]. rewrite Ke. apply sumn_ext. intros a Ha. apply sumn_ext. intros a' Ha'. rewrite (Iv e rs a a' I Ha Ha').
      rewrite (inv_of_eq invert nelim true bs values D st gs tail zz Inv Ini e rs a a' I) by (rewrite Ke; assumption). reflexivity. }
    unfold diagonal, d_squared. destruct D as [d|]; destruct (Nat.eqb_spec i j); lra.
  - intros i Hi. rewrite B2, A2, suml_split. unfold schur_rhs. rewrite <- (minus_rhs_all invert nelim true bs values D st gs tail zz Inv Ini b nelim i) by lia.
    rewrite gradient_GG, (GG_rows bs values gs tail Er).
    assert (suml gs (minus_rhs invert st bs values D b nelim i) = suml gs (fun p => sumn k_e (fun a => sumn k_e (fun a' => NN bs values (snd p) nelim i (fst p) a * one_inv (invert true) k_e bs values D (fst p) (snd p) a a' * GG bs values b (snd p) (fst p) a')))) as ->.
    { apply suml_ext. intros [e rs] I. unfold minus_rhs. cbn [fst snd]. destruct (Hg2 e rs I) as [_ [Ke _]]. rewrite Ke. apply sumn_ext. intros a Ha. apply sumn_ext. intros a' Ha'. rewrite (Iv e rs a a' I Ha Ha').
      rewrite (inv_of_eq invert nelim true bs values D st gs tail zz Inv Ini e rs a a' I) by (rewrite Ke; assumption). reflexivity. }
    lra.
  - intros order z y Pm Hy. destruct (back_all invert nelim true bs values b D st gs tail zz z Inv LC ltac:(lia) Ini order y Pm Hy) as [x [Ex [X1 X2]]].
    destruct (A3 z y) as [x' [Ex' [Y1 Y2]]].
    { intros e rs e' rs' i I I' Q Q'. apply (in_block_disjoint bs e e' i LC); [| |exact Q|exact Q'].
      - pose proof (proj1 (Hgw e rs I)). lia.
      - pose proof (proj1 (Hgw e' rs' I')). lia. }
    { exact ND. }
    exists x, x'. split; [exact Ex|]. split; [rewrite Ec; exact Ex'|]. intros c i Hc Hi. destruct (in_dec Nat.eq_dec c (map fst gs)) as [I|N].
    + apply in_map_iff in I. destruct I as [[e rs] [Q I]]. cbn in Q. subst e. destruct (Hg2 c rs I) as [_ [Ke _]]. unfold width in Hi. rewrite (X1 c rs i I Hi). rewrite Ke in Hi. rewrite (Y1 c rs i I Hi). unfold target. rewrite Ke. apply sumn_ext. intros a Ha.
      rewrite (Iv c rs i a I Hi Ha). f_equal. rewrite gradient_GG.
      rewrite (times_z_group nelim true bs values st gs tail zz z Ini c rs a I). unfold times_z. rewrite (GG_group bs values nelim gs tail Er ND Hgw Htw b c rs a I).
      f_equal. rewrite Nc. replace (S nelim - nelim)%nat with 1%nat by lia. cbn [sumn]. rewrite Nat.add_0_r. unfold width in Kf. rewrite Kf. unfold offset. rewrite Nat.add_0_r, Nat.sub_diag. cbn [plus]. lra.
    + rewrite (X2 c i Hc N Hi). apply Y2. intros e rs I Q. apply N. assert (c = e) as ->; [|apply (in_map fst) in I; exact I]. apply (in_block_disjoint bs c e (position (col bs c) + i) LC); [exact Hc| | |exact Q]; [pose proof (proj1 (Hgw e rs I)); lia|]. unfold in_block, width in *. lia.
Qed.
