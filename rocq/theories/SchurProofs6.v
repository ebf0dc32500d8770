From Coq Require Import Reals List Arith Lia Lra Psatz Bool Sorting.Sorted Sorting.Permutation.
From Verif Require Import SchurModel SchurSpec SchurProofs SchurProofs2 SchurProofs3 SchurProofs4 SchurProofs5.
Import ListNotations.
Open Scope R_scope.

Record initialised (nelim : nat) (full : bool) (bs : Structure) (st : Eliminator) (gs : list (nat * list Row)) (tail : list Row) (z : nat) : Prop := {
  ini_nelim : num_eliminate_blocks st = nelim;
  ini_full : assume_full_rank_ete st = full;
  ini_lays : lays nelim bs (lhs_row_layout st);
  ini_size : buffer_size st = z;
  ini_begin : skipn (uneliminated_row_begins st) (rows bs) = tail;
  ini_chunks : chunks_of bs z 0 gs (chunks st);
  ini_rows : rows bs = concat (map snd gs) ++ tail;
  ini_nodup : NoDup (map fst gs);
  ini_groups : forall e rs, In (e, rs) gs -> (e < nelim)%nat /\ rs <> [] /\ forall row, In row rs -> e_row nelim e row /\ good bs row;
  ini_tail : forall row, In row tail -> good bs row /\ forall c, In c (cells row) -> (nelim <= block_id c)%nat }.

Lemma init_some nelim full bs : well_formed nelim bs -> exists st gs tail z, Init nelim full bs = Some st /\ initialised nelim full bs st gs tail z.
Proof.
  intro W. destruct W as [Wn Wc Wr Ws [gs [tail [Er [ND [Ne [Hg Ht]]]]]]].
  destruct (find_spec bs nelim tail gs (S (length (rows bs))) 0 1) as [cs [z [E [_ C]]]].
  { intros e rs I. destruct (Hg e rs I) as [A [B C]]. split; [exact A|]. split; [exact B|]. intros row Hr. exact (C row Hr). }
  { exact ND. }
  { exact Ht. }
  { rewrite Er, app_length. assert (length gs <= length (concat (map snd gs)))%nat; [|lia]. clear -Hg. induction gs as [|[e rs] gs IH]; [cbn; lia|]. cbn [map snd concat length]. rewrite app_length.
    destruct (Hg e rs (or_introl eq_refl)) as [_ [N _]]. destruct rs; [contradiction|]. cbn [length]. specialize (IH (fun e' rs' I => Hg e' rs' (or_intror I))). lia. }
  destruct (chunks_of_last bs z gs 0 cs C Ne) as [last [pre [Rv Lst]]].
  rewrite <- Er in E. unfold Init. destruct (Nat.eqb_spec nelim 0); [lia|]. rewrite E, Rv.
  eexists. exists gs, tail, z. split; [reflexivity|]. constructor; cbn; try reflexivity; try assumption.
  - intros f Hf. apply layout_offset; assumption.
  - rewrite Lst, Er. cbn [plus]. rewrite skipn_app, skipn_all, Nat.sub_diag. reflexivity.
  - intros e rs I. destruct (Hg e rs I) as [A [B Q]]. split; [exact A|]. split; [exact B|]. intros row Hr. split; [exact (Q row Hr)|]. apply Ws. rewrite Er. apply in_or_app. left. apply in_concat. exists rs. split; [|exact Hr]. apply (in_map snd) in I. exact I.
  - intros row Hr. split; [|apply Ht; exact Hr]. apply Ws. rewrite Er. apply in_or_app. right. exact Hr.
Qed.

Lemma init_unique nelim full bs st : well_formed nelim bs -> Init nelim full bs = Some st -> exists gs tail z, initialised nelim full bs st gs tail z.
Proof. intros W E. destruct (init_some nelim full bs W) as [st' [gs [tail [z [E' I]]]]]. rewrite E in E'. injection E' as <-. exists gs, tail, z. exact I. Qed.

Section Reduced.
Variables (invert : bool -> nat -> matrix -> matrix) (nelim : nat) (full : bool) (bs : Structure) (values : nat -> R) (D : option (nat -> R)).
Variables (st : Eliminator) (gs : list (nat * list Row)) (tail : list Row) (z : nat).
Hypothesis Inv : inverts invert.
Hypothesis LC : laid_out 0 (cols bs).
Hypothesis LR : laid_out 0 (map block (rows bs)).
Hypothesis Ini : initialised nelim full bs st gs tail z.

Lemma hg_weak : forall e rs, In (e, rs) gs -> (e < nelim)%nat /\ forall row, In row rs -> e_row nelim e row.
Proof. intros e rs I. destruct (ini_groups _ _ _ _ _ _ _ Ini e rs I) as [A [_ C]]. split; [exact A|]. intros row Hr. apply C. exact Hr. Qed.
Lemma ht_weak : forall row, In row tail -> forall c, In c (cells row) -> (nelim <= block_id c)%nat.
Proof. intros row Hr. apply (ini_tail _ _ _ _ _ _ _ Ini row Hr). Qed.
Definition Er := ini_rows _ _ _ _ _ _ _ Ini.
Definition ND := ini_nodup _ _ _ _ _ _ _ Ini.

Lemma inv_of_eq e rs a a' : In (e, rs) gs -> (a < size (col bs e))%nat -> (a' < size (col bs e))%nat -> inv_of invert st bs values D e rs a a' = inverse_of invert full bs values D e a a'.
Proof.
  intros I Ha Ha'. unfold inv_of, inverse_of, width. rewrite (ini_full _ _ _ _ _ _ _ Ini). apply (inv_matrix invert Inv); [|exact Ha|exact Ha']. intros i j _ _.
  exact (ete_normal bs values D nelim gs tail Er ND hg_weak ht_weak e rs i j I).
Qed.
Lemma minus_lhs_all c i c' j : (nelim <= c)%nat -> (nelim <= c')%nat ->
  suml gs (minus_lhs invert st bs values D c i c' j) =
  sumn nelim (fun e => sumn (width bs e) (fun a => sumn (width bs e) (fun a' => normal bs values D c i e a * inverse_of invert full bs values D e a a' * normal bs values D e a' c' j))).
Proof.
  intros Hc Hc'. rewrite (sumn_in nelim (map fst gs)).
  - rewrite suml_map. apply suml_ext. intros [e rs] I. unfold minus_lhs. cbn [fst snd]. pose proof (proj1 (hg_weak e rs I)) as He. apply sumn_ext. intros a Ha. apply sumn_ext. intros a' Ha'.
    rewrite (inv_of_eq e rs a a' I Ha Ha'). rewrite (normal_sym bs values D c i e a), !(normal_ef bs values D nelim) by assumption.
    rewrite !(NN_group bs values nelim gs tail Er ND hg_weak ht_weak e rs _ _ _ I). rewrite (NN_sym bs values rs c i e a). reflexivity.
  - exact ND.
  - intros e I. apply in_map_iff in I. destruct I as [[e' rs] [<- I]]. apply (hg_weak e' rs I).
  - intros e He N. apply sumn_zero. intros a _. apply sumn_zero. intros a' _. rewrite (normal_sym bs values D c i e a), (normal_ef bs values D nelim e a) by assumption.
    rewrite NN_zero_l; [lra|]. intros row x. apply (no_group bs nelim gs tail Er hg_weak ht_weak e row x He N).
Qed.
Lemma minus_rhs_all b c i : (nelim <= c)%nat ->
  suml gs (minus_rhs invert st bs values D b c i) =
  sumn nelim (fun e => sumn (width bs e) (fun a => sumn (width bs e) (fun a' => normal bs values D c i e a * inverse_of invert full bs values D e a a' * gradient bs values b e a'))).
Proof.
  intros Hc. rewrite (sumn_in nelim (map fst gs)).
  - rewrite suml_map. apply suml_ext. intros [e rs] I. unfold minus_rhs. cbn [fst snd]. pose proof (proj1 (hg_weak e rs I)) as He. apply sumn_ext. intros a Ha. apply sumn_ext. intros a' Ha'.
    rewrite (inv_of_eq e rs a a' I Ha Ha'). rewrite (normal_sym bs values D c i e a), !(normal_ef bs values D nelim) by assumption. rewrite gradient_GG.
    rewrite (GG_group bs values nelim gs tail Er ND hg_weak ht_weak b e rs _ I), (NN_group bs values nelim gs tail Er ND hg_weak ht_weak e rs _ _ _ I). rewrite (NN_sym bs values rs c i e a). reflexivity.
  - exact ND.
  - intros e I. apply in_map_iff in I. destruct I as [[e' rs] [<- I]]. apply (hg_weak e' rs I).
  - intros e He N. apply sumn_zero. intros a _. apply sumn_zero. intros a' _. rewrite (normal_sym bs values D c i e a), (normal_ef bs values D nelim e a) by assumption.
    rewrite NN_zero_l; [lra|]. intros row x. apply (no_group bs nelim gs tail Er hg_weak ht_weak e row x He N).
Qed.

Lemma interleaving_exists {A} (ls : list (list A)) : exists l, interleaving ls l.
Proof.
  assert (forall n (ls : list (list A)), length (concat ls) = n -> exists l, interleaving ls l) as H; [|eapply H; reflexivity].
  clear. induction n as [|n IH]; intros ls E.
  - exists []. constructor. intros l I. apply in_split in I. destruct I as [l1 [l2 ->]]. rewrite concat_app in E. cbn in E. rewrite !app_length in E. destruct l; [reflexivity|cbn in E; lia].
  - assert (exists l1 x l l2, ls = l1 ++ (x :: l) :: l2) as [l1 [x [l [l2 ->]]]].
    { clear IH. induction ls as [|[|x l] ls IHl]; [cbn in E; lia| |exists [], x, l, ls; reflexivity]. cbn in E. destruct (IHl E) as [l1 [x [l [l2 ->]]]]. exists ([] :: l1), x, l, l2. reflexivity. }
    destruct (IH (l1 ++ l :: l2)) as [r Hr]. { rewrite concat_app in *. cbn in *. rewrite !app_length in *. cbn in E. rewrite app_length in E. lia. }
    exists (x :: r). constructor. exact Hr.
Qed.

Lemma eliminate_all stored b want : (want = true -> b <> None) ->
  (exists result, Eliminate invert stored st bs values b D want result) /\
  forall result, Eliminate invert stored st bs values b D want result ->
    (forall b1 b2 i j, (b1 <= b2)%nat -> (nelim + b2 < num_cols bs)%nat -> (i < width bs (nelim + b1))%nat -> (j < width bs (nelim + b2))%nat ->
       lhs result b1 b2 i j = if stored b1 b2 then schur invert full nelim bs values D (nelim + b1) i (nelim + b2) j else 0) /\
    (forall b', b = Some b' -> want = true -> forall f i, (nelim + f < num_cols bs)%nat -> (i < width bs (nelim + f))%nat ->
       rhs result (offset nelim bs f + i)%nat = schur_rhs invert full nelim bs values b' D (nelim + f) i).
Proof.
  intro Hw. pose proof (ini_nelim _ _ _ _ _ _ _ Ini) as En. pose proof (ini_lays _ _ _ _ _ _ _ Ini) as La.
  destruct (all_chunks invert st bs values b D want Inv LC LR ltac:(rewrite En; exact La) Hw z gs 0 (chunks st) [] tail (ini_chunks _ _ _ _ _ _ _ Ini) Er eq_refl) as [pc [E1 [A1 B1]]].
  { rewrite En. apply (ini_groups _ _ _ _ _ _ _ Ini). }
  destruct (tail_update st bs values b want tail LC ltac:(rewrite En; exact La) Hw) as [tl [E2 [A2 B2]]].
  { intros row Hr. destruct (ini_tail _ _ _ _ _ _ _ Ini row Hr) as [[G1 G2] G3]. split; [exact G1|]. intros c Hc. rewrite En. split; [apply G3; exact Hc|apply G2; exact Hc]. }
  rewrite En in *. split.
  - destruct (interleaving_exists pc) as [order Ho]. eexists. exists pc, order, tl. split; [exact E1|]. split; [exact Ho|]. split; [rewrite (ini_begin _ _ _ _ _ _ _ Ini); exact E2|reflexivity].
  - intros result [pc' [order [tl' [F1 [Ho [F2 ->]]]]]]. rewrite E1 in F1. injection F1 as <-. rewrite (ini_begin _ _ _ _ _ _ _ Ini), E2 in F2. injection F2 as <-.
    apply interleaving_perm in Ho. split.
    + intros b1 b2 i j Hb H2 Hi Hj. destruct (stored b1 b2) eqn:Sb.
      * rewrite apply_lhs by exact Sb. cbn [lhs]. rewrite !suml_app, (suml_perm _ _ _ Ho), (A1 b1 b2 i j Hb Hi Hj), (A2 b1 b2 i j Hb Hi Hj).
        rewrite diagonal_update by (rewrite ?En; assumption || lia). rewrite En. rewrite suml_minus, minus_lhs_all by lia. unfold schur. rewrite normal_NN, (NN_rows bs values gs tail Er), eqb_shift. lra.
      * destruct (apply_lhs_unstored stored (AddDiagonal st bs D ++ order ++ tl) (mkSystem (fun _ _ _ _ => 0) (fun _ => 0)) b1 b2 Sb) as [E|E]; [rewrite E|rewrite E]; reflexivity.
    + intros b' Eb Ew f i Hf Hi. rewrite apply_rhs. cbn [rhs]. rewrite !suml_app, (suml_perm _ _ _ Ho), diagonal_rhs.
      rewrite (B1 b' Eb Ew f i Hf Hi), (B2 b' Eb Ew f i Hf Hi). rewrite suml_minus, minus_rhs_all by lia. unfold schur_rhs. rewrite gradient_GG, (GG_rows bs values gs tail Er). lra.
Qed.
End Reduced.
