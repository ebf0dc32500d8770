From Coq Require Import Reals List Arith Lia Lra Psatz Bool Sorting.Sorted Sorting.Permutation.
From Verif Require Import SchurModel SchurSpec SchurProofs SchurProofs2 SchurProofs3 SchurProofs4 SchurProofs5 SchurProofs6 SchurProofs7.
Import ListNotations.
Open Scope R_scope.

(* ---------------- positions ---------------- *)
Lemma laid_total p bl i d : laid_out p bl -> (i < length bl)%nat -> position (nth i bl d) = (p + total (firstn i bl))%nat.
Proof.
  revert p i. induction bl as [|b bl IH]; intros p i L I; [cbn in I; lia|]. cbn in L. destruct L as [P L]. destruct i as [|i]; cbn [nth firstn total fold_right]; [lia|].
  rewrite (IH _ i L ltac:(cbn in I; lia)). fold (total (firstn i bl)). lia.
Qed.
Lemma total_app l1 l2 : total (l1 ++ l2) = (total l1 + total l2)%nat.
Proof. induction l1 as [|b l1 IH]; [reflexivity|]. cbn. fold (total (l1 ++ l2)) (total l1). lia. Qed.
Lemma total_split n bl : (total bl - total (skipn n bl) = total (firstn n bl))%nat.
Proof. rewrite <- (firstn_skipn n bl) at 1. rewrite total_app. lia. Qed.
Lemma block_before bl n e i d : laid_out 0 bl -> (e < n <= length bl)%nat -> (i < size (nth e bl d))%nat -> (position (nth e bl d) + i < total (firstn n bl))%nat.
Proof.
  intros L H I. rewrite (laid_total 0 bl e d L) by lia. cbn.
  assert (firstn n bl = firstn e bl ++ nth e bl d :: firstn (n - S e) (skipn (S e) bl)) as ->.
  { clear L I. revert n bl H. induction e as [|e IH]; intros n bl H; destruct bl as [|b bl]; cbn in H; try lia; destruct n as [|n]; try lia; cbn [firstn nth skipn app].
    - replace (S n - 1)%nat with n by lia. reflexivity.
    - cbn [Nat.sub]. f_equal. apply IH. lia. }
  rewrite total_app. cbn. lia.
Qed.

(* ---------------- back substitution ---------------- *)
Lemma fold_sj {A} (F : A -> nat -> R) cs : forall s0 k, fold_left (fun s c => fun k => s k - F c k) cs s0 k = s0 k - suml cs (fun c => F c k).
Proof. induction cs as [|c cs IH]; intros s0 k; cbn [fold_left suml]; [lra|]. rewrite IH. lra. Qed.
Lemma cells_times bs values nelim lay z cs k : lays nelim bs lay -> (forall c, In c cs -> (nelim <= block_id c < num_cols bs)%nat) ->
  suml cs (fun c => mv (size (col bs (block_id c))) (block_at values (cell_position c) (size (col bs (block_id c)))) (fun j => z (nth (block_id c - nelim) lay 0%nat + j)%nat) k) =
  sumn (num_cols bs - nelim) (fun f => sumn (size (col bs (nelim + f))) (fun j => centry bs values cs (nelim + f) k j * z (offset nelim bs f + j)%nat)).
Proof.
  intros La Hc. unfold centry.
  rewrite (sumn_ext _ (fun f => sumn (size (col bs (nelim + f))) (fun j => suml cs (fun cell => if block_id cell =? nelim + f then values (cell_position cell + k * size (col bs (nelim + f)) + j)%nat else 0) * z (offset nelim bs f + j)%nat))
    (fun f => suml cs (fun cell => sumn (size (col bs (nelim + f))) (fun j => (if block_id cell =? nelim + f then values (cell_position cell + k * size (col bs (nelim + f)) + j)%nat else 0) * z (offset nelim bs f + j)%nat)))).
  2:{ intros f _. rewrite suml_sumn. apply sumn_ext. intros j _. rewrite suml_scal_r. reflexivity. }
  rewrite <- suml_sumn. apply suml_ext. intros c Ic. specialize (Hc c Ic). assert (exists m, block_id c = (nelim + m)%nat) as [m Em] by (exists (block_id c - nelim)%nat; lia). rewrite Em in *.
  rewrite (sumn_single _ _ m).
  - replace (nelim + m - nelim)%nat with m by lia. rewrite (La m) by lia. rewrite Nat.eqb_refl. reflexivity.
  - lia.
  - intros f _ N. apply sumn_zero. intros j _. rewrite eqb_shift. destruct (Nat.eqb_spec m f); [congruence|ring].
Qed.
Definition times_z (bs : Structure) (values : nat -> R) (nelim : nat) (z : nat -> R) (rs : list Row) (e i : nat) : R :=
  sumn (num_cols bs - nelim) (fun f => sumn (size (col bs (nelim + f))) (fun j => NN bs values rs e i (nelim + f) j * z (offset nelim bs f + j)%nat)).
Lemma times_z_cons bs values nelim z row rs e i : times_z bs values nelim z (row :: rs) e i =
  sumn (size (block row)) (fun k => entry bs values row e k i * sumn (num_cols bs - nelim) (fun f => sumn (size (col bs (nelim + f))) (fun j => entry bs values row (nelim + f) k j * z (offset nelim bs f + j)%nat))) + times_z bs values nelim z rs e i.
Proof.
  unfold times_z. unfold NN at 1. cbn [suml].
  rewrite (sumn_ext _ _ (fun f => sumn (size (block row)) (fun k => entry bs values row e k i * sumn (size (col bs (nelim + f))) (fun j => entry bs values row (nelim + f) k j * z (offset nelim bs f + j)%nat)) +
     sumn (size (col bs (nelim + f))) (fun j => NN bs values rs e i (nelim + f) j * z (offset nelim bs f + j)%nat))).
  - rewrite sumn_plus. f_equal. rewrite sumn_swap. apply sumn_ext. intros k _. rewrite sumn_scal. reflexivity.
  - intros f _. rewrite (sumn_ext _ _ (fun j => sumn (size (block row)) (fun k => entry bs values row e k i * entry bs values row (nelim + f) k j * z (offset nelim bs f + j)%nat) + NN bs values rs e i (nelim + f) j * z (offset nelim bs f + j)%nat)).
    + rewrite sumn_plus. f_equal. rewrite sumn_swap. apply sumn_ext. intros k _. rewrite <- sumn_scal. apply sumn_ext. intros. ring.
    + intros j _. rewrite sumn_scal_r. unfold NN. ring.
Qed.
Lemma back_rows st bs values b z e rs : lays (num_eliminate_blocks st) bs (lhs_row_layout st) -> (e < num_eliminate_blocks st)%nat ->
  (forall row, In row rs -> e_row (num_eliminate_blocks st) e row /\ good bs row) -> forall yb m,
  exists yb' m', BackSubstituteRows st bs values b z (size (col bs e)) rs yb m = Some (yb', m') /\
    (forall i, yb' i = yb i + (GG bs values b rs e i - times_z bs values (num_eliminate_blocks st) z rs e i)) /\
    (forall i j, m' i j = m i j + NN bs values rs e i e j).
Proof.
  intros La He. set (nelim := num_eliminate_blocks st) in *. induction rs as [|row rs IH]; intros Hr yb m.
  - exists yb, m. split; [reflexivity|]. split; intros; unfold times_z, GG, NN; cbn [suml]; [|lra]. rewrite sumn_zero; [lra|]. intros. apply sumn_zero. intros. lra.
  - destruct (Hr row (or_introl eq_refl)) as [[c [cs [Ec [Ei Eg]]]] [So Hc]]. cbn [BackSubstituteRows]. rewrite Ec.
    destruct (IH (fun r H => Hr r (or_intror H)) (fun i => yb i + mtv (size (block row)) (block_at values (cell_position c) (size (col bs e)))
        (fold_left (fun s c0 => fun k => s k - mv (size (col bs (block_id c0))) (block_at values (cell_position c0) (size (col bs (block_id c0)))) (fun j => z (nth (block_id c0 - nelim) (lhs_row_layout st) 0%nat + j)%nat) k) cs (fun k => b (position (block row) + k)%nat)) i)
       (fun i j => m i j + mtm (size (block row)) (block_at values (cell_position c) (size (col bs e))) (block_at values (cell_position c) (size (col bs e))) i j)) as [yb' [m' [E [A B]]]].
    exists yb', m'. split; [exact E|]. split.
    + intro i. rewrite A. rewrite times_z_cons. unfold GG. cbn [suml]. fold (GG bs values b rs e i). unfold mtv.
      rewrite (sumn_ext _ _ (fun k => entry bs values row e k i * b (position (block row) + k)%nat - entry bs values row e k i * sumn (num_cols bs - nelim) (fun f => sumn (size (col bs (nelim + f))) (fun j => entry bs values row (nelim + f) k j * z (offset nelim bs f + j)%nat)))).
      * rewrite sumn_minus. lra.
      * intros k _. rewrite fold_sj. rewrite (cells_times bs values nelim (lhs_row_layout st) z cs k La).
        2:{ intros x Hx. split; [apply Eg; exact Hx|apply Hc; rewrite Ec; right; exact Hx]. }
        rewrite <- Ei, <- (entry_e bs values row c cs k i Ec So). rewrite Ei.
        rewrite (sumn_ext (num_cols bs - nelim) _ (fun f => sumn (size (col bs (nelim + f))) (fun j => entry bs values row (nelim + f) k j * z (offset nelim bs f + j)%nat))); [ring|].
        intros f _. apply sumn_ext. intros j _. rewrite (entry_f bs values row c cs _ _ _ Ec) by lia. reflexivity.
    + intros i j. rewrite B. unfold NN. cbn [suml]. unfold mtm. rewrite Rplus_assoc. f_equal. f_equal. apply sumn_ext. intros k _. rewrite <- Ei, !(entry_e bs values row c cs k _ Ec So). reflexivity.
Qed.

Definition in_block (bs : Structure) (e p : nat) : Prop := (position (col bs e) <= p < position (col bs e) + size (col bs e))%nat.
Lemma in_block_disjoint bs e e' p : laid_out 0 (cols bs) -> (e < num_cols bs)%nat -> (e' < num_cols bs)%nat -> in_block bs e p -> in_block bs e' p -> e = e'.
Proof.
  intros L H H' A B. unfold in_block, col in *. assert (e < e' \/ e = e' \/ e' < e)%nat as [Q|[Q|Q]] by lia; [| exact Q |].
  - pose proof (laid_mono 0 (cols bs) e e' (mkBlock 0 0) L ltac:(unfold num_cols in *; lia)). lia.
  - pose proof (laid_mono 0 (cols bs) e' e (mkBlock 0 0) L ltac:(unfold num_cols in *; lia)). lia.
Qed.

Section Back.
Variables (invert : bool -> nat -> matrix -> matrix) (nelim : nat) (full : bool) (bs : Structure) (values b : nat -> R) (D : option (nat -> R)).
Variables (st : Eliminator) (gs : list (nat * list Row)) (tail : list Row) (zz : nat) (z : nat -> R).
Hypothesis Inv : inverts invert.
Hypothesis LC : laid_out 0 (cols bs).
Hypothesis LR : laid_out 0 (map block (rows bs)).
Hypothesis Nn : (nelim <= num_cols bs)%nat.
Hypothesis Ini : initialised nelim full bs st gs tail zz.

Definition target (e i : nat) : R := sumn (size (col bs e)) (fun a => inverse_of invert full bs values D e i a * (gradient bs values b e a - times_z bs values nelim z (rows bs) e a)).
Lemma times_z_group e rs i : In (e, rs) gs -> times_z bs values nelim z (rows bs) e i = times_z bs values nelim z rs e i.
Proof.
  intro I. unfold times_z. apply sumn_ext. intros f _. apply sumn_ext. intros j _.
  rewrite (NN_group bs values nelim gs tail (ini_rows _ _ _ _ _ _ _ Ini) (ini_nodup _ _ _ _ _ _ _ Ini) (hg_weak _ _ _ _ _ _ _ Ini) (ht_weak _ _ _ _ _ _ _ Ini) e rs _ _ _ I). reflexivity.
Qed.
Lemma back_chunk e rs c y : In (e, rs) gs -> chunk_rows bs c = rs -> (forall i, (i < size (col bs e))%nat -> y (position (col bs e) + i)%nat = 0) ->
  exists y', BackSubstituteChunk invert st bs values b D z y c = Some y' /\
    (forall i, (i < size (col bs e))%nat -> y' (position (col bs e) + i)%nat = target e i) /\ (forall p, ~ in_block bs e p -> y' p = y p).
Proof.
  intros I Ec Hy. destruct (ini_groups _ _ _ _ _ _ _ Ini e rs I) as [He [Nr Hr]]. pose proof (ini_nelim _ _ _ _ _ _ _ Ini) as En.
  unfold BackSubstituteChunk. rewrite Ec. destruct rs as [|row0 rs0] eqn:Ers; [contradiction|]. rewrite <- Ers in *.
  destruct (Hr row0 ltac:(rewrite Ers; left; reflexivity)) as [[c0 [cs0 [Ec0 [Ei0 _]]]] _]. rewrite Ec0, Ei0.
  destruct (back_rows st bs values b z e rs) with (yb := fun i => y (position (col bs e) + i)%nat) (m := diagonal D (position (col bs e))) as [yb' [m' [E [A B]]]].
  { rewrite En. apply (ini_lays _ _ _ _ _ _ _ Ini). }
  { rewrite En. exact He. }
  { rewrite En. exact Hr. }
  rewrite E, En in *. eexists. split; [reflexivity|]. split.
  - intros i Hi. destruct (Nat.leb_spec (position (col bs e)) (position (col bs e) + i)); [|lia]. destruct (Nat.ltb_spec (position (col bs e) + i) (position (col bs e) + size (col bs e))); [|lia]. cbn [andb].
    replace (position (col bs e) + i - position (col bs e))%nat with i by lia. unfold mv, target. apply sumn_ext. intros a Ha. f_equal.
    + rewrite (ini_full _ _ _ _ _ _ _ Ini). apply (inv_matrix invert Inv); [|exact Hi|exact Ha]. intros i0 j0 _ _. rewrite B.
      exact (ete_normal bs values D nelim gs tail (ini_rows _ _ _ _ _ _ _ Ini) (ini_nodup _ _ _ _ _ _ _ Ini) (hg_weak _ _ _ _ _ _ _ Ini) (ht_weak _ _ _ _ _ _ _ Ini) e rs i0 j0 I).
    + rewrite A, (Hy a Ha), gradient_GG, (times_z_group e rs a I).
      rewrite (GG_group bs values nelim gs tail (ini_rows _ _ _ _ _ _ _ Ini) (ini_nodup _ _ _ _ _ _ _ Ini) (hg_weak _ _ _ _ _ _ _ Ini) (ht_weak _ _ _ _ _ _ _ Ini) b e rs _ I). lra.
  - intros p Hp. unfold in_block in Hp. destruct (Nat.leb_spec (position (col bs e)) p); [|reflexivity]. destruct (Nat.ltb_spec p (position (col bs e) + size (col bs e))); [lia|reflexivity].
Qed.
Lemma back_list (l : list (nat * list Row * Chunk)) : forall y,
  (forall e rs c, In (e, rs, c) l -> In (e, rs) gs /\ chunk_rows bs c = rs) -> NoDup (map (fun t => fst (fst t)) l) ->
  (forall e rs c i, In (e, rs, c) l -> (i < size (col bs e))%nat -> y (position (col bs e) + i)%nat = 0) ->
  exists y', BackSubstitute invert st bs values b D z (map snd l) y = Some y' /\
    (forall e rs c i, In (e, rs, c) l -> (i < size (col bs e))%nat -> y' (position (col bs e) + i)%nat = target e i) /\
    (forall p, (forall e rs c, In (e, rs, c) l -> ~ in_block bs e p) -> y' p = y p).
Proof.
  induction l as [|[[e rs] c] l IH]; intros y Hl Nd Hy.
  - exists y. split; [reflexivity|]. split; [intros ? ? ? ? []|reflexivity].
  - cbn [map fst snd] in Nd |- *. apply NoDup_cons_iff in Nd. destruct Nd as [Ne Nd]. destruct (Hl e rs c (or_introl eq_refl)) as [I Ec].
    destruct (back_chunk e rs c y I Ec (fun i Hi => Hy e rs c i (or_introl eq_refl) Hi)) as [y1 [E1 [A1 B1]]].
    assert (forall e' rs' c', In (e', rs', c') l -> (e' < nelim)%nat /\ e' <> e) as Hne.
    { intros e' rs' c' I'. split; [apply (hg_weak _ _ _ _ _ _ _ Ini e' rs'); apply (Hl e' rs' c'); right; exact I'|]. intros ->. apply Ne. apply (in_map (fun t => fst (fst t))) in I'. exact I'. }
    pose proof (proj1 (hg_weak _ _ _ _ _ _ _ Ini e rs I)) as He.
    destruct (IH y1) as [y' [E2 [A2 B2]]].
    { intros e' rs' c' I'. apply Hl. right. exact I'. }
    { exact Nd. }
    { intros e' rs' c' i I' Hi. rewrite B1; [apply (Hy e' rs' c' i (or_intror I') Hi)|]. intro Q. destruct (Hne e' rs' c' I') as [L' N']. apply N'. apply (in_block_disjoint bs e' e (position (col bs e') + i) LC); [lia|lia| |exact Q]. unfold in_block. lia. }
    exists y'. cbn [BackSubstitute]. rewrite E1. split; [exact E2|]. split.
    + intros e' rs' c' i [Q|I'] Hi.
      * injection Q as <- <- <-. rewrite B2; [apply A1; exact Hi|]. intros e2 rs2 c2 I2 Q. destruct (Hne e2 rs2 c2 I2) as [L2 N2]. apply N2. apply (in_block_disjoint bs e2 e (position (col bs e) + i) LC); [lia|lia|exact Q|]. unfold in_block. lia.
      * apply (A2 e' rs' c' i I' Hi).
    + intros p Hp. rewrite B2; [apply B1; apply (Hp e rs c (or_introl eq_refl))|]. intros e' rs' c' I'. apply (Hp e' rs' c' (or_intror I')).
Qed.
Lemma chunk_triples : forall gs' r cs pre post, chunks_of bs zz r gs' cs -> rows bs = pre ++ concat (map snd gs') ++ post -> length pre = r ->
  exists l, map fst l = gs' /\ map snd l = cs /\ forall e rs c, In (e, rs, c) l -> In (e, rs) gs' /\ chunk_rows bs c = rs.
Proof.
  induction gs' as [|[e rs] gs' IH]; intros r cs pre post H E P.
  - inversion H; subst. exists []. split; [reflexivity|]. split; [reflexivity|]. intros ? ? ? [].
  - inversion H as [|r0 e0 rs0 gs0 layout cs0 sz Lo Sz Keys C]; subst. cbn [map snd concat] in E.
    destruct (IH (length pre + length rs)%nat cs0 (pre ++ rs) post C) as [l [M1 [M2 M3]]].
    { rewrite E, !app_assoc. reflexivity. }
    { apply app_length. }
    exists ((e, rs, mkChunk (length pre) (length rs) layout) :: l). split; [cbn; rewrite M1; reflexivity|]. split; [cbn; rewrite M2; reflexivity|].
    intros e' rs' c' [Q|I].
    + injection Q as <- <- <-. split; [left; reflexivity|]. apply (chunk_rows_at bs _ _ layout pre rs (concat (map snd gs') ++ post)); [rewrite E, <- app_assoc; reflexivity|reflexivity|reflexivity].
    + destruct (M3 e' rs' c' I) as [A B]. split; [right; exact A|exact B].
Qed.
Lemma back_all order y : Permutation order (chunks st) -> (forall p, (p < total (firstn nelim (cols bs)))%nat -> y p = 0) ->
  exists x, BackSubstitute invert st bs values b D z order y = Some x /\
    (forall e rs i, In (e, rs) gs -> (i < size (col bs e))%nat -> x (position (col bs e) + i)%nat = target e i) /\
    (forall e i, (e < num_cols bs)%nat -> ~ In e (map fst gs) -> (i < size (col bs e))%nat -> x (position (col bs e) + i)%nat = y (position (col bs e) + i)%nat).
Proof.
  intros Pm Hy. destruct (chunk_triples gs 0%nat (chunks st) [] tail (ini_chunks _ _ _ _ _ _ _ Ini) (ini_rows _ _ _ _ _ _ _ Ini) eq_refl) as [l [M1 [M2 M3]]].
  rewrite <- M2 in Pm. apply Permutation_map_inv in Pm. destruct Pm as [l' [Eo Pl]]. subst order.
  assert (forall e rs, In (e, rs) gs -> exists c, In (e, rs, c) l') as Hin.
  { intros e rs I. rewrite <- M1 in I. apply in_map_iff in I. destruct I as [[[e' rs'] c] [Q I]]. cbn in Q. injection Q as -> ->. exists c. apply (Permutation_in _ Pl). exact I. }
  destruct (back_list l' y) as [x [E [A B]]].
  { intros e rs c I. apply M3. apply (Permutation_in _ (Permutation_sym Pl)). exact I. }
  { apply (Permutation_NoDup (Permutation_map (fun t => fst (fst t)) Pl)). rewrite <- (map_map fst fst). rewrite M1. apply (ini_nodup _ _ _ _ _ _ _ Ini). }
  { intros e rs c i I Hi. apply Hy. apply block_before; [exact LC| |exact Hi]. split; [|exact Nn]. apply (hg_weak _ _ _ _ _ _ _ Ini e rs). apply (M3 e rs c). apply (Permutation_in _ (Permutation_sym Pl)). exact I. }
  exists x. split; [exact E|]. split.
  - intros e rs i I Hi. destruct (Hin e rs I) as [c Ic]. apply (A e rs c i Ic Hi).
  - intros e i He N Hi. apply B. intros e' rs' c' I' Q. apply N. assert (In (e', rs') gs) as I2 by (apply (M3 e' rs' c'); apply (Permutation_in _ (Permutation_sym Pl)); exact I').
    assert (e = e') as ->; [|apply (in_map fst) in I2; exact I2]. apply (in_block_disjoint bs e e' (position (col bs e) + i) LC); [exact He| | |exact Q]; [|unfold in_block; lia]. pose proof (proj1 (hg_weak _ _ _ _ _ _ _ Ini e' rs' I2)). lia.
Qed.
End Back.
