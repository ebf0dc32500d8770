(* race freedom, column scaling *)
From Coq Require Import Reals List Arith Bool Lia Lra Permutation.
From Verif Require Import SchurModel SchurProofs BlockSparseModel BlockSparseSpec BlockSparseProofs BlockSparseProofs2.
Import ListNotations.
Open Scope R_scope.

(* every task writes to its own block *)
Definition keyed (tasks : list (list Update)) (bl : list Block) : Prop := Forall2 (fun t b => forall u, In u t -> u_pos u = position b /\ u_len u = size b) tasks bl.
Lemma keyed_race tasks bl p0 : keyed tasks bl -> laid_out p0 bl -> race_free tasks.
Proof.
  intros K L l1 t l2 t' l3 u v E Hu Hv [p [Pu Pv]]. subst tasks.
  apply Forall2_app_inv_l in K. destruct K as [b1 [r1 [K1 [K2 ->]]]]. inversion K2 as [|? b ? r2 Kt K3]; subst. apply Forall2_app_inv_l in K3. destruct K3 as [b2 [r3 [K4 [K5 ->]]]]. inversion K5 as [|? b' ? r4 Kt' K6]; subst.
  destruct (Kt u Hu) as [E1 E2]. destruct (Kt' v Hv) as [E3 E4]. rewrite E1, E2 in Pu. rewrite E3, E4 in Pv.
  apply (laid_holds p0 (b1 ++ b :: b2 ++ b' :: r4) (length b1) (length b1 + S (length b2)) (mkBlock 0 0) p L).
  - rewrite app_length. cbn [length]. rewrite app_length. cbn [length]. lia.
  - rewrite app_nth2, Nat.sub_diag by lia. exact Pu.
  - rewrite app_nth2 by lia. replace (length b1 + S (length b2) - length b1)%nat with (S (length b2)) by lia. cbn [nth]. rewrite app_nth2, Nat.sub_diag by lia. exact Pv.
Qed.
Lemma keyed_map {A} (f : A -> list Update) (g : A -> Block) l : (forall a u, In a l -> In u (f a) -> u_pos u = position (g a) /\ u_len u = size (g a)) -> keyed (map f l) (map g l).
Proof. induction l as [|a l IH]; intro H; constructor; [intros u Hu; apply H; [left; reflexivity|exact Hu]|apply IH; intros b u Hb Hu; apply H; [right; exact Hb|exact Hu]]. Qed.
Lemma transpose_blocks bs : map block (rows (CreateTranspose bs)) = cols bs.
Proof. rewrite transpose_rows. unfold trows. rewrite map_map. cbn [block]. rewrite (map_nth_seq (fun b => b)), map_id. reflexivity. Qed.
Lemma right_race bs values x : valid bs -> race_free (RightTasks bs values x).
Proof.
  intro V. apply (keyed_race _ (map block (rows bs)) 0); [|exact (v_rows _ V)]. apply keyed_map. intros row u _ Hu. apply in_map_iff in Hu. destruct Hu as [c [<- _]]. split; reflexivity.
Qed.
Lemma left_race bs values x : valid bs -> race_free (LeftTransposeTasks (CreateTranspose bs) values x).
Proof.
  intro V. apply (keyed_race _ (map block (rows (CreateTranspose bs))) 0); [|rewrite transpose_blocks; exact (v_cols _ V)]. apply keyed_map. intros row u _ Hu. apply in_map_iff in Hu. destruct Hu as [c [<- _]]. split; reflexivity.
Qed.
Lemma norm_race bs values : valid bs -> race_free (NormTransposeTasks (CreateTranspose bs) values).
Proof.
  intro V. apply (keyed_race _ (map block (rows (CreateTranspose bs))) 0); [|rewrite transpose_blocks; exact (v_cols _ V)]. apply keyed_map. intros row u _ Hu. apply in_map_iff in Hu. destruct Hu as [c [<- _]]. split; reflexivity.
Qed.

(* ---------------- the cells of the transpose are a permutation ---------------- *)
Lemma insert_key {A} (x : A) k0 (F : nat -> list A) : forall n a, (a <= k0 < a + n)%nat ->
  Permutation (flat_map (fun k => if (k0 =? k)%nat then x :: F k else F k) (seq a n)) (x :: flat_map F (seq a n)).
Proof.
  induction n as [|n IH]; intros a H; [lia|]. cbn [seq flat_map]. destruct (Nat.eqb_spec k0 a) as [->|N].
  - cbn [app]. apply perm_skip. apply Permutation_app_head. rewrite !flat_map_concat_map. erewrite map_ext_in; [apply Permutation_refl|]. intros k Hk. apply in_seq in Hk. cbn beta. destruct (Nat.eqb_spec a k); [lia|reflexivity].
  - etransitivity; [apply Permutation_app_head; apply IH; lia|]. symmetry. apply Permutation_middle.
Qed.
Lemma by_key {A} (key : A -> nat) n (l : list A) : (forall x, In x l -> (key x < n)%nat) -> Permutation (flat_map (fun k => filter (fun x => (key x =? k)%nat) l) (seq 0 n)) l.
Proof.
  induction l as [|x l IH]; intro H.
  - induction (seq 0 n); [constructor|assumption].
  - cbn [filter]. etransitivity; [apply (insert_key x (key x) (fun k => filter (fun x => (key x =? k)%nat) l) n 0)|].
    + specialize (H x (or_introl eq_refl)). lia.
    + apply perm_skip. apply IH. intros y Hy. apply H. right. exact Hy.
Qed.
Lemma map_flat {A B C} (f : B -> C) (g : A -> list B) l : map f (flat_map g l) = flat_map (fun a => map f (g a)) l.
Proof. induction l as [|a l IH]; [reflexivity|]. cbn. rewrite map_app, IH. reflexivity. Qed.
Lemma flat_ext {A B} (f g : A -> list B) l : (forall a, In a l -> f a = g a) -> flat_map f l = flat_map g l.
Proof. intro H. induction l as [|a l IH]; [reflexivity|]. cbn. rewrite H by (left; reflexivity). rewrite IH; [reflexivity|]. intros b Hb. apply H. right. exact Hb. Qed.
Lemma occurrences_list {A} (f : nat -> Cell -> A) (g : Row -> Cell -> A) full rs : forall i pre, full = pre ++ rs -> length pre = i -> (forall j row c, nth_error full j = Some row -> f j c = g row c) ->
  map (fun p => f (fst p) (snd p)) (occurrences i rs) = flat_map (fun row => map (g row) (cells row)) rs.
Proof.
  induction rs as [|row rs IH]; intros i pre E L H; [reflexivity|]. cbn [occurrences flat_map]. rewrite map_app, map_map. cbn [fst snd]. f_equal.
  - apply map_ext. intro c. apply H. subst full i. rewrite nth_error_app2, Nat.sub_diag by lia. reflexivity.
  - apply (IH (S i) (pre ++ [row])); [rewrite <- app_assoc; exact E|rewrite app_length; cbn; lia|exact H].
Qed.
Lemma transpose_perm {A} bs (G : Block -> Block -> nat -> A) : (forall row c, In row (rows bs) -> In c (cells row) -> (block_id c < length (cols bs))%nat) ->
  Permutation (flat_map (fun r => map (fun c => G (block r) (col (CreateTranspose bs) (block_id c)) (cell_position c)) (cells r)) (rows (CreateTranspose bs)))
              (flat_map (fun row => map (fun c => G (col bs (block_id c)) (block row) (cell_position c)) (cells row)) (rows bs)).
Proof.
  intro V. set (h := fun p : nat * Cell => G (col bs (block_id (snd p))) (nth (fst p) (map block (rows bs)) (mkBlock 0 0)) (cell_position (snd p))).
  replace (flat_map (fun r => map (fun c => G (block r) (col (CreateTranspose bs) (block_id c)) (cell_position c)) (cells r)) (rows (CreateTranspose bs)))
    with (map h (flat_map (fun k => filter (fun p => (block_id (snd p) =? k)%nat) (occurrences 0 (rows bs))) (seq 0 (length (cols bs))))).
  - rewrite <- (occurrences_list (fun i c => h (i, c)) (fun row c => G (col bs (block_id c)) (block row) (cell_position c)) (rows bs) (rows bs) 0 [] eq_refl eq_refl).
    + apply Permutation_trans with (map h (occurrences 0 (rows bs))).
      * apply Permutation_map. apply by_key. intros p Hp. destruct (occurrence_row _ _ _ Hp) as [row [_ [H2 [_ H4]]]]. exact (V row _ H4 H2).
      * apply Permutation_refl'. apply map_ext. intros [i c]. reflexivity.
    + intros j row c E. unfold h. cbn [fst snd]. rewrite (nth_indep _ _ (block row)) by (rewrite map_length; apply nth_error_Some; congruence). rewrite map_nth, (nth_error_nth _ _ _ E). reflexivity.
  - rewrite map_flat. rewrite (transpose_rows bs). unfold trows. rewrite flat_map_concat_map, (flat_map_concat_map _ (map _ _)), map_map. cbn [block cells]. f_equal. apply map_ext. intro k. unfold tcells. rewrite map_map. apply map_ext_in. intros p Hp. apply filter_In in Hp. destruct Hp as [_ Hp]. apply Nat.eqb_eq in Hp. unfold h, col. cbn [block_id cell_position]. rewrite Hp. reflexivity.
Qed.

(* ---------------- scaling ---------------- *)
Fixpoint prodl {A} (l : list A) (f : A -> R) : R := match l with [] => 1 | x :: l' => f x * prodl l' f end.
Lemma prodl_perm {A} (l l' : list A) f : Permutation l l' -> prodl l f = prodl l' f.
Proof. induction 1; cbn; try congruence. - ring. Qed.
Definition factor (scale : vec) (s : Scaling) (a : nat) : R := if inside (s_pos s) (s_rows s * s_cols s) a then scale (s_col s + (a - s_pos s) mod s_cols s)%nat else 1.
Lemma rescale_prod scale ss : forall v a, fold_left (rescale scale) ss v a = v a * prodl ss (fun s => factor scale s a).
Proof.
  induction ss as [|s ss IH]; intros v a; [cbn; ring|]. cbn [fold_left prodl]. rewrite IH. unfold rescale, scale_cell, factor at 2. destruct (inside _ _ a); ring.
Qed.
Lemma prodl_one {A} (l : list A) f : (forall x, In x l -> f x = 1) -> prodl l f = 1.
Proof. induction l as [|x l IH]; intro H; [reflexivity|]. cbn. rewrite H by (left; reflexivity). rewrite IH by (intros; apply H; right; assumption). ring. Qed.
Lemma prodl_app {A} (l1 l2 : list A) f : prodl (l1 ++ l2) f = prodl l1 f * prodl l2 f.
Proof. induction l1 as [|x l IH]; cbn; [ring|]. rewrite IH. ring. Qed.
Lemma apart_sym r r' : apart r r' -> apart r' r. Proof. unfold apart. tauto. Qed.
Lemma apart_outside s s' a : apart (extent_of s) (extent_of s') -> inside (s_pos s) (s_rows s * s_cols s) a = true -> inside (s_pos s') (s_rows s' * s_cols s') a = false.
Proof.
  unfold apart, extent_of. cbn [fst snd]. intros H H1. apply inside_spec in H1. destruct (inside (s_pos s') _ a) eqn:E; [|reflexivity]. apply inside_spec in E. lia.
Qed.
Lemma fop_split {A} (P : A -> A -> Prop) l1 x l2 : (forall a b, P a b -> P b a) -> ForallOrdPairs P (l1 ++ x :: l2) -> forall y, In y l1 \/ In y l2 -> P x y.
Proof.
  intros Sym. induction l1 as [|a l1 IH]; intros H y Hy; inversion H as [|? ? H1 H2]; subst.
  - destruct Hy as [[]|Hy]. rewrite Forall_forall in H1. exact (H1 y Hy).
  - destruct Hy as [[->|Hy]|Hy]; [|apply IH; [exact H2|left; exact Hy]|apply IH; [exact H2|right; exact Hy]].
    apply Sym. rewrite Forall_forall in H1. apply H1. apply in_or_app. right. left. reflexivity.
Qed.
Lemma fop_perm {A} (P : A -> A -> Prop) l l' : (forall a b, P a b -> P b a) -> Permutation l l' -> ForallOrdPairs P l -> ForallOrdPairs P l'.
Proof.
  intros Sym H. induction H as [|x l l' H IH|x y l|l l' l'' _ IH1 _ IH2]; intro F; [exact F| | |apply IH2, IH1; exact F].
  - inversion F as [|? ? F1 F2]; subst. constructor; [|apply IH; exact F2]. eapply Permutation_Forall; [exact H|exact F1].
  - inversion F as [|? ? F1 F2]; subst. inversion F2 as [|? ? F3 F4]; subst. inversion F1 as [|? ? F5 F6]; subst. constructor; [constructor; [apply Sym; exact F5|exact F3]|constructor; [exact F6|exact F4]].
Qed.
Lemma fop_map {A B} (f : A -> B) (P : B -> B -> Prop) l : ForallOrdPairs P (map f l) <-> ForallOrdPairs (fun a b => P (f a) (f b)) l.
Proof.
  induction l as [|a l IH]; [split; constructor|]. cbn. split; intro H; inversion H as [|? ? H1 H2]; subst; constructor.
  - rewrite Forall_map in H1. exact H1.
  - apply IH. exact H2.
  - rewrite Forall_map. exact H1.
  - apply IH. exact H2.
Qed.
Definition scalings (bs : Structure) : list Scaling := concat (ScaleTasks bs).
Lemma scalings_flat bs : scalings bs = flat_map (fun row => map (fun c => mkScaling (cell_position c) (size (block row)) (size (col bs (block_id c))) (position (col bs (block_id c)))) (cells row)) (rows bs).
Proof. unfold scalings, ScaleTasks. rewrite flat_map_concat_map. reflexivity. Qed.
Lemma scalings_extents bs : map extent_of (scalings bs) = extents bs.
Proof. rewrite scalings_flat, map_flat. unfold extents. apply flat_ext. intros row _. rewrite map_map. reflexivity. Qed.
Lemma scalings_apart bs : disjoint bs -> ForallOrdPairs (fun s s' => apart (extent_of s) (extent_of s')) (scalings bs).
Proof. intro D. unfold disjoint in D. rewrite <- scalings_extents in D. exact (proj1 (fop_map extent_of apart (scalings bs)) D). Qed.
Lemma scale_transpose_perm bs : valid bs -> Permutation (concat (ScaleTransposeTasks (CreateTranspose bs))) (scalings bs).
Proof.
  intro V. rewrite scalings_flat. unfold ScaleTransposeTasks. rewrite <- flat_map_concat_map.
  exact (transpose_perm bs (fun cb rb pos => mkScaling pos (size rb) (size cb) (position cb)) (ids bs V)).
Qed.
Lemma scaled_dense bs scale values values' ss : valid bs -> disjoint bs -> Permutation ss (scalings bs) -> (forall a, values' a = fold_left (rescale scale) ss values a) ->
  forall p q, dense bs values' p q = dense bs values p q * scale q.
Proof.
  intros V D P E p q. rewrite !dense_cells, <- suml_scal_r. apply suml_ext. intros row Hr. rewrite <- suml_scal_r. apply suml_ext. intros c Hc. unfold cell_entry.
  destruct (holds (block row) p) eqn:H1; [|cbn; ring]. destruct (holds (col bs (block_id c)) q) eqn:H2; [|cbn; ring]. cbn [andb].
  apply holds_spec in H1. apply holds_spec in H2. unfold within in *. set (w := size (col bs (block_id c))) in *.
  set (s := mkScaling (cell_position c) (size (block row)) w (position (col bs (block_id c)))).
  set (a := (cell_position c + (p - position (block row)) * w + (q - position (col bs (block_id c))))%nat).
  assert (inside (s_pos s) (s_rows s * s_cols s) a = true) as Ia.
  { apply inside_spec. change (cell_position c <= a < cell_position c + size (block row) * w)%nat. unfold a. clear - H1 H2. clearbody w. assert (p - position (block row) < size (block row))%nat as K1 by lia. assert (q - position (col bs (block_id c)) < w)%nat as K2 by lia. revert K1 K2. generalize (p - position (block row))%nat, (q - position (col bs (block_id c)))%nat. intros k j K1 K2. clear H1 H2. nia. }
  rewrite E, rescale_prod. f_equal. rewrite (prodl_perm _ _ _ P).
  assert (In s (scalings bs)) as Is.
  { rewrite scalings_flat. apply in_flat_map. exists row. split; [exact Hr|]. apply in_map_iff. exists c. split; [reflexivity|exact Hc]. }
  destruct (in_split _ _ Is) as [l1 [l2 El]]. pose proof (scalings_apart bs D) as F. rewrite El in F |- *.
  pose proof (fop_split _ l1 s l2 (fun a b => apart_sym _ _) F) as Fs. rewrite prodl_app. cbn [prodl].
  rewrite (prodl_one l1), (prodl_one l2).
  - unfold factor. rewrite Ia. change (s_col s) with (position (col bs (block_id c))). change (s_pos s) with (cell_position c). change (s_cols s) with w. assert (a - cell_position c = (q - position (col bs (block_id c))) + (p - position (block row)) * w)%nat as -> by (unfold a; generalize ((p - position (block row)) * w)%nat; intro; lia).
    rewrite Nat.mod_add by lia. rewrite Nat.mod_small by lia. rewrite Rmult_1_l, Rmult_1_r. f_equal. lia.
  - intros s' Hs'. unfold factor. rewrite (apart_outside s s' a (Fs s' (or_intror Hs')) Ia). reflexivity.
  - intros s' Hs'. unfold factor. rewrite (apart_outside s s' a (Fs s' (or_introl Hs')) Ia). reflexivity.
Qed.
Lemma scaled_rest bs scale values values' ss : Permutation ss (scalings bs) -> (forall a, values' a = fold_left (rescale scale) ss values a) ->
  forall a, (forall r, In r (extents bs) -> inside (fst r) (snd r) a = false) -> values' a = values a.
Proof.
  intros P E a H. rewrite E, rescale_prod, prodl_one; [ring|]. intros s Hs. unfold factor. pose proof (Permutation_in _ P Hs) as Hs'. apply (in_map extent_of) in Hs'. rewrite scalings_extents in Hs'. specialize (H _ Hs'). unfold extent_of in H. cbn [fst snd] in H. rewrite H. reflexivity.
Qed.
Lemma scale_race tasks bs : Permutation (concat tasks) (scalings bs) -> disjoint bs -> scale_race_free tasks.
Proof.
  intros P D l1 t l2 t' l3 s s' -> Hs Hs'. pose proof (fop_perm _ _ _ (fun a b => apart_sym _ _) (Permutation_sym P) (scalings_apart bs D)) as F.
  rewrite concat_app in F. cbn [concat] in F. rewrite concat_app in F. cbn [concat] in F. destruct (in_split _ _ Hs) as [u1 [u2 ->]].
  rewrite <- !app_assoc in F. cbn [app] in F. rewrite app_assoc in F. apply (fop_split _ _ s _ (fun a b => apart_sym _ _) F). right. rewrite !in_app_iff. tauto.
Qed.
