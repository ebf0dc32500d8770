(* C82: the partitioned view. *)
From Coq Require Import Reals List Arith Bool Lia Lra Permutation.
From Verif Require Import SchurModel BlockSparseModel BlockSparseSpec BlockSparseProofs BlockSparseProofs2 GpuModel GpuSpec GpuProofs GpuProofs2 GpuProofs3 GpuProofs4 GpuProofs5 GpuProofs6.
Import ListNotations.
Close Scope R_scope. Open Scope nat_scope.

Lemma filter_all {A} (f : A -> bool) l : (forall x, In x l -> f x = true) -> filter f l = l.
Proof. induction l as [|x l IH]; intros H; [reflexivity|]. cbn [filter]. rewrite (H x (or_introl eq_refl)), IH by (intros; apply H; now right). reflexivity. Qed.
Lemma filter_no {A} (f : A -> bool) l : (forall x, In x l -> f x = false) -> filter f l = [].
Proof. induction l as [|x l IH]; intros H; [reflexivity|]. cbn [filter]. rewrite (H x (or_introl eq_refl)), IH by (intros; apply H; now right). reflexivity. Qed.
Lemma flat_map_ext_in' {A B} (f g : A -> list B) l : (forall x, In x l -> f x = g x) -> flat_map f l = flat_map g l.
Proof. induction l as [|x l IH]; intros H; [reflexivity|]. cbn [flat_map]. rewrite (H x (or_introl eq_refl)), IH by (intros; apply H; now right). reflexivity. Qed.
Lemma flat_map_map' {A B C} (h : A -> B) (f : B -> list C) l : flat_map f (map h l) = flat_map (fun x => f (h x)) l.
Proof. induction l as [|x l IH]; [reflexivity|]. cbn [map flat_map]. now rewrite IH. Qed.
Lemma fit2 row : cells row <> [] -> fit 2 row = fit 1 (without row).
Proof. unfold fit, without. cbn [cells block]. destruct (cells row) as [|c cs]; [congruence|]. intros _. cbn [tl length]. reflexivity. Qed.
Lemma forallb_map' {A B} (h : A -> B) f l : forallb f (map h l) = forallb (fun x => f (h x)) l.
Proof. induction l as [|x l IH]; [reflexivity|]. cbn [map forallb]. now rewrite IH. Qed.
Lemma forallb_ext' {A} (f g : A -> bool) l : (forall x, In x l -> f x = g x) -> forallb f l = forallb g l.
Proof. induction l as [|x l IH]; intros H; [reflexivity|]. cbn [forallb]. rewrite (H x (or_introl eq_refl)), IH by (intros; apply H; now right). reflexivity. Qed.

Section Split.
Variables (nelim : nat) (bs : Structure) (es fs : list Row).
Let bl := cols bs.
Hypotheses (V : valid bs) (NC : nelim <= length bl) (ER : rows bs = es ++ fs).
Hypothesis HE : forall row, In row es -> exists c cs, cells row = c :: cs /\ block_id c < nelim /\ forall c', In c' cs -> nelim <= block_id c'.
Hypothesis HF : forall row, In row fs -> cells row <> [] /\ forall c, In c (cells row) -> nelim <= block_id c.
Let frs := map without es ++ fs.
Let ers := map only es ++ map none fs.
Lemma e_row row : In row es -> filter (fun c => block_id c <? nelim) (cells row) = firstn 1 (cells row) /\ filter (fun c => negb (block_id c <? nelim)) (cells row) = tl (cells row).
Proof.
  intros H. destruct (HE row H) as [c [cs [E [C1 C2]]]]. rewrite E. cbn [filter firstn tl]. destruct (Nat.ltb_spec (block_id c) nelim); [|lia]. cbn [negb]. split.
  - f_equal. apply filter_no. intros x X. apply Nat.ltb_ge. auto.
  - apply filter_all. intros x X. apply negb_true_iff, Nat.ltb_ge. auto.
Qed.
Lemma f_row row : In row fs -> filter (fun c => block_id c <? nelim) (cells row) = [] /\ filter (fun c => negb (block_id c <? nelim)) (cells row) = cells row.
Proof.
  intros H. destruct (HF row H) as [_ C]. split; [apply filter_no|apply filter_all]; intros x X; [apply Nat.ltb_ge|apply negb_true_iff, Nat.ltb_ge]; auto.
Qed.
Lemma e_ext : e_extents nelim bs = ext bl ers.
Proof.
  unfold e_extents, extents_of, ext, ers. rewrite ER, !flat_map_app, !flat_map_map'. f_equal; apply flat_map_ext_in'; intros row H; [rewrite (proj1 (e_row row H))|rewrite (proj1 (f_row row H))]; reflexivity.
Qed.
Lemma f_ext : f_extents nelim bs = ext bl frs.
Proof.
  unfold f_extents, extents_of, ext, frs. rewrite ER, !flat_map_app, !flat_map_map'. f_equal; apply flat_map_ext_in'; intros row H; [rewrite (proj2 (e_row row H))|rewrite (proj2 (f_row row H))]; reflexivity.
Qed.
Lemma rooms_none l : rooms bl (map none l) = 0.
Proof. induction l as [|x l IH]; [reflexivity|]. cbn [map rooms]. rewrite IH. unfold room, none. cbn. lia. Qed.
Lemma ers_rooms : rooms bl ers = rooms bl (map only es).
Proof. unfold ers. rewrite rooms_app, rooms_none. lia. Qed.
Lemma area_parts : area bs = rooms bl ers + rooms bl frs.
Proof.
  rewrite area_rooms, ER, ers_rooms. unfold frs. fold bl. rewrite !rooms_app. assert (X : rooms bl es = rooms bl (map only es) + rooms bl (map without es)); [|lia].
  clear. induction es as [|r l IH]; [reflexivity|]. cbn [map rooms]. rewrite IH. unfold room, only, without. cbn [cells block]. destruct (cells r) as [|c cs]; cbn [firstn tl widths]; lia.
Qed.
Lemma order_frs : in_order nelim bs <-> forall row, In row frs -> size (block row) <= 1 \/ length (cells row) <= 1.
Proof.
  unfold in_order, frs. rewrite ER. split; intros H row I; apply in_app_iff in I.
  - destruct I as [I|I]; [apply in_map_iff in I; destruct I as [r [<- I]]|].
    + destruct (H r ltac:(apply in_app_iff; auto)) as [X|X]; [left; exact X|right]. rewrite (proj2 (e_row r I)) in X. exact X.
    + destruct (H row ltac:(apply in_app_iff; auto)) as [X|X]; [left; exact X|right]. rewrite (proj2 (f_row row I)) in X. exact X.
  - destruct I as [I|I].
    + rewrite (proj2 (e_row row I)). apply (H (without row)). apply in_app_iff. left. now apply in_map.
    + rewrite (proj2 (f_row row I)). apply H. apply in_app_iff. auto.
Qed.
Lemma compat_frs : forallb (fit 2) es && forallb (fit 1) fs = forallb (fit 1) frs.
Proof. unfold frs. rewrite forallb_app, forallb_map'. f_equal. apply forallb_ext'. intros row H. apply fit2. destruct (HE row H) as [c [cs [-> _]]]. discriminate. Qed.

(* columns *)
Lemma e_col k : k < nelim -> position (nth k bl (mkBlock 0 0)) + size (nth k bl (mkBlock 0 0)) <= e_columns nelim bs.
Proof. intros K. unfold e_columns. fold bl. rewrite (laid_pos bl (mkBlock 0 0) 0 k (v_cols bs V)) by lia. generalize (total_S bl (mkBlock 0 0) k ltac:(lia)) (total_mono bl (S k) nelim ltac:(lia)). lia. Qed.
Lemma f_col k : nelim <= k -> k < length bl -> e_columns nelim bs <= position (nth k bl (mkBlock 0 0)) /\ position (nth k bl (mkBlock 0 0)) + size (nth k bl (mkBlock 0 0)) <= e_columns nelim bs + f_columns nelim bs.
Proof.
  intros K B. unfold e_columns, f_columns. fold bl. rewrite (laid_pos bl (mkBlock 0 0) 0 k (v_cols bs V)) by lia. rewrite <- total_split. generalize (total_S bl (mkBlock 0 0) k B) (total_mono bl nelim k K) (total_split (S k) bl). lia.
Qed.
Lemma ids_row row c : In row (rows bs) -> In c (cells row) -> block_id c < length bl.
Proof. intros R I. exact (proj2 (v_cells bs V row R) c I). Qed.
Lemma dense_e W p q : q < e_columns nelim bs -> dense (mkStructure bl ers) W p (0 + q) = dense bs W p q.
Proof.
  intros Q. cbn [Nat.add]. unfold dense. cbn [rows]. rewrite ER. unfold ers. rewrite !suml_app, !suml_map. cbn [only none cells block].
  f_equal; apply suml_ext; intros row R.
  - destruct (HE row R) as [c [cs [E [C1 C2]]]]. rewrite E. cbn [firstn suml]. f_equal. symmetry. apply suml_zero. intros x X.
    assert (B : block_id x < length bl) by (apply (ids_row row); [rewrite ER; apply in_app_iff; auto|rewrite E; now right]). destruct (holds (col bs (block_id x)) q) eqn:HQ; [|now rewrite andb_false_r]. apply holds_spec in HQ. unfold within, col in HQ. fold bl in HQ. destruct (f_col (block_id x) (C2 x X) B). exfalso. lia.
  - cbn [suml]. symmetry. apply suml_zero. intros x X. assert (B : block_id x < length bl) by (apply (ids_row row); [rewrite ER; apply in_app_iff; auto|auto]).
    destruct (holds (col bs (block_id x)) q) eqn:HQ; [|now rewrite andb_false_r]. apply holds_spec in HQ. unfold within, col in HQ. fold bl in HQ. destruct (f_col (block_id x) (proj2 (HF row R) x X) B). exfalso. lia.
Qed.
Lemma dense_f W p q : dense (mkStructure bl frs) W p (e_columns nelim bs + q) = F_of nelim bs W p q.
Proof.
  unfold F_of, dense. cbn [rows]. rewrite ER. unfold frs. rewrite !suml_app, !suml_map. cbn [without cells block]. f_equal. apply suml_ext. intros row R.
  destruct (HE row R) as [c [cs [E [C1 C2]]]]. rewrite E. cbn [tl suml]. destruct (holds (col bs (block_id c)) (e_columns nelim bs + q)) eqn:HQ; [|rewrite andb_false_r; change (cols bs) with bl; symmetry; apply Rplus_0_l].
  apply holds_spec in HQ. unfold within, col in HQ. fold bl in HQ. generalize (e_col (block_id c) C1). intros X. exfalso. lia.
Qed.
Lemma in_ers row c : In row ers -> In c (cells row) -> 0 <= position (nth (block_id c) bl (mkBlock 0 0)) /\ position (nth (block_id c) bl (mkBlock 0 0)) + cw bl c <= 0 + e_columns nelim bs.
Proof.
  intros R I. split; [lia|]. unfold ers in R. apply in_app_iff in R. destruct R as [R|R]; apply in_map_iff in R; destruct R as [r [<- R]]; [|destruct I]. destruct (HE r R) as [c' [cs [E [C1 C2]]]]. unfold only in I. cbn [cells] in I. rewrite E in I. cbn in I. destruct I as [<-|[]]. exact (e_col _ C1).
Qed.
Lemma in_frs row c : In row frs -> In c (cells row) -> e_columns nelim bs <= position (nth (block_id c) bl (mkBlock 0 0)) /\ position (nth (block_id c) bl (mkBlock 0 0)) + cw bl c <= e_columns nelim bs + f_columns nelim bs.
Proof.
  intros R I. unfold frs in R. apply in_app_iff in R. destruct R as [R|R].
  - apply in_map_iff in R. destruct R as [r [<- R]]. destruct (HE r R) as [c' [cs [E [C1 C2]]]]. unfold without in I. cbn [cells] in I. rewrite E in I. cbn [tl] in I. apply f_col; [auto|]. apply (ids_row r); [rewrite ER; apply in_app_iff; auto|rewrite E; now right].
  - apply f_col; [now apply (HF row R)|]. apply (ids_row row); [rewrite ER; apply in_app_iff; auto|auto].
Qed.
Lemma shift_ok : position (nth nelim bl (mkBlock 0 0)) = e_columns nelim bs \/ forall row, In row frs -> cells row = [].
Proof.
  destruct (lt_dec nelim (length bl)) as [B|B].
  - left. unfold e_columns. fold bl. apply (laid_pos bl (mkBlock 0 0) 0 nelim (v_cols bs V) B).
  - right. intros row R. destruct (cells row) as [|c cs] eqn:E; [reflexivity|]. exfalso. unfold frs in R. apply in_app_iff in R. destruct R as [R|R].
    + apply in_map_iff in R. destruct R as [r [<- R]]. destruct (HE r R) as [c' [cs' [E' [C1 C2]]]]. unfold without in E. cbn [cells] in E. rewrite E' in E. cbn [tl] in E. subst cs'. specialize (C2 c (or_introl eq_refl)). assert (block_id c < length bl) by (apply (ids_row r); [rewrite ER; apply in_app_iff; auto|rewrite E'; right; now left]). lia.
    + assert (C := proj2 (HF row R) c ltac:(rewrite E; now left)). assert (block_id c < length bl) by (apply (ids_row row); [rewrite ER; apply in_app_iff; auto|rewrite E; now left]). lia.
Qed.
Lemma crs_shift m : crs_ok bl frs (position (nth nelim bl (mkBlock 0 0))) m -> crs_ok bl frs (e_columns nelim bs) m.
Proof.
  destruct shift_ok as [->|N]; [auto|]. intros [A [B [C _]]]. split; [auto|]. split; [auto|]. split; [auto|]. intros k i pre c post j K I E _. rewrite (N _ (nth_In frs dr K)) in E. now destruct pre.
Qed.
Lemma gap_ok : ~ gap nelim bs -> fs = [] \/ es = [] \/ exists es' row, es = es' ++ [row] /\ 2 <= length (cells row).
Proof.
  intros NG. destruct fs as [|r2 l2] eqn:EF; [auto|]. destruct es as [|r0 l0] using rev_ind; [auto|]. right. right. exists l0, r0. split; [reflexivity|]. destruct (le_dec 2 (length (cells r0))) as [B|B]; [auto|]. exfalso. apply NG. exists l0, r0, r2, l2.
  split; [rewrite ER, <- app_assoc; reflexivity|]. destruct (HE r0) as [c [cs [E [C1 C2]]]]; [apply in_app_iff; right; now left|]. destruct (HF r2 (or_introl eq_refl)) as [D1 D2]. rewrite E in B. cbn [length] in B. destruct cs; [|cbn [length] in B; lia].
  split; [|split; auto]. intros x X. rewrite E in X. destruct X as [<-|[]]. auto.
Qed.

Variables (per n : nat).
Hypotheses (ST : stored_partitioned nelim bs) (NG : ~ gap nelim bs) (PER : 0 < per) (N : n = area bs).
Let ne := count (e_extents nelim bs).
Lemma ne_rooms : ne = rooms bl ers. Proof. unfold ne. rewrite e_ext. apply count_rows. Qed.
Lemma placed_f : all_placed bl ne frs.
Proof. apply seq_rows. rewrite <- f_ext. apply ST. Qed.
Lemma placed_e : all_placed bl 0 ers.
Proof. apply seq_rows. rewrite <- e_ext. apply ST. Qed.
Lemma part_flat : exists F, Flatten nelim bs = Done F /\ f_first F = firsts 0 (es ++ fs) ++ [length (flat_map cells (es ++ fs))] /\ f_cells F = flat_map cells (es ++ fs) /\ f_rows F = map block (es ++ fs) /\ f_cols F = bl /\
  f_offsets F = begins bl ne frs ++ [ne + rooms bl frs] /\ f_nnz_e F = ne /\ f_row_blocks_e F = length es /\ f_compatible F = forallb (fit 1) frs.
Proof.
  assert (EN : rooms (cols bs) (map only es) = ne) by (rewrite ne_rooms, ers_rooms; reflexivity).
  assert (AP : all_placed (cols bs) (rooms (cols bs) (map only es)) (map without es ++ fs)) by (rewrite EN; apply placed_f).
  assert (SE : forall row, In row es -> starts_in nelim row = true) by (intros row R; destruct (HE row R) as [c [cs [E [C1 _]]]]; unfold starts_in; rewrite E; now apply Nat.ltb_lt).
  assert (SF : forall row, In row fs -> starts_in nelim row = false /\ cells row <> []) by (intros row R; destruct (HF row R) as [C1 C2]; split; [unfold starts_in; destruct (cells row) as [|c cs]; [reflexivity|apply Nat.ltb_ge, C2; now left]|auto]).
  rewrite (flatten_ok nelim bs es fs ER SE SF AP (gap_ok NG)). eexists. split; [reflexivity|]. cbn [f_first f_cells f_rows f_cols f_offsets f_nnz_e f_row_blocks_e f_compatible]. rewrite EN, ER, compat_frs. auto 10.
Qed.
Theorem part_ok F : Flatten nelim bs = Done F -> forall fr, Fill true (f_row_blocks_e F) nelim (height bs) F fr -> exists e f, fr = Some (e, f) /\
  forall values old_e old_f result, UpdatePartitioned F f per n values old_e old_f result -> exists ve vf, result = Some (ve, vf) /\
    represents (height bs) (e_columns nelim bs) ne e ve (E_of bs values) /\
    (in_order nelim bs -> represents (height bs) (f_columns nelim bs) (count (f_extents nelim bs)) f vf (F_of nelim bs values)) /\
    (~ in_order nelim bs -> represents (height bs) (f_columns nelim bs) (count (f_extents nelim bs)) f vf (F_of nelim bs (fun p => values (p - ne)))).
Proof.
  intros FL fr H. destruct part_flat as [F' [FL' [H1 [H2 [H3 [H4 [H5 [H6 [H7 H8]]]]]]]]]. rewrite FL in FL'. injection FL' as <-.
  assert (LO : laid_out 0 (map block (es ++ fs))) by (rewrite <- ER; apply (v_rows bs V)).
  assert (NE : forall row, In row es -> cells row <> []) by (intros row R; destruct (HE row R) as [c [cs [-> _]]]; discriminate).
  assert (TF : total (map block frs) = height bs) by (unfold frs, height; rewrite ER, !map_app, map_map; reflexivity).
  assert (TE : total (map block ers) = height bs) by (unfold ers, height; rewrite ER, !map_app, !map_map; reflexivity).
  assert (LF : laid_out 0 (map block frs)) by (unfold frs; rewrite map_app, map_map; rewrite map_app in LO; exact LO).
  assert (LE : laid_out 0 (map block ers)) by (unfold ers; rewrite map_app, !map_map; rewrite map_app in LO; exact LO).
  assert (HH : height bs = total (map block (es ++ fs))) by (unfold height; now rewrite ER).
  rewrite H7, HH in H. destruct (fill_ok bl es fs true F H1 H2 H3 H4 ltac:(discriminate) NE LO nelim fr H) as [e [f [-> [CF CE]]]]. specialize (CE eq_refl). fold frs in CF. fold ers in CE. apply crs_shift in CF.
  exists e, f. split; [reflexivity|]. intros values old_e old_f result U.
  assert (RE : represents (height bs) (e_columns nelim bs) ne e (copied ne values old_e) (E_of bs values)).
  { assert (RP := represent_ok bl ers 0 (e_columns nelim bs) e values (copied ne values old_e) CE LE in_ers). rewrite TE, <- ne_rooms in RP. destruct RP as [R1 [R2 [R3 [R4 R5]]]].
    - intros k i pre c post j PL. unfold copied. assert (B := address_bound _ _ _ _ _ _ _ _ PL). rewrite <- ne_rooms in B. destruct (Nat.ltb_spec (address bl ers k i pre j) ne); [|lia]. f_equal. rewrite <- (in_order_ok bl 0 ers k i pre c post j placed_e); [reflexivity| |exact PL].
      intros row R. right. unfold ers in R. apply in_app_iff in R. destruct R as [R|R]; apply in_map_iff in R; destruct R as [r [<- R]]; cbn; [|lia]. destruct (cells r) as [|x [|y l]]; cbn; lia.
    - split; [auto|]. split; [auto|]. split; [auto|]. split; [auto|]. intros p q P Q. rewrite (R5 p q P Q). unfold E_of. apply dense_e. auto. }
  assert (RF : forall W vf, (forall k i pre c post j, place bl frs k i pre c post j -> vf (address bl frs k i pre j) = W (cell_position c + i * cw bl c + j)) -> represents (height bs) (f_columns nelim bs) (count (f_extents nelim bs)) f vf (F_of nelim bs W)).
  { intros W vf NEW. assert (RP := represent_ok bl frs (e_columns nelim bs) (f_columns nelim bs) f W vf CF LF in_frs NEW). rewrite TF in RP. rewrite f_ext, count_rows. destruct RP as [R1 [R2 [R3 [R4 R5]]]]. split; [auto|]. split; [auto|]. split; [auto|]. split; [auto|]. intros p q P Q. rewrite (R5 p q P Q). apply dense_f. }
  assert (CMP : f_compatible F = true <-> in_order nelim bs).
  { rewrite H8, forallb_forall, order_frs. split; intros X row R; apply fit1; auto. }
  unfold UpdatePartitioned in U. rewrite H6 in U. destruct (f_compatible F) eqn:FC.
  - eexists _, _. split; [exact U|]. split; [exact RE|]. split; [|intros X; exfalso; apply X, CMP; reflexivity]. intros IO. apply RF. intros k i pre c post j PL. unfold copied. assert (B := address_bound _ _ _ _ _ _ _ _ PL).
    rewrite N, area_parts, <- ne_rooms. destruct (Nat.ltb_spec (address bl frs k i pre j) (ne + rooms bl frs - ne)); [|lia]. f_equal. apply (in_order_ok bl ne frs k i pre c post j placed_f); [now apply order_frs|exact PL].
  - rewrite H7 in U. destruct (permute_ok bl es fs true F ne (c_rows f) H1 H2 H3 H4 ltac:(discriminate) NE placed_f) with (per := per) (n := n) (from := values) as [ws [PW [WS NEW]]]; auto.
    + intros i I. rewrite H5. apply begins_nth. unfold frs. rewrite app_length, map_length. rewrite app_length in I. exact I.
    + exact (proj1 CF).
    + rewrite N, area_parts. fold frs. lia.
    + intros Z. rewrite N. unfold area, extents. rewrite ER. destruct (es ++ fs); [reflexivity|discriminate].
    + rewrite PW in U. destruct U as [new [LA ->]]. exists (copied ne values old_e), new. split; [reflexivity|]. split; [exact RE|]. split; [intros X; apply CMP in X; discriminate|]. intros _. apply RF. intros k i pre c post j PL. exact (NEW _ _ LA k i pre c post j PL).
Qed.
End Split.
