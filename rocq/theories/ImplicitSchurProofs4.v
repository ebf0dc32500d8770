(* The products of the view, and the inverses of the block diagonals. *)
From Coq Require Import Reals ZArith List Arith Bool Lia Lra.
From Verif Require Import SchurModel SchurProofs BlockSparseModel BlockSparseSpec BlockSparseProofs BlockSparseProofs2 BlockSparseProofs7 BlockSparseProofs8 CGModel CGSpec CGProofs
  ImplicitSchurModel ImplicitSchurSpec ImplicitSchurProofs ImplicitSchurProofs2 ImplicitSchurProofs3.
Import ListNotations.
Open Scope R_scope.

Lemma layout_id bl : forall p, laid_out p bl -> DiagonalLayout p bl = bl.
Proof. induction bl as [|b bl IH]; intros p L; [reflexivity|]. destruct L as [E L]. cbn. rewrite (IH _ L). f_equal. destruct b as [s q]. cbn in *. subst q. reflexivity. Qed.
Lemma laid_first p bl n : laid_out p bl -> laid_out p (firstn n bl).
Proof. revert p n. induction bl as [|b bl IH]; intros p n L; [rewrite firstn_nil; exact I|]. destruct n; [exact I|]. destruct L as [E L]. cbn. split; [exact E|]. apply IH. exact L. Qed.
Lemma laid_rest p bl n : laid_out p bl -> laid_out (p + total (firstn n bl)) (skipn n bl).
Proof.
  revert p n. induction bl as [|b bl IH]; intros p n L; [rewrite skipn_nil; exact I|]. destruct n; [cbn [firstn skipn]; unfold total; cbn; rewrite Nat.add_0_r; exact L|]. destruct L as [E L]. cbn [firstn skipn].
  specialize (IH (p + size b)%nat n L). unfold total in *. cbn [fold_right]. rewrite Nat.add_assoc. exact IH.
Qed.
Lemma single_cells (sel : nat -> bool) (cs : list Cell) (f g : Cell -> R) : (length (filter (fun c => sel (block_id c)) cs) <= 1)%nat ->
  (forall c, In c cs -> sel (block_id c) = false -> f c = 0) -> (forall c, In c cs -> sel (block_id c) = false -> g c = 0) -> (forall c, In c cs -> f c * g c = 0) -> suml cs f * suml cs g = 0.
Proof.
  intros Len F G P. assert (forall h : Cell -> R, (forall c, In c cs -> sel (block_id c) = false -> h c = 0) -> suml cs h = suml (filter (fun c => sel (block_id c)) cs) h) as E.
  { intros h Z. rewrite suml_filter. apply suml_ext. intros c Hc. destruct (sel (block_id c)) eqn:S; [reflexivity|]. apply Z; assumption. }
  rewrite (E f F), (E g G). destruct (filter (fun c => sel (block_id c)) cs) as [|c [|c' l]] eqn:Q; [cbn; ring| |cbn in Len; lia].
  cbn [suml]. rewrite !Rplus_0_r. apply P. assert (In c (filter (fun c => sel (block_id c)) cs)) as X by (rewrite Q; left; reflexivity). apply filter_In in X. apply X.
Qed.
Lemma columns_apart bs values (sel : nat -> bool) p i j : valid bs ->
  (forall row, In row (rows bs) -> (length (filter (fun c => sel (block_id c)) (cells row)) <= 1)%nat) ->
  (forall k, (k < length (cols bs))%nat -> holds (col bs k) i = true -> sel k = true) -> (forall k, (k < length (cols bs))%nat -> holds (col bs k) j = true -> sel k = true) ->
  (forall k, (k < length (cols bs))%nat -> holds (col bs k) i = true -> holds (col bs k) j = true -> False) -> dense bs values p i * dense bs values p j = 0.
Proof.
  intros V One Si Sj Ap. rewrite (dense_product bs values V). apply suml_zero. intros row Hr. apply (single_cells sel); [apply One; exact Hr| | |].
  - intros c Hc S. unfold cell_entry. destruct (holds (col bs (block_id c)) i) eqn:E; [|rewrite andb_false_r; reflexivity]. rewrite (Si _ (ids bs V row c Hr Hc) E) in S. discriminate.
  - intros c Hc S. unfold cell_entry. destruct (holds (col bs (block_id c)) j) eqn:E; [|rewrite andb_false_r; reflexivity]. rewrite (Sj _ (ids bs V row c Hr Hc) E) in S. discriminate.
  - intros c Hc. unfold cell_entry. destruct (holds (col bs (block_id c)) i) eqn:E; [|rewrite andb_false_r; ring]. destruct (holds (col bs (block_id c)) j) eqn:E'; [|rewrite andb_false_r; ring]. exfalso. exact (Ap _ (ids bs V row c Hr Hc) E E').
Qed.
Lemma partitioned_one nelim bs : partitioned nelim bs -> forall row, In row (rows bs) -> (length (filter (fun c => (block_id c <? nelim)%nat) (cells row)) <= 1)%nat.
Proof.
  intros [_ [es [fs [E [He Hf]]]]] row Hr. rewrite E in Hr. apply in_app_or in Hr. destruct Hr as [Hr|Hr].
  - destruct (He row Hr) as [c [cs [-> [_ Hcs]]]]. cbn [filter]. rewrite (filter_none (fun c => (block_id c <? nelim)%nat) cs); [destruct (_ <? _)%nat; cbn; lia|]. intros c' Hc'. apply Nat.ltb_ge. apply Hcs. exact Hc'.
  - destruct (Hf row Hr) as [_ Hc]. rewrite filter_none; [cbn; lia|]. intros c' Hc'. apply Nat.ltb_ge. apply Hc. exact Hc'.
Qed.

Section VIEW.
Variables (t : Threads) (llt : nat -> matrix -> matrix) (nelim : nat) (a : BlockSparse) (D : option vec) (b : vec).
Hypotheses (T : scheduled t) (I : inverts llt) (V : valid (structure a)) (TR : transposed a = CreateTranspose (structure a)) (Pt : partitioned nelim (structure a)).
Let bs := structure a.
Let ne := e_columns nelim bs.
Let nf := f_columns nelim bs.
Let h := height bs.
Let v := view_of t nelim a.
Let H := normal a D.
Let eb := firstn nelim (cols bs).
Let fb := DiagonalLayout 0 (skipn nelim (cols bs)).
Lemma view_right_e x y p : right_e v x y p = y p + sumn ne (fun q => entries a p q * x q).
Proof. destruct (proj1 T nelim a) as [R _]. unfold v. rewrite (parallel_sum _ _ _ p (R x y)), (right_e_sum nelim (structure a) (values a) V Pt). reflexivity. Qed.
Lemma view_right_f x y p : right_f v x y p = y p + sumn nf (fun q => entries a p (ne + q)%nat * x q).
Proof. destruct (proj1 T nelim a) as [_ [R _]]. destruct (R x y) as [y1 [R1 R2]]. unfold v. rewrite (parallel_sum _ _ _ p R2), (parallel_sum _ _ _ p R1), Rplus_assoc, (right_f_sum nelim (structure a) (values a) V Pt). reflexivity. Qed.
Lemma view_left_e x y q : left_e v x y q = if (q <? ne)%nat then y q + sumn h (fun p => entries a p q * x p) else y q.
Proof.
  destruct (proj1 T nelim a) as [_ [_ [R _]]]. destruct (R x y) as [E|P].
  - unfold v. rewrite E, serial_sum, (left_e_sum nelim (structure a) (values a) V Pt). unfold ne, bs. destruct (_ <? _)%nat; [reflexivity|ring].
  - rewrite TR in P. unfold v. rewrite (parallel_sum _ _ _ q P), (left_e_transpose_sum nelim (structure a) (values a) V Pt). unfold ne, bs. destruct (_ <? _)%nat; [reflexivity|ring].
Qed.
Lemma view_left_f x y q : left_f v x y q = y q + sumn h (fun p => entries a p (ne + q)%nat * x p).
Proof.
  destruct (proj1 T nelim a) as [_ [_ [_ [R _]]]]. destruct (R x y) as [E|P].
  - unfold v. rewrite E, serial_sum, (left_f_sum nelim (structure a) (values a) V Pt). reflexivity.
  - rewrite TR in P. unfold v. rewrite (parallel_sum _ _ _ q P), (left_f_transpose_sum nelim (structure a) (values a) V Pt). reflexivity.
Qed.
Lemma view_ete k i j : (k < nelim)%nat -> (i < size (col bs k))%nat -> (j < size (col bs k))%nat ->
  ete v k i j = sumn h (fun p => entries a p (position (col bs k) + i)%nat * entries a p (position (col bs k) + j)%nat).
Proof.
  intros Hk Hi Hj. pose proof (pt_nelim _ _ Pt) as Pn. destruct (proj1 T nelim a) as [_ [_ [_ [_ [R _]]]]]. unfold v. destruct (R k) as [-> | ->].
  - exact (diagonal_e_sum (structure a) (values a) V nelim Pt k i j Hk Hi Hj).
  - rewrite TR. exact (diagonal_transpose_sum (structure a) (values a) V k i j ltac:(lia) Hi Hj).
Qed.
Lemma view_ftf k i j : (nelim + k < length (cols bs))%nat -> (i < size (col bs (nelim + k)))%nat -> (j < size (col bs (nelim + k)))%nat ->
  ftf v k i j = sumn h (fun p => entries a p (position (col bs (nelim + k)) + i)%nat * entries a p (position (col bs (nelim + k)) + j)%nat).
Proof.
  intros Hk Hi Hj. destruct (proj1 T nelim a) as [_ [_ [_ [_ [_ R]]]]]. unfold v. destruct (R k) as [-> | ->].
  - unfold bs in *. rewrite (diagonal_f_sum (structure a) (values a) V nelim Pt k i j Hk Hi Hj). unfold F_of. destruct (f_col nelim (structure a) V (nelim + k) ltac:(lia)) as [F1 _]. unfold entries.
    replace (e_columns nelim (structure a) + (position (col (structure a) (nelim + k)) - e_columns nelim (structure a) + i))%nat with (position (col (structure a) (nelim + k)) + i)%nat by lia.
    replace (e_columns nelim (structure a) + (position (col (structure a) (nelim + k)) - e_columns nelim (structure a) + j))%nat with (position (col (structure a) (nelim + k)) + j)%nat by lia. reflexivity.
  - rewrite TR. exact (diagonal_transpose_sum (structure a) (values a) V (nelim + k) i j Hk Hi Hj).
Qed.

Lemma weight_nonneg i : 0 <= weight D i. Proof. unfold weight. destruct D; [apply Rle_0_sqr|lra]. Qed.
Lemma normal_symmetric n : symmetric n H. Proof. exact (gram_symmetric h (entries a) (weight D) n). Qed.
Lemma eb_laid : laid_out 0 eb. Proof. apply laid_first. exact (v_cols _ V). Qed.
Lemma fb_laid : laid_out 0 fb. Proof. apply layout_laid. Qed.
Lemma fb_total : total fb = nf. Proof. apply layout_total. Qed.
Lemma eb_length : length eb = nelim. Proof. unfold eb. apply firstn_length_le. apply (pt_nelim _ _ Pt). Qed.
Lemma eb_kth k : (k < nelim)%nat -> kth eb k = col bs k.
Proof. intro Hk. unfold kth, eb, col. apply (nth_first nelim bs). exact Hk. Qed.
Lemma fb_length : length fb = (length (cols bs) - nelim)%nat. Proof. unfold fb. rewrite layout_length. apply skipn_length. Qed.
Lemma fb_size k : size (kth fb k) = size (col bs (nelim + k)).
Proof. unfold fb. rewrite layout_size. unfold kth. rewrite nth_last. reflexivity. Qed.
Lemma fb_position k : (k < length fb)%nat -> (ne + position (kth fb k) = position (col bs (nelim + k)))%nat.
Proof.
  intro Hk. unfold fb in *. rewrite layout_length in Hk. pose proof (laid_rest 0 (cols bs) nelim (v_cols _ V)) as L.
  pose proof (layout_position _ 0 _ k L Hk) as P. unfold kth at 2 in P. rewrite nth_last in P. unfold ne, e_columns. unfold nob in P. unfold col. lia.
Qed.

(* E'E + De'De is block diagonal *)
Lemma lead_blocks i j : (i < ne)%nat -> (j < ne)%nat -> block_diagonal eb H i j = H i j.
Proof.
  intros Hi Hj. unfold block_diagonal. destruct (together eb i j) eqn:E; [reflexivity|]. symmetry.
  destruct (kth_find eb eb_laid i Hi) as [k [Hk Ki]]. rewrite (together_in eb i j k eb_laid Hk Ki) in E. rewrite eb_length in Hk. rewrite (eb_kth k Hk) in *.
  assert (i <> j) as Nij by (intros <-; rewrite Ki in E; discriminate). unfold H, normal. destruct (Nat.eqb_spec i j) as [X|X]; [contradiction|]. rewrite Rplus_0_r. apply sumn_zero. intros p _.
  assert (forall q k', (q < ne)%nat -> (k' < length (cols bs))%nat -> holds (col bs k') q = true -> (k' <? nelim)%nat = true) as Sel.
  { intros q k' Hq Hk' Hh. apply Nat.ltb_lt. destruct (le_lt_dec nelim k') as [G|G]; [exfalso|exact G]. destruct (f_col nelim (structure a) V k' ltac:(unfold bs in *; lia)) as [F _]. apply holds_spec in Hh. unfold within in Hh. unfold ne, bs in *. lia. }
  pose proof (pt_nelim _ _ Pt) as Pn. apply (columns_apart _ _ (fun k => (k <? nelim)%nat) p i j V (partitioned_one nelim _ Pt)); [intros; apply (Sel i); assumption|intros; apply (Sel j); assumption|].
  intros k' Hk' Ai Aj. destruct (Nat.eq_dec k' k) as [->|N]; [unfold bs in *; congruence|]. exact (col_holds _ k' k i V Hk' ltac:(lia) N Ai Ki).
Qed.
Definition Einv : nat -> matrix := AddDiagonalAndInvert llt (DiagonalLayout 0 eb) D (ete v).
Definition Cmat : matrix := blockmat (DiagonalLayout 0 eb) Einv.
Lemma lead_inverse : definite ne H -> inverse_of ne H Cmat.
Proof.
  intro P. unfold Cmat, Einv. rewrite (layout_id eb 0 eb_laid). apply (inverse_ext ne (block_diagonal eb H)); [apply lead_blocks|]. apply invert_blocks; [exact I|exact eb_laid|exact (normal_symmetric ne)| |].
  - apply (definite_ext ne H); [intros; symmetry; apply lead_blocks; assumption|exact P].
  - intros k i j Hk Hi Hj. rewrite eb_length in Hk. unfold subblock. rewrite (eb_kth k Hk) in *. rewrite (view_ete k i j Hk Hi Hj). unfold H, normal, weight. fold bs h. f_equal.
    destruct (Nat.eqb_spec i j) as [->|N]; [rewrite Nat.eqb_refl; destruct D; reflexivity|]. destruct (Nat.eqb_spec (position (col bs k) + i) (position (col bs k) + j)); [lia|]. destruct D; reflexivity.
Qed.
Lemma times_e x y p : block_times t (DiagonalLayout 0 eb) Einv x y p = y p + sumn ne (fun q => Cmat p q * x q).
Proof. destruct T as [_ [B _]]. rewrite (diagonal_times _ (layout_laid _ 0) _ _ _ _ (B (DiagonalLayout 0 eb) Einv x y) p). rewrite layout_total. reflexivity. Qed.
(* the blocks of F'F + Df'Df *)
Definition Finv : nat -> matrix := AddDiagonalAndInvert llt fb (option_map (fun d => shift d ne) D) (ftf v).
Definition Vmat : matrix := blockmat fb Finv.
Lemma f_inverse : definite nf (block_diagonal (skipn nelim (cols bs)) (corner ne H)) -> inverse_of nf (block_diagonal (skipn nelim (cols bs)) (corner ne H)) Vmat.
Proof.
  assert (forall i j, block_diagonal (skipn nelim (cols bs)) (corner ne H) i j = block_diagonal fb (corner ne H) i j) as E by (intros; unfold block_diagonal, fb; rewrite layout_together; reflexivity).
  intro P. unfold Vmat, Finv. apply (inverse_ext nf (block_diagonal fb (corner ne H))); [intros; symmetry; apply E|]. rewrite <- fb_total. apply invert_blocks; [exact I|exact fb_laid| | |].
  - intros i j Hi Hj. apply (normal_symmetric (ne + nf)); rewrite fb_total in *; lia.
  - rewrite fb_total. apply (definite_ext nf (block_diagonal (skipn nelim (cols bs)) (corner ne H))); [intros; apply E|exact P].
  - intros k i j Hk Hi Hj. rewrite fb_size in Hi, Hj. pose proof (fb_position k Hk) as Pk. assert (nelim + k < length (cols bs))%nat as Hk' by (rewrite fb_length in Hk; lia).
    rewrite (view_ftf k i j Hk' Hi Hj). unfold subblock, corner. rewrite !Nat.add_assoc, Pk. unfold H, normal, weight. fold bs h. f_equal. unfold option_map, shift.
    destruct (Nat.eqb_spec i j) as [->|N]; [rewrite Nat.eqb_refl; destruct D; [rewrite !Nat.add_assoc, Pk; reflexivity|reflexivity]|]. destruct (Nat.eqb_spec (position (col bs (nelim + k)) + i) (position (col bs (nelim + k)) + j)); [lia|]. destruct D; reflexivity.
Qed.
Lemma times_f x y p : block_times t fb Finv x y p = y p + sumn nf (fun q => Vmat p q * x q).
Proof. destruct T as [_ [B _]]. rewrite (diagonal_times _ fb_laid _ _ _ _ (B fb Finv x y) p). rewrite fb_total. reflexivity. Qed.
(* with one f block in every row F'F is block diagonal *)
Lemma f_blocks_all : one_f nelim bs -> forall i j, (i < nf)%nat -> (j < nf)%nat -> block_diagonal (skipn nelim (cols bs)) (corner ne H) i j = corner ne H i j.
Proof.
  intros One i j Hi Hj. unfold block_diagonal. rewrite <- (layout_together _ 0). fold fb. destruct (together fb i j) eqn:E; [reflexivity|]. symmetry.
  destruct (kth_find fb fb_laid i ltac:(rewrite fb_total; exact Hi)) as [k [Hk Ki]]. rewrite (together_in fb i j k fb_laid Hk Ki) in E. pose proof (fb_position k Hk) as Pk. pose proof (fb_size k) as Sk. pose proof Hk as Hk'. rewrite fb_length in Hk'.
  assert (i <> j) as Nij by (intros <-; rewrite Ki in E; discriminate). unfold corner, H, normal. destruct (Nat.eqb_spec (ne + i) (ne + j)) as [X|X]; [lia|]. rewrite Rplus_0_r. apply sumn_zero. intros p _.
  assert (forall q k', (k' < length (cols bs))%nat -> holds (col bs k') (ne + q) = true -> negb (k' <? nelim)%nat = true) as Sel.
  { intros q k' Hk0 Hh. apply negb_true_iff. apply Nat.ltb_ge. destruct (le_lt_dec nelim k') as [G|G]; [exact G|exfalso]. pose proof (e_col nelim (structure a) V Pt k' G) as F. apply holds_spec in Hh. unfold within in Hh. unfold ne, bs in *. lia. }
  apply holds_spec in Ki. unfold within in Ki.
  apply (columns_apart _ _ (fun k => negb (k <? nelim)%nat) p (ne + i) (ne + j) V One); [intros; apply (Sel i); assumption|intros; apply (Sel j); assumption|].
  assert (holds (col bs (nelim + k)) (ne + i) = true) as Kc by (apply holds_spec; unfold within; lia).
  intros k' Hk0 Ai Aj. destruct (Nat.eq_dec k' (nelim + k)) as [->|N]; [|exact (col_holds _ k' (nelim + k)%nat (ne + i) V Hk0 ltac:(unfold bs in *; lia) N Ai Kc)].
  assert (holds (kth fb k) j = true) as Y; [|congruence]. apply holds_spec. unfold within. apply holds_spec in Aj. unfold within in Aj. unfold bs in *. lia.
Qed.
End VIEW.
