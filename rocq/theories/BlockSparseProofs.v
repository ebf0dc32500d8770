From Coq Require Import Reals List Arith Bool Lia Lra Permutation.
From Verif Require Import SchurModel SchurProofs BlockSparseModel BlockSparseSpec.
Import ListNotations.
Open Scope R_scope.

Lemma suml_same {A} (l : list A) f : SchurSpec.suml l f = suml l f. Proof. induction l as [|x l IH]; [reflexivity|]. cbn. rewrite IH. reflexivity. Qed.
Lemma suml_ext {A} (l : list A) f g : (forall x, In x l -> f x = g x) -> suml l f = suml l g.
Proof. rewrite <- !suml_same. apply suml_ext. Qed.
Lemma suml_zero {A} (l : list A) f : (forall x, In x l -> f x = 0) -> suml l f = 0.
Proof. rewrite <- suml_same. apply suml_zero. Qed.
Lemma suml_app {A} (l1 l2 : list A) f : suml (l1 ++ l2) f = suml l1 f + suml l2 f.
Proof. rewrite <- !suml_same. apply suml_app. Qed.
Lemma suml_perm {A} (l l' : list A) f : Permutation l l' -> suml l f = suml l' f.
Proof. rewrite <- !suml_same. apply suml_perm. Qed.
Lemma suml_map {A B} (h : A -> B) l f : suml (map h l) f = suml l (fun x => f (h x)).
Proof. rewrite <- !suml_same. apply suml_map. Qed.
Lemma suml_concat {A} (ls : list (list A)) f : suml (concat ls) f = suml ls (fun l => suml l f).
Proof. induction ls as [|l ls IH]; [reflexivity|]. cbn. rewrite suml_app, IH. reflexivity. Qed.
Lemma suml_flat {A B} (g : A -> list B) l f : suml (flat_map g l) f = suml l (fun x => suml (g x) f).
Proof. induction l as [|x l IH]; [reflexivity|]. cbn. rewrite suml_app, IH. reflexivity. Qed.
Lemma suml_scal_r {A} (l : list A) k f : suml l (fun x => f x * k) = suml l f * k.
Proof. induction l as [|x l IH]; cbn; [ring|]. rewrite IH. ring. Qed.
Lemma suml_plus {A} (l : list A) f g : suml l (fun x => f x + g x) = suml l f + suml l g.
Proof. induction l as [|x l IH]; cbn; [ring|]. rewrite IH. ring. Qed.
Lemma suml_sumn {A} (l : list A) n f : suml l (fun x => sumn n (f x)) = sumn n (fun i => suml l (fun x => f x i)).
Proof. induction l as [|x l IH]; cbn; [symmetry; apply sumn_zero; reflexivity|]. rewrite IH, <- sumn_plus. reflexivity. Qed.
Lemma suml_swap {A B} (l : list A) (l' : list B) f : suml l (fun x => suml l' (fun y => f x y)) = suml l' (fun y => suml l (fun x => f x y)).
Proof. induction l as [|x l IH]; cbn; [symmetry; apply suml_zero; reflexivity|]. rewrite IH, <- suml_plus. reflexivity. Qed.
Lemma suml_filter {A} (l : list A) g f : suml (filter g l) f = suml l (fun x => if g x then f x else 0).
Proof. induction l as [|x l IH]; [reflexivity|]. cbn. destruct (g x); cbn; rewrite IH; ring. Qed.
Lemma suml_seq_single n k (g : nat -> R) : (k < n)%nat -> suml (seq 0 n) (fun i => if (k =? i)%nat then g i else 0) = g k.
Proof.
  intro H. assert (forall a m, suml (seq a m) (fun i => if (k =? i)%nat then g i else 0) = if (a <=? k)%nat && (k <? a + m)%nat then g k else 0) as G.
  { intros a m; revert a; induction m as [|m IH]; intro a; cbn [seq suml].
    - destruct (Nat.leb_spec a k); destruct (Nat.ltb_spec k (a + 0)); cbn; lia || reflexivity.
    - rewrite IH. destruct (Nat.eqb_spec k a) as [->|].
      + destruct (Nat.leb_spec (S a) a); [lia|]. destruct (Nat.leb_spec a a); [|lia]. destruct (Nat.ltb_spec a (a + S m)); [|lia]. cbn. ring.
      + destruct (Nat.leb_spec (S a) k); destruct (Nat.leb_spec a k); destruct (Nat.ltb_spec k (S a + m)); destruct (Nat.ltb_spec k (a + S m)); cbn; try lia; ring. }
  rewrite G. destruct (Nat.ltb_spec k (0 + n)); [reflexivity|lia].
Qed.

(* ---------------- updates ---------------- *)
Definition part (u : Update) (p : nat) : R := if inside (u_pos u) (u_len u) p then u_val u (p - u_pos u)%nat else 0.
Lemma perform_sum us : forall y p, perform us y p = y p + suml us (fun u => part u p).
Proof.
  induction us as [|u us IH]; intros y p; [cbn; ring|]. change (perform (u :: us) y) with (perform us (add y u)). rewrite IH. cbn [suml]. unfold add, part at 2. destruct (inside _ _ _); ring.
Qed.
Lemma serial_sum tasks y p : Serial tasks y p = y p + suml tasks (fun t => suml t (fun u => part u p)).
Proof. unfold Serial. rewrite perform_sum, suml_concat. reflexivity. Qed.
Lemma parallel_sum tasks y y' p : Parallel tasks y y' -> y' p = y p + suml tasks (fun t => suml t (fun u => part u p)).
Proof.
  intros [us [I E]]. rewrite E, perform_sum, <- suml_concat. f_equal. apply suml_perm. apply interleaving_perm. exact I.
Qed.
Lemma inside_holds pos len p : inside pos len p = holds (mkBlock len pos) p. Proof. reflexivity. Qed.
Lemma inside_spec pos len p : inside pos len p = true <-> (pos <= p < pos + len)%nat.
Proof. unfold inside. rewrite andb_true_iff, Nat.leb_le, Nat.ltb_lt. reflexivity. Qed.
Lemma holds_spec b p : holds b p = true <-> within b p.
Proof. unfold holds, within. rewrite andb_true_iff, Nat.leb_le, Nat.ltb_lt. reflexivity. Qed.

(* sums over a block *)
Lemma sum_block n pos len (g : nat -> R) : (pos + len <= n)%nat -> sumn n (fun q => if inside pos len q then g q else 0) = sumn len (fun j => g (pos + j)%nat).
Proof.
  intro H. replace n with (pos + (len + (n - pos - len)))%nat by lia. rewrite !sumn_split.
  rewrite (sumn_zero pos), (sumn_zero (n - pos - len)), (sumn_ext len _ (fun j => g (pos + j)%nat)); [ring| | |];
    intros i Hi; destruct (inside _ _ _) eqn:E; try reflexivity; try apply inside_spec in E; try lia.
  exfalso. assert (inside pos len (pos + i) = true) by (apply inside_spec; lia). congruence.
Qed.
Lemma laid_bound p bl i d : laid_out p bl -> (i < length bl)%nat -> (position (nth i bl d) + size (nth i bl d) <= p + total bl)%nat.
Proof.
  revert p i. induction bl as [|b bl IH]; intros p i H Hi; [cbn in Hi; lia|]. destruct H as [H1 H2]. cbn [total fold_right]. fold (total bl). destruct i as [|i]; cbn [nth]; [lia|].
  specialize (IH (p + size b)%nat i H2 ltac:(cbn in Hi; lia)). lia.
Qed.
Lemma col_bound bs i : valid bs -> (i < length (cols bs))%nat -> (position (col bs i) + size (col bs i) <= breadth bs)%nat.
Proof. intros V H. exact (laid_bound 0 (cols bs) i _ (v_cols _ V) H). Qed.
Lemma row_bound bs row : valid bs -> In row (rows bs) -> (position (block row) + size (block row) <= height bs)%nat.
Proof.
  intros V H. destruct (In_nth (map block (rows bs)) (block row) (mkBlock 0 0) (in_map block _ _ H)) as [i [Hi E]]. pose proof (laid_bound 0 _ i (mkBlock 0 0) (v_rows _ V) Hi) as L. rewrite E in L. exact L.
Qed.

(* ---------------- the transposed structure ---------------- *)
Fixpoint occurrences (i : nat) (rs : list Row) : list (nat * Cell) :=
  match rs with [] => [] | r :: rs' => map (fun c => (i, c)) (cells r) ++ occurrences (S i) rs' end.
Definition tcells (k : nat) (l : list (nat * Cell)) : list Cell :=
  map (fun p => mkCell (fst p) (cell_position (snd p))) (filter (fun p => (block_id (snd p) =? k)%nat) l).
Lemma push_cell_map F : forall n a i c, push_cell (map F (seq a n)) i c = map (fun k => if (k =? a + i)%nat then mkRow (block (F k)) (cells (F k) ++ [c]) else F k) (seq a n).
Proof.
  induction n as [|n IH]; intros a i c; [reflexivity|]. cbn [seq map push_cell]. destruct i as [|i].
  - rewrite Nat.add_0_r, Nat.eqb_refl. f_equal. apply map_ext_in. intros k Hk. apply in_seq in Hk. destruct (Nat.eqb_spec k a); [lia|reflexivity].
  - rewrite IH. destruct (Nat.eqb_spec a (a + S i)); [lia|]. f_equal. apply map_ext. intro k. replace (S a + i)%nat with (a + S i)%nat by lia. reflexivity.
Qed.
Lemma tcells_app k l l' : tcells k (l ++ l') = tcells k l ++ tcells k l'.
Proof. unfold tcells. rewrite filter_app, map_app. reflexivity. Qed.
Definition trows (cs : list Block) (l : list (nat * Cell)) : list Row := map (fun k => mkRow (nth k cs (mkBlock 0 0)) (tcells k l)) (seq 0 (length cs)).
Lemma push_trows cs l i c : push_cell (trows cs l) (block_id c) (mkCell i (cell_position c)) = trows cs (l ++ [(i, c)]).
Proof.
  unfold trows. rewrite push_cell_map. apply map_ext. intro k. cbn [block cells]. rewrite tcells_app. unfold tcells at 2 4. cbn [filter snd]. rewrite Nat.add_0_l, (Nat.eqb_sym k).
  destruct (Nat.eqb_spec (block_id c) k); cbn [map]; [reflexivity|]. rewrite app_nil_r. reflexivity.
Qed.
Lemma push_row_trows cs i row : forall l, push_row (trows cs l) i row = trows cs (l ++ map (fun c => (i, c)) (cells row)).
Proof.
  unfold push_row. induction (cells row) as [|c ccs IH]; intro l; [cbn; rewrite app_nil_r; reflexivity|]. cbn [fold_left map]. rewrite push_trows, IH, <- app_assoc. reflexivity.
Qed.
Lemma push_rows_trows cs rs : forall i l, fst (fold_left (fun '(rs, i) row => (push_row rs i row, S i)) rs (trows cs l, i)) = trows cs (l ++ occurrences i rs).
Proof.
  induction rs as [|row rs IH]; intros i l; [cbn; rewrite app_nil_r; reflexivity|]. cbn [fold_left occurrences]. rewrite push_row_trows, IH, <- app_assoc. reflexivity.
Qed.
Lemma map_nth_seq {A B} (f : A -> B) (d : A) l : map (fun k => f (nth k l d)) (seq 0 (length l)) = map f l.
Proof.
  induction l as [|x l IH]; [reflexivity|]. cbn [length seq map]. f_equal. rewrite <- seq_shift, map_map, <- IH. reflexivity.
Qed.
Lemma transpose_rows bs : rows (CreateTranspose bs) = trows (cols bs) (occurrences 0 (rows bs)).
Proof.
  unfold CreateTranspose. cbn [rows]. replace (map (fun b => mkRow b []) (cols bs)) with (trows (cols bs) []); [apply push_rows_trows|].
  unfold trows, tcells. cbn [filter map]. apply (map_nth_seq (fun b => mkRow b [])).
Qed.
Lemma occurrence_row rs : forall i p, In p (occurrences i rs) -> exists row, nth_error rs (fst p - i) = Some row /\ In (snd p) (cells row) /\ (i <= fst p)%nat /\ In row rs.
Proof.
  induction rs as [|row rs IH]; intros i p H; [contradiction|]. cbn [occurrences] in H. apply in_app_or in H. destruct H as [H|H].
  - apply in_map_iff in H. destruct H as [c [<- H]]. exists row. cbn [fst snd]. rewrite Nat.sub_diag. split; [reflexivity|]. split; [exact H|]. split; [lia|left; reflexivity].
  - destruct (IH (S i) p H) as [r [H1 [H2 [H3 H4]]]]. exists r. replace (fst p - i)%nat with (S (fst p - S i)) by lia. split; [exact H1|]. split; [exact H2|]. split; [lia|right; exact H4].
Qed.
(* a sum over the rows and cells of the transpose is one over those of the matrix *)
Lemma occurrence_sum (G : nat -> Cell -> R) rs (d : Row) : forall i (pre : list Row), length pre = i -> suml (occurrences i rs) (fun p => G (fst p) (snd p)) = suml (combine (seq i (length rs)) rs) (fun p => suml (cells (snd p)) (G (fst p))).
Proof.
  induction rs as [|row rs IH]; intros i pre Hp; [reflexivity|]. cbn [occurrences length seq combine suml fst snd]. rewrite suml_app, suml_map. cbn [fst snd]. f_equal. apply (IH (S i) (d :: pre)). cbn. lia.
Qed.
Lemma indexed_sum {A} (G : nat -> A -> R) (l : list A) d : forall i full, (forall j, (j < length l)%nat -> nth (i + j) full d = nth j l d) -> suml (combine (seq i (length l)) l) (fun p => G (fst p) (snd p)) = suml (combine (seq i (length l)) l) (fun p => G (fst p) (nth (fst p) full d)).
Proof.
  induction l as [|x l IH]; intros i full H; [reflexivity|]. cbn [length seq combine suml fst snd]. f_equal.
  - specialize (H 0%nat ltac:(cbn; lia)). rewrite Nat.add_0_r in H. rewrite H. reflexivity.
  - apply IH. intros j Hj. specialize (H (S j) ltac:(cbn; lia)). cbn [nth] in H. rewrite <- H. f_equal. lia.
Qed.
Lemma suml_combine {A} (l : list A) (f : A -> R) : forall i, suml (combine (seq i (length l)) l) (fun p => f (snd p)) = suml l f.
Proof. induction l as [|x l IH]; intro i; [reflexivity|]. cbn [length seq combine suml snd]. rewrite IH. reflexivity. Qed.
Definition row0 : Row := mkRow (mkBlock 0 0) [].
Lemma transpose_sum bs (G : Block -> Block -> nat -> R) : (forall row c, In row (rows bs) -> In c (cells row) -> (block_id c < length (cols bs))%nat) ->
  suml (rows (CreateTranspose bs)) (fun r => suml (cells r) (fun c => G (block r) (col (CreateTranspose bs) (block_id c)) (cell_position c))) =
  suml (rows bs) (fun row => suml (cells row) (fun c => G (col bs (block_id c)) (block row) (cell_position c))).
Proof.
  intro V. rewrite transpose_rows. unfold trows. rewrite suml_map. cbn [block cells].
  rewrite (suml_ext (seq 0 (length (cols bs))) _ (fun k => suml (occurrences 0 (rows bs)) (fun p => if (block_id (snd p) =? k)%nat then G (col bs k) (nth (fst p) (map block (rows bs)) (mkBlock 0 0)) (cell_position (snd p)) else 0))).
  2:{ intros k Hk. unfold tcells. rewrite suml_map, suml_filter. apply suml_ext. intros p Hp. destruct (block_id (snd p) =? k)%nat; reflexivity. }
  rewrite suml_swap.
  rewrite (suml_ext (occurrences 0 (rows bs)) _ (fun p => G (col bs (block_id (snd p))) (nth (fst p) (map block (rows bs)) (mkBlock 0 0)) (cell_position (snd p)))).
  2:{ intros p Hp. destruct (occurrence_row _ _ _ Hp) as [row [_ [H2 [_ H4]]]]. apply (suml_seq_single (length (cols bs)) (block_id (snd p)) (fun k => G (col bs k) (nth (fst p) (map block (rows bs)) (mkBlock 0 0)) (cell_position (snd p)))). exact (V row _ H4 H2). }
  rewrite (occurrence_sum (fun i c => G (col bs (block_id c)) (nth i (map block (rows bs)) (mkBlock 0 0)) (cell_position c)) (rows bs) row0 0 [] eq_refl).
  assert (forall i, nth i (map block (rows bs)) (mkBlock 0 0) = block (nth i (rows bs) row0)) as En by (intro i; change (mkBlock 0 0) with (block row0); apply map_nth).
  rewrite (suml_ext _ _ (fun p => (fun i (_ : Row) => suml (cells (nth i (rows bs) row0)) (fun c => G (col bs (block_id c)) (block (nth i (rows bs) row0)) (cell_position c))) (fst p) (snd p))).
  2:{ intros [i row] Hp. cbn [fst snd]. assert (nth i (rows bs) row0 = row) as <-; [|apply suml_ext; intros c Hc; rewrite En; reflexivity].
      clear En V. revert Hp. assert (forall l a, In (i, row) (combine (seq a (length l)) l) -> nth (i - a) l row0 = row /\ (a <= i)%nat) as Hn.
      { induction l as [|x l IH]; intros a Hp; [contradiction|]. cbn [length seq combine] in Hp. destruct Hp as [Hp|Hp]; [injection Hp as -> ->; rewrite Nat.sub_diag; split; [reflexivity|lia]|]. destruct (IH (S a) Hp) as [H1 H2]. replace (i - a)%nat with (S (i - S a)) by lia. split; [exact H1|lia]. }
      intro Hp. destruct (Hn _ _ Hp) as [H1 _]. rewrite Nat.sub_0_r in H1. exact H1. }
  rewrite <- (indexed_sum (fun (i : nat) row => suml (cells row) (fun c => G (col bs (block_id c)) (block row) (cell_position c))) (rows bs) row0 0 (rows bs)) by (intros; reflexivity).
  apply (suml_combine (rows bs) (fun row => suml (cells row) (fun c => G (col bs (block_id c)) (block row) (cell_position c)))).
Qed.
