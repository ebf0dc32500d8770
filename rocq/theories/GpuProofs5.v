(* C82: the CRS matrix is the block sparse matrix. *)
From Coq Require Import Reals List Arith Bool Lia Lra Permutation.
From Verif Require Import SchurModel BlockSparseModel BlockSparseSpec BlockSparseProofs BlockSparseProofs2 GpuModel GpuSpec GpuProofs GpuProofs2 GpuProofs3 GpuProofs4.
Import ListNotations.
Close Scope R_scope. Open Scope nat_scope.

Lemma laid_lower bl : forall p b, laid_out p bl -> In b bl -> p <= position b.
Proof. induction bl as [|x bl IH]; intros p b H I; [destruct I|]. destruct H as [H1 H2]. destruct I as [<-|I]; [lia|]. specialize (IH _ _ H2 I). lia. Qed.
Lemma laid_pos bl d : forall p k, laid_out p bl -> k < length bl -> position (nth k bl d) = p + total (firstn k bl).
Proof. induction bl as [|x bl IH]; intros p [|k] H K; cbn [length nth firstn total fold_right] in *; try lia; destruct H as [H1 H2]; [lia|]. rewrite (IH _ k H2) by lia. unfold total. lia. Qed.
Lemma total_split n bl : total bl = total (firstn n bl) + total (skipn n bl).
Proof. revert n. induction bl as [|x bl IH]; intros [|n]; cbn [firstn skipn total fold_right]; try reflexivity. fold (total bl) (total (firstn n bl)) (total (skipn n bl)). rewrite (IH n). lia. Qed.
Lemma total_mono bl : forall i j, i <= j -> total (firstn i bl) <= total (firstn j bl).
Proof. induction bl as [|x bl IH]; intros [|i] [|j] H; cbn [firstn total fold_right]; try lia. fold (total (firstn i bl)) (total (firstn j bl)). specialize (IH i j). lia. Qed.
Lemma total_S bl d : forall k, k < length bl -> total (firstn (S k) bl) = total (firstn k bl) + size (nth k bl d).
Proof. induction bl as [|x bl IH]; intros [|k] H; cbn [length nth] in *; try lia; [cbn; lia|]. change (firstn (S (S k)) (x :: bl)) with (x :: firstn (S k) bl). change (firstn (S k) (x :: bl)) with (x :: firstn k bl). cbn [total fold_right]. fold (total (firstn (S k) bl)) (total (firstn k bl)). rewrite IH by lia. lia. Qed.

Lemma dense_row (G : Row -> R) rs : forall p0 k i, laid_out p0 (map block rs) -> k < length rs -> i < size (block (nth k rs dr)) -> suml rs (fun row => if holds (block row) (row_of rs k i) then G row else 0%R) = G (nth k rs dr).
Proof.
  induction rs as [|r rs IH]; intros p0 [|k] i L K I; cbn [length map nth] in *; try lia; destruct L as [L1 L2]; cbn [suml].
  - unfold row_of at 1. cbn [nth]. replace (holds (block r) (position (block r) + i)) with true by (symmetry; apply holds_spec; unfold within; lia).
    rewrite suml_zero; [ring|]. intros x X. destruct (holds (block x) (row_of (r :: rs) 0 i)) eqn:E; [|reflexivity]. apply holds_spec in E. unfold within, row_of in E. cbn [nth] in E. assert (Y := laid_lower _ _ (block x) L2 (in_map block _ _ X)). lia.
  - change (row_of (r :: rs) (S k) i) with (row_of rs k i). rewrite (IH _ k i L2) by (auto; lia). destruct (holds (block r) (row_of rs k i)) eqn:E; [|ring]. apply holds_spec in E. unfold within, row_of in E.
    assert (K' : k < length rs) by lia. assert (Y := laid_lower _ _ (block (nth k rs dr)) L2 (in_map block _ _ (nth_In rs dr K'))). exfalso. lia.
Qed.
Lemma suml_pick (V : nat -> R) w A : forall q, suml (seq A w) (fun j => if j =? q then V j else 0%R) = (if (A <=? q) && (q <? A + w) then V q else 0%R).
Proof.
  revert A. induction w as [|w IH]; intros A q; cbn [seq suml].
  - destruct (Nat.leb_spec A q), (Nat.ltb_spec q (A + 0)); cbn [andb]; try reflexivity; lia.
  - rewrite IH. destruct (Nat.eqb_spec A q) as [->|N].
    + destruct (Nat.leb_spec (S q) q); [lia|]. cbn [andb]. rewrite Nat.leb_refl. destruct (Nat.ltb_spec q (q + S w)); [cbn [andb]; ring|lia].
    + destruct (Nat.leb_spec (S A) q), (Nat.leb_spec A q), (Nat.ltb_spec q (S A + w)), (Nat.ltb_spec q (A + S w)); cbn [andb]; try ring; lia.
Qed.
Lemma seq_plus a w : seq a w = map (fun j => a + j) (seq 0 w).
Proof. revert a. induction w as [|w IH]; intros a; [reflexivity|]. cbn [seq map]. rewrite Nat.add_0_r. f_equal. rewrite (IH (S a)), <- seq_shift, map_map. apply map_ext. intros j. lia. Qed.

Section Represent.
Variables (bl : list Block) (rs : list Row) (shift w : nat) (m : Crs) (V new : nat -> R).
Hypotheses (C : crs_ok bl rs shift m) (L : laid_out 0 (map block rs)).
Hypothesis IN : forall row c, In row rs -> In c (cells row) -> shift <= position (nth (block_id c) bl (mkBlock 0 0)) /\ position (nth (block_id c) bl (mkBlock 0 0)) + cw bl c <= shift + w.
Hypothesis NEW : forall k i pre c post j, place bl rs k i pre c post j -> new (address bl rs k i pre j) = V (cell_position c + i * cw bl c + j).

Lemma row_sum k i q : k < length rs -> i < size (block (nth k rs dr)) -> forall post pre, cells (nth k rs dr) = pre ++ post ->
  suml (seq (rooms bl (firstn k rs) + i * widths bl (cells (nth k rs dr)) + widths bl pre) (widths bl post)) (fun a => if c_cols m a =? q then new a else 0%R) =
  suml post (fun c => if holds (nth (block_id c) bl (mkBlock 0 0)) (shift + q) then V (cell_position c + i * cw bl c + (shift + q - position (nth (block_id c) bl (mkBlock 0 0)))) else 0%R).
Proof.
  intros K I. induction post as [|c post IH]; intros pre E; [reflexivity|]. cbn [widths suml]. rewrite seq_app, suml_app. f_equal.
  - rewrite seq_plus, suml_map. set (b := nth (block_id c) bl (mkBlock 0 0)). assert (B : shift <= position b) by (apply (IN (nth k rs dr)); [now apply nth_In|rewrite E; apply in_elt]).
    rewrite (suml_ext _ _ (fun j => if j =? shift + q - position b then (if position b <=? shift + q then V (cell_position c + i * cw bl c + j) else 0%R) else 0%R)).
    + rewrite (suml_pick (fun j => if position b <=? shift + q then V (cell_position c + i * cw bl c + j) else 0%R)). change (cw bl c) with (size b) at 1. unfold holds. destruct (Nat.leb_spec (position b) (shift + q)); cbn [andb].
      * destruct (Nat.leb_spec 0 (shift + q - position b)); [|lia]. cbn [andb]. destruct (Nat.ltb_spec (shift + q - position b) (0 + size b)), (Nat.ltb_spec (shift + q) (position b + size b)); try reflexivity; lia.
      * destruct ((0 <=? shift + q - position b) && (shift + q - position b <? 0 + size b)); reflexivity.
    + intros j J. apply in_seq in J. destruct C as [_ [_ [_ CC]]]. rewrite (CC k i pre c post j K I E) by lia. fold b.
      assert (J' : j < cw bl c) by lia. assert (N := NEW k i pre c post j (conj K (conj I (conj E J')))). unfold address in N. rewrite N.
      destruct (Nat.eqb_spec (position b - shift + j) q), (Nat.eqb_spec j (shift + q - position b)), (Nat.leb_spec (position b) (shift + q)); try reflexivity; lia.
  - specialize (IH (pre ++ [c])). rewrite widths_app in IH. cbn [widths] in IH. rewrite Nat.add_0_r, Nat.add_assoc in IH. apply IH. now rewrite <- app_assoc.
Qed.
Theorem represent_ok : represents (total (map block rs)) w (rooms bl rs) m new (fun p q => dense (mkStructure bl rs) V p (shift + q)).
Proof.
  assert (CR := C). destruct CR as [C1 [C2 [C3 C4]]]. split; [auto|]. split; [|split; [auto|split]].
  - intros p B. destruct (row_of_find rs p L B) as [k [i [K [I ->]]]]. rewrite <- row_next, !C1 by (auto; lia). nia.
  - intros a B. destruct (address_find bl rs a B) as [k [i [pre [c [post [j [[K [I [E J]]] ->]]]]]]]. unfold address. rewrite (C4 k i pre c post j) by auto.
    destruct (IN (nth k rs dr) c) as [B1 B2]; [now apply nth_In|rewrite E; apply in_elt|]. lia.
  - intros p q P Q. destruct (row_of_find rs p L P) as [k [i [K [I ->]]]]. unfold crs_entry. rewrite <- row_next, !C1 by (auto; lia).
    replace (rooms bl (firstn k rs) + S i * widths bl (cells (nth k rs dr)) - (rooms bl (firstn k rs) + i * widths bl (cells (nth k rs dr)))) with (widths bl (cells (nth k rs dr))) by lia.
    assert (RS := row_sum k i q K I (cells (nth k rs dr)) [] eq_refl). cbn [widths] in RS. rewrite Nat.add_0_r in RS. rewrite RS. unfold dense. cbn [rows].
    set (G := fun row => suml (cells row) (fun c => if holds (nth (block_id c) bl (mkBlock 0 0)) (shift + q) then V (cell_position c + (row_of rs k i - position (block row)) * cw bl c + (shift + q - position (nth (block_id c) bl (mkBlock 0 0)))) else 0%R)).
    rewrite (suml_ext rs _ (fun row => if holds (block row) (row_of rs k i) then G row else 0%R)).
    + rewrite (dense_row G rs 0 k i L K I). unfold G. apply suml_ext. intros c _. replace (row_of rs k i - position (block (nth k rs dr))) with i by (unfold row_of; lia). reflexivity.
    + intros row _. destruct (holds (block row) (row_of rs k i)); cbn [andb]; [unfold G; apply suml_ext; intros c _; reflexivity|]. apply suml_zero. reflexivity.
Qed.
End Represent.

(* values in CRS order *)
Lemma in_order_ok bl base rs k i pre c post j : all_placed bl base rs -> (forall row, In row rs -> size (block row) <= 1 \/ length (cells row) <= 1) -> place bl rs k i pre c post j ->
  base + address bl rs k i pre j = cell_position c + i * cw bl c + j.
Proof.
  intros P Q [K [I [E J]]]. assert (X := all_placed_nth bl rs base k P K). rewrite E in X. rewrite (placed_split bl _ _ _ _ _ X). unfold address. destruct (Q (nth k rs dr) (nth_In rs dr K)) as [S1|S1].
  - replace (size (block (nth k rs dr))) with 1 by lia. replace i with 0 by lia. lia.
  - rewrite E in *. rewrite app_length in S1. cbn [length] in S1. destruct pre; [|cbn [length] in S1; lia]. destruct post; [|cbn [length] in S1; lia]. cbn [app widths]. lia.
Qed.
Lemma address_bound bl rs k i pre c post j : place bl rs k i pre c post j -> address bl rs k i pre j < rooms bl rs.
Proof. intros [K [I [E J]]]. assert (X := rooms_firstn bl rs k K). assert (Y := rooms_all bl rs (S k)). unfold address. unfold room in X. rewrite E in *. rewrite widths_app in *. cbn [widths] in *. nia. Qed.

(* the layout of the values *)
Definition ext (bl : list Block) (rs : list Row) : list (nat * nat) := flat_map (fun row => map (fun c => (cell_position c, size (block row) * cw bl c)) (cells row)) rs.
Lemma seq_cells bl h cs l : forall P, sequential P (map (fun c => (cell_position c, h * cw bl c)) cs ++ l) <-> placed bl h P cs /\ sequential (P + h * widths bl cs) l.
Proof.
  induction cs as [|c cs IH]; intros P; cbn [map app sequential placed widths fst snd]; [rewrite Nat.mul_0_r, Nat.add_0_r; tauto|]. rewrite IH. replace (P + h * (cw bl c + widths bl cs)) with (P + h * cw bl c + h * widths bl cs) by lia. tauto.
Qed.
Lemma seq_rows bl rs : forall P, sequential P (ext bl rs) <-> all_placed bl P rs.
Proof. induction rs as [|r rs IH]; intros P; [reflexivity|]. unfold ext. cbn [flat_map all_placed]. rewrite seq_cells. unfold room. rewrite <- IH. reflexivity. Qed.
Lemma count_app a b : count (a ++ b) = count a + count b.
Proof. unfold count. induction a as [|x a IH]; [reflexivity|]. cbn [app fold_right]. rewrite IH. lia. Qed.
Lemma count_rows bl rs : count (ext bl rs) = rooms bl rs.
Proof.
  induction rs as [|r rs IH]; [reflexivity|]. unfold ext in *. cbn [flat_map rooms]. rewrite count_app, IH. f_equal. unfold room. induction (cells r) as [|c cs IHc]; cbn [map widths]; [cbn; lia|]. change (count ((cell_position c, size (block r) * cw bl c) :: ?l)) with (size (block r) * cw bl c + count l). rewrite IHc. lia.
Qed.
