(* C66: the dynamic compressed row Jacobian *)
From Coq Require Import Reals ZArith List Arith Bool Lia Permutation Sorted.
From Verif Require Import SchurModel SchurProofs SparseModel SparseSpec SparseProofs SparseProofs2 SparseProofs3 BlockSparseModel JacobianModel JacobianSpec JacobianProofs JacobianProofs2 JacobianProofs3.
Import ListNotations.
Open Scope R_scope.

(* what an interleaving does to what only one of the bodies does *)
Lemma interleaving_filter {A} (P : A -> bool) ls l : interleaving ls l -> forall i t, nth_error ls i = Some t -> (forall j u, j <> i -> nth_error ls j = Some u -> filter P u = []) -> filter P l = filter P t.
Proof.
  induction 1 as [ls H|ls1 x l ls2 rest H IH]; intros i t I O.
  - rewrite (H t (nth_error_In _ _ I)). auto.
  - destruct (Nat.eq_dec i (length ls1)) as [->|N].
    + rewrite nth_error_app2, Nat.sub_diag in I by lia. cbn [nth_error] in I. injection I as <-. cbn [filter].
      rewrite (IH (length ls1) l); [auto|rewrite nth_error_app2, Nat.sub_diag by lia; auto|]. intros j u J U. apply (O j u J). destruct (Nat.lt_ge_cases j (length ls1)) as [L|L].
      * rewrite nth_error_app1 in * by lia. auto.
      * rewrite nth_error_app2 in * by lia. destruct (j - length ls1)%nat as [|q] eqn:E; [lia|auto].
    + assert (F : filter P (x :: l) = []). { apply (O (length ls1)); [auto|]. rewrite nth_error_app2, Nat.sub_diag by lia. auto. }
      cbn [filter] in F |- *. destruct (P x); [discriminate|].
      apply (IH i t).
      * destruct (Nat.lt_ge_cases i (length ls1)) as [L|L]; [rewrite nth_error_app1 in * by lia; auto|]. rewrite nth_error_app2 in * by lia. destruct (i - length ls1)%nat as [|q] eqn:E; [lia|auto].
      * intros j u J U. destruct (Nat.eq_dec j (length ls1)) as [->|M].
        { rewrite nth_error_app2, Nat.sub_diag in U by lia. cbn [nth_error] in U. injection U as <-. auto. }
        apply (O j u J). destruct (Nat.lt_ge_cases j (length ls1)) as [L|L]; [rewrite nth_error_app1 in * by lia; auto|]. rewrite nth_error_app2 in * by lia. destruct (j - length ls1)%nat as [|q] eqn:E; [lia|auto].
Qed.
Lemma filter_none {A} (P : A -> bool) l : (forall x, In x l -> P x = false) -> filter P l = [].
Proof. induction l as [|x l IH]; intros H; cbn; [auto|]. rewrite (H x) by (left; auto). apply IH. intros y Y. apply H. right. auto. Qed.
Lemma filter_every {A} (P : A -> bool) l : (forall x, In x l -> P x = true) -> filter P l = l.
Proof. induction l as [|x l IH]; intros H; cbn; [auto|]. rewrite (H x) by (left; auto). f_equal. apply IH. intros y Y. apply H. right. auto. Qed.
Lemma filter_flat_map {A B} (P : B -> bool) (f : A -> list B) l : filter P (flat_map f l) = flat_map (fun a => filter P (f a)) l.
Proof. induction l as [|a l IH]; cbn; [auto|]. now rewrite filter_app, IH. Qed.
Lemma flat_map_only {B} (g : nat -> list B) k n : (k < n)%nat -> (forall r, r <> k -> g r = []) -> flat_map g (seq 0 n) = g k.
Proof.
  intros K H. assert (Z : forall l, ~ In k l -> flat_map g l = []). { induction l as [|a l IH]; intros N; cbn; [auto|]. rewrite H by (intros ->; apply N; left; auto). apply IH. intros I. apply N. right. auto. }
  replace n with (k + (1 + (n - k - 1)))%nat by lia. rewrite !seq_app, !flat_map_app. cbn [seq flat_map]. rewrite Z by (rewrite in_seq; lia). rewrite Z by (rewrite in_seq; lia). rewrite !app_nil_r. cbn. auto.
Qed.

(* ---------------------------------------------------------- operations *)
Definition op_row (o : Op) : nat := match o with Clear r => r | Insert r _ _ => r end.
Definition op_ok (nr nc : nat) (o : Op) : Prop := match o with Clear r => (r < nr)%nat | Insert r c _ => (r < nr)%nat /\ (c < nc)%nat end.
Definition op_list (l : list (nat * R)) (o : Op) : list (nat * R) := match o with Clear _ => [] | Insert _ c v => l ++ [(c, v)] end.
Definition touches (r : nat) (o : Op) : bool := (op_row o =? r)%nat.
Lemma do_ops_spec m l : forall d, length d = m_num_rows m -> Forall (op_ok (m_num_rows m) (m_num_cols m)) l ->
  exists d', do_ops m d l = Some d' /\ length d' = m_num_rows m /\ forall r, (r < m_num_rows m)%nat -> nth r d' [] = fold_left op_list (filter (touches r) l) (nth r d []).
Proof.
  induction l as [|o l IH]; intros d L F; cbn [do_ops].
  - exists d. auto.
  - inversion F as [|? ? F1 F2]; subst.
    assert (D : exists r new, op_row o = r /\ (r < m_num_rows m)%nat /\ new = op_list (nth r d []) o /\ do_op m d o = Some (set_nth d r new)).
    { destruct o as [r|r c v]; cbn [op_ok] in F1; cbn [op_row op_list do_op].
      - exists r, []. destruct (Nat.ltb_spec r (m_num_rows m)); [auto|lia].
      - exists r, (nth r d [] ++ [(c, v)]). destruct F1. destruct (Nat.ltb_spec r (m_num_rows m)); [|lia]. destruct (Nat.ltb_spec c (m_num_cols m)); [auto|lia]. }
    destruct D as [r0 [new [R [R' [NE ->]]]]]. destruct (IH (set_nth d r0 new)) as [d' [E1 [E2 E3]]]; [now rewrite set_nth_length|auto|]. exists d'. split; [auto|]. split; [auto|]. intros r Hr. rewrite (E3 r Hr). cbn [filter]. unfold touches at 2. rewrite R. destruct (Nat.eqb_spec r0 r) as [->|N].
    + cbn [fold_left]. rewrite set_nth_same by lia. now rewrite NE.
    + now rewrite set_nth_other.
Qed.
Lemma fold_inserts r (es : list (nat * R)) : forall l, fold_left op_list (map (fun x => Insert r (fst x) (snd x)) es) l = l ++ es.
Proof. induction es as [|[c v] es IH]; intros l; cbn [map fold_left op_list fst snd]; [now rewrite app_nil_r|]. rewrite IH. now rewrite <- app_assoc. Qed.

(* ---------------------------------------------------------- one residual block *)
Lemma insert_ops_row p b jac junk off k : block_ok p b -> (k < r_num b)%nat ->
  filter (touches (off + k)) (InsertOps p (r_num b) off (Ordered b) (ScratchPrepare p (r_num b) 0 (r_args b)) (Scratch p b jac junk)) =
  map (fun x => Insert (off + k) (fst x) (snd x)) (filter (fun x => nonzero (snd x)) (full_row p b jac k)).
Proof.
  intros [N H] K. unfold InsertOps, full_row. rewrite filter_flat_map, filter_flat_map, map_flat_map. rewrite !flat_map_concat_map. f_equal. apply map_ext_in. intros [v j] I. cbn [fst snd]. apply ordered_in in I.
  rewrite filter_flat_map. rewrite (flat_map_only _ k (r_num b) K).
  - rewrite filter_flat_map. assert (V : (v < length (p_tangents p))%nat) by (apply H; apply indices_in; eauto).
    assert (G : forall l, (forall c, In c l -> (c < tangent p v)%nat) ->
      flat_map (fun a => filter (touches (off + k)) (if nonzero (Scratch p b jac junk (match nth j (ScratchPrepare p (r_num b) 0 (r_args b)) None with Some pos => pos | None => 0 end + k * tangent p v + a)%nat) then [Insert (off + k) (delta_offset p v + a) (Scratch p b jac junk (match nth j (ScratchPrepare p (r_num b) 0 (r_args b)) None with Some pos => pos | None => 0 end + k * tangent p v + a)%nat)] else [])) l =
      map (fun x => Insert (off + k) (fst x) (snd x)) (filter (fun x => nonzero (snd x)) (map (fun c => ((column p v + c)%nat, jac j (k * tangent p v + c)%nat)) l))).
    { induction l as [|c l IH]; intros L; [auto|]. assert (C : (c < tangent p v)%nat) by (apply L; left; auto). assert (T : (k * tangent p v + c < r_num b * tangent p v)%nat) by nia.
      destruct (scratch_value p b jac junk j v _ I T) as [pos [E VV]]. cbn [flat_map map filter snd]. rewrite IH by (intros c' C'; apply L; right; auto).
      assert (VE : Scratch p b jac junk (match nth j (ScratchPrepare p (r_num b) 0 (r_args b)) None with Some pos => pos | None => 0 end + k * tangent p v + c)%nat = jac j (k * tangent p v + c)%nat) by (rewrite E, <- Nat.add_assoc; exact VV).
      rewrite VE. destruct (nonzero (jac j (k * tangent p v + c)%nat)); [|auto]. cbn [filter]. unfold touches at 1. cbn [op_row]. rewrite Nat.eqb_refl. cbn [map fst snd app]. now rewrite delta_column. }
    apply G. intros c C. apply in_seq in C. lia.
  - intros r R. apply filter_none. intros o O. apply in_flat_map in O. destruct O as [c [_ O]]. destruct (nonzero _); [|destruct O]. destruct O as [<-|[]]. unfold touches. cbn [op_row]. apply Nat.eqb_neq. lia.
Qed.
Lemma dynamic_row p b jac junk off k l : block_ok p b -> (k < r_num b)%nat ->
  fold_left op_list (filter (touches (off + k)) (DynamicWrite p b off jac junk)) l = filter (fun x => nonzero (snd x)) (full_row p b jac k).
Proof.
  intros O K. unfold DynamicWrite. rewrite filter_app, insert_ops_row by auto. rewrite fold_left_app, fold_inserts.
  assert (C : filter (touches (off + k)) (map (fun r => Clear (off + r)) (seq 0 (r_num b))) = [Clear (off + k)]).
  { assert (M : forall l, map (fun r => Clear (off + r)) l = flat_map (fun r => [Clear (off + r)]) l) by (induction l0 as [|? ? IH]; cbn; [auto|now rewrite IH]). rewrite M, filter_flat_map. rewrite (flat_map_only _ k); [|auto|].
    - cbn. unfold touches. cbn [op_row]. now rewrite Nat.eqb_refl.
    - intros r R. cbn. unfold touches. cbn [op_row]. destruct (Nat.eqb_spec (off + r) (off + k)); [lia|auto]. }
  rewrite C. reflexivity.
Qed.
Lemma dynamic_ops p b jac junk off o : In o (DynamicWrite p b off jac junk) -> exists k, (k < r_num b)%nat /\ op_row o = (off + k)%nat /\ (block_ok p b -> match o with Clear _ => True | Insert _ c _ => (c < num_columns_of p)%nat end).
Proof.
  unfold DynamicWrite. intros I. apply in_app_or in I. destruct I as [I|I].
  - apply in_map_iff in I. destruct I as [k [<- K]]. apply in_seq in K. exists k. split; [lia|auto].
  - unfold InsertOps in I. apply in_flat_map in I. destruct I as [[v j] [V I]]. apply in_flat_map in I. destruct I as [k [K I]]. apply in_flat_map in I. destruct I as [c [C I]]. apply in_seq in K, C. destruct (nonzero _); [|destruct I]. destruct I as [<-|[]]. exists k. split; [lia|]. split; [auto|].
    intros [N H]. apply ordered_in in V. assert (L : (v < length (p_tangents p))%nat) by (apply H; apply indices_in; eauto). rewrite delta_column by auto. generalize (column_bound p v L). lia.
Qed.

(* ---------------------------------------------------------- the tasks *)
Definition dbody (p : Program) (jac : nat -> nat -> vec) (junk : nat -> vec) (x : nat * (RBlock * nat)) : list Op := DynamicWrite p (fst (snd x)) (snd (snd x)) (jac (fst x)) (junk (fst x)).
Lemma dynamic_tasks p jac junk : DynamicTasks p jac junk = map (dbody p jac junk) (indexed (p_blocks p) 0 0).
Proof. unfold DynamicTasks. apply map_ext. intros [i [b off]]. reflexivity. Qed.
Lemma indexed_nth bs : forall s pos i x, nth_error (indexed bs s pos) i = Some x <-> exists b, nth_error bs i = Some b /\ x = ((s + i)%nat, (b, (pos + rb bs i)%nat)).
Proof.
  unfold indexed. induction bs as [|a bs IH]; intros s pos [|i] x; cbn [length seq ResidualLayout combine nth_error].
  - split; [discriminate|intros [b [H _]]; discriminate].
  - split; [discriminate|intros [b [H _]]; discriminate].
  - rewrite rb_0, !Nat.add_0_r. split; [intros H; injection H as <-; eauto|]. intros [b [H ->]]. injection H as ->. auto.
  - rewrite IH. rewrite rb_S. replace (S s + i)%nat with (s + S i)%nat by lia. replace (pos + r_num a + rb bs i)%nat with (pos + (r_num a + rb bs i))%nat by lia. tauto.
Qed.
Lemma dynamic_nth p jac junk i t : nth_error (DynamicTasks p jac junk) i = Some t <-> exists b, nth_error (p_blocks p) i = Some b /\ t = DynamicWrite p b (rows_before p i) (jac i) (junk i).
Proof.
  rewrite dynamic_tasks, nth_error_map. destruct (nth_error (indexed (p_blocks p) 0 0) i) as [x|] eqn:E; cbn [option_map].
  - apply indexed_nth in E. destruct E as [b [B ->]]. unfold dbody. cbn [fst snd Nat.add]. split; [intros H; injection H as <-; eauto|]. intros [b' [B' ->]]. rewrite B in B'. injection B' as ->. auto.
  - split; [discriminate|]. intros [b [B _]]. assert (X : nth_error (indexed (p_blocks p) 0 0) i = Some ((0 + i)%nat, (b, (0 + rb (p_blocks p) i)%nat))) by (apply indexed_nth; eauto). congruence.
Qed.
Lemma dynamic_all p jac junk l m d : well_formed p -> interleaving (DynamicTasks p jac junk) l -> m_num_rows m = num_rows_of p -> m_num_cols m = num_columns_of p -> length d = num_rows_of p ->
  exists d', do_ops m d l = Some d' /\ length d' = num_rows_of p /\
  forall i b k, nth_error (p_blocks p) i = Some b -> (k < r_num b)%nat -> nth (rows_before p i + k) d' [] = filter (fun x => nonzero (snd x)) (full_row p b (jac i) k).
Proof.
  intros W IL NR NC LD. assert (P := interleaving_perm _ _ IL).
  destruct (do_ops_spec m l d) as [d' [E1 [E2 E3]]]; [lia| |].
  - apply Forall_forall. intros o O. apply (Permutation_in _ P) in O. apply in_concat in O. destruct O as [t [T O]]. apply In_nth_error in T. destruct T as [i T]. apply dynamic_nth in T. destruct T as [b [B ->]].
    apply dynamic_ops in O. destruct O as [k [K [R C]]]. specialize (C (W b (nth_error_In _ _ B))). generalize (rb_bound (p_blocks p) i b B). unfold rows_before in R. fold (rb (p_blocks p) i) in R. unfold num_rows_of in NR. intros Q. destruct o; cbn [op_row op_ok] in *; rewrite ?NR, ?NC; [lia|split; [lia|auto]].
  - exists d'. split; [auto|]. split; [lia|]. intros i b k B K. assert (Q := rb_bound (p_blocks p) i b B). rewrite E3 by (rewrite NR; unfold num_rows_of, rows_before in *; unfold rb in Q; lia).
    rewrite (interleaving_filter (touches (rows_before p i + k)) _ _ IL i (DynamicWrite p b (rows_before p i) (jac i) (junk i))).
    + apply dynamic_row; [|auto]. apply W. eapply nth_error_In; eauto.
    + apply dynamic_nth. eauto.
    + intros j u J U. apply dynamic_nth in U. destruct U as [b' [B' ->]]. apply filter_none. intros o O. apply dynamic_ops in O. destruct O as [k' [K' [R _]]]. unfold touches. rewrite R. apply Nat.eqb_neq. change (rows_before p j) with (rb (p_blocks p) j). change (rows_before p i) with (rb (p_blocks p) i).
      destruct (Nat.lt_trichotomy i j) as [L|[E|L]]; [generalize (rb_mono (p_blocks p) i j b L B); lia|congruence|generalize (rb_mono (p_blocks p) j i b' L B'); lia].
Qed.

(* ---------------------------------------------------------- Finalize *)
Lemma flat_rows_length d : forall pos, length (FlatRows pos d) = S (length d).
Proof. induction d as [|l d IH]; intros pos; cbn [FlatRows length]; auto. Qed.
Lemma flat_rows_nth d : forall pos r, (r <= length d)%nat -> nth r (FlatRows pos d) 0%nat = (pos + length (concat (firstn r d)))%nat.
Proof.
  induction d as [|l d IH]; intros pos [|r] H; cbn [length] in H; try lia; cbn [FlatRows nth firstn concat length]; try lia. rewrite IH by lia. rewrite app_length. lia.
Qed.
Lemma concat_firstn {A} (d : list (list A)) r : (r < length d)%nat -> concat (firstn (S r) d) = concat (firstn r d) ++ nth r d [].
Proof. revert r. induction d as [|l d IH]; intros [|r] H; cbn [length] in H; try lia; cbn [firstn concat nth app]; [now rewrite app_nil_r|]. rewrite <- app_assoc, <- IH by lia. reflexivity. Qed.
Lemma nth_concat {A} (d : list (list A)) (z : A) r t : (r < length d)%nat -> (t < length (nth r d []))%nat -> nth (length (concat (firstn r d)) + t) (concat d) z = nth t (nth r d []) z.
Proof.
  intros R T. rewrite <- (firstn_skipn (S r) d) at 2. rewrite concat_app, concat_firstn by auto. rewrite <- app_assoc, app_nth2_plus. apply app_nth1. auto.
Qed.
Definition finalized (m : crs) (d : list (list (nat * R))) (n : nat) : crs := d_crs (Finalize m d n).
Lemma firstn_rest {A} (l : list A) z n k : (n <= k)%nat -> length (firstn n (l ++ repeat z k)) = n.
Proof. intros H. apply firstn_length_le. rewrite app_length, repeat_length. lia. Qed.
Lemma finalize_row m d n r : length d = m_num_rows m -> (r < m_num_rows m)%nat -> row_entries (finalized m d n) r = nth r d [].
Proof.
  intros L R. unfold row_entries, row_range, row_at, col_at, val_at, finalized, Finalize. cbn [d_crs m_rows m_cols m_values]. rewrite !flat_rows_nth by lia. cbn [Nat.add]. rewrite concat_firstn by lia. rewrite app_length.
  apply (list_of_range _ _ _ _ (0%nat, 0)); [auto|]. intros t T. assert (B : (length (concat (firstn r d)) + t < length (concat d))%nat).
  { rewrite <- (firstn_skipn (S r) d) at 2. rewrite concat_app, concat_firstn by lia. rewrite !app_length. lia. }
  rewrite !app_nth1 by (rewrite map_length; auto). rewrite (map_nth fst (concat d) (0%nat, 0)), (map_nth snd (concat d) (0%nat, 0)). rewrite nth_concat by (auto; lia). now destruct (nth t (nth r d []) (0%nat, 0)).
Qed.
Lemma finalize_valid m d n : length d = m_num_rows m -> (forall l e, In l d -> In e l -> (fst e < m_num_cols m)%nat) -> m_valid (finalized m d n) /\ num_nonzeros (finalized m d n) = length (concat d) /\ length (m_cols (finalized m d n)) = (length (concat d) + n)%nat.
Proof.
  intros L B. assert (NN : num_nonzeros (finalized m d n) = length (concat d)). { unfold num_nonzeros, row_at, finalized, Finalize. cbn [d_crs m_rows m_num_rows]. rewrite flat_rows_nth by lia. rewrite <- L, firstn_all. auto. }
  assert (LC : length (m_cols (finalized m d n)) = (length (concat d) + n)%nat) by (unfold finalized, Finalize; cbn [d_crs m_cols]; rewrite app_length, map_length, firstn_rest by lia; auto).
  split; [|auto]. constructor.
  - unfold finalized, Finalize. cbn [d_crs m_rows m_num_rows]. rewrite flat_rows_length. lia.
  - unfold row_at, finalized, Finalize. cbn [d_crs m_rows]. rewrite flat_rows_nth by lia. auto.
  - intros r R. unfold row_at, finalized, Finalize in *. cbn [d_crs m_rows m_num_rows] in *. rewrite !flat_rows_nth by lia. rewrite concat_firstn by lia. rewrite app_length. lia.
  - lia.
  - rewrite LC. unfold finalized, Finalize. cbn [d_crs m_values]. rewrite app_length, map_length, firstn_rest by lia. auto.
  - intros i I. rewrite NN in I. unfold col_at, finalized, Finalize. cbn [d_crs m_cols m_num_cols]. rewrite app_nth1 by (rewrite map_length; auto). rewrite (map_nth fst (concat d) (0%nat, 0)). assert (X := nth_In (concat d) (0%nat, 0) I). apply in_concat in X. destruct X as [l [A C]]. eapply B; eauto.
Qed.

(* ---------------------------------------------------------- evaluation *)
Record dshaped (p : Program) (m : Dynamic) : Prop := {
  ds_nr : m_num_rows (d_crs m) = num_rows_of p;
  ds_nc : m_num_cols (d_crs m) = num_columns_of p;
  ds_len : length (d_rows m) = num_rows_of p }.
Lemma create_dynamic p : dshaped p (CreateDynamic p).
Proof. constructor; cbn [CreateDynamic d_crs d_rows m_num_rows m_num_cols]; [apply num_rows_eq|apply num_cols_eq|]. rewrite repeat_length. apply num_rows_eq. Qed.
Lemma evaluate_dynamic p m jac junk o : well_formed p -> dshaped p m -> EvaluateDynamic p m jac junk o ->
  exists m', o = Some m' /\ dshaped p m' /\ m_valid (d_crs m') /\ length (m_cols (d_crs m')) = (num_nonzeros (d_crs m') + num_columns_of p)%nat /\
  forall i b k, nth_error (p_blocks p) i = Some b -> (k < r_num b)%nat -> row_entries (d_crs m') (rows_before p i + k) = filter (fun x => nonzero (snd x)) (full_row p b (jac i) k).
Proof.
  intros W S [l [IL ->]]. destruct (dynamic_all p jac junk l (d_crs m) (d_rows m) W IL (ds_nr p m S) (ds_nc p m S) (ds_len p m S)) as [d [E [L R]]]. rewrite E. cbn [option_map]. eexists. split; [reflexivity|].
  rewrite num_cols_eq.
  destruct (finalize_valid (d_crs m) d (num_columns_of p)) as [V [NN LC]]; [rewrite (ds_nr p m S); auto| |].
  - intros row e I J. apply In_nth with (d := []) in I. destruct I as [r [Hr <-]]. rewrite L in Hr. destruct (row_split (p_blocks p) r Hr) as [i [b [k [B [K ->]]]]]. change (rb (p_blocks p) i) with (rows_before p i) in J. rewrite (R i b k B K) in J. apply filter_In in J. destruct J as [J _]. destruct e as [c x]. rewrite (ds_nc p m S). eapply full_row_bound; eauto. apply W. eapply nth_error_In; eauto.
  - split; [constructor; [apply S|apply S|exact L]|]. split; [exact V|]. split; [unfold finalized in *; lia|]. intros i b k B K. change (d_crs (Finalize (d_crs m) d (num_columns_of p))) with (finalized (d_crs m) d (num_columns_of p)). assert (Q := rb_bound (p_blocks p) i b B). unfold rb in Q. rewrite finalize_row; [auto|rewrite (ds_nr p m S); auto|rewrite (ds_nr p m S); unfold num_rows_of, rows_before; lia].
Qed.
Lemma filter_sorted l : StronglySorted Peano.lt (map fst l) -> StronglySorted Peano.lt (map fst (filter (fun x : nat * R => nonzero (snd x)) l)).
Proof.
  induction l as [|a l IH]; intros H; [constructor|]. cbn [map] in H. inversion H as [|? ? H1 H2]; subst. cbn [filter]. destruct (nonzero (snd a)); [|auto]. cbn [map]. constructor; [auto|]. rewrite Forall_forall in *. intros x X. apply H2. apply in_map_iff in X. destruct X as [y [<- Y]]. apply filter_In in Y. apply in_map. tauto.
Qed.
Lemma evaluate_dynamic_all p m jac junk o : well_formed p -> dshaped p m -> EvaluateDynamic p m jac junk o ->
  exists m', o = Some m' /\ dshaped p m' /\ m_valid (d_crs m') /\ length (m_cols (d_crs m')) = (num_nonzeros (d_crs m') + num_columns_of p)%nat /\
  increasing_rows (d_crs m') /\ is_jacobian p jac (m_matrix (d_crs m')) /\ (forall r c x, (r < num_rows_of p)%nat -> In (c, x) (row_entries (d_crs m') r) -> x <> 0).
Proof.
  intros W S EV. destruct (evaluate_dynamic p m jac junk o W S EV) as [m' [E [S' [V [LC R]]]]]. exists m'. split; [auto|]. split; [auto|]. split; [auto|]. split; [auto|]. split; [|split].
  - intros r Hr. rewrite (ds_nr p m' S') in Hr. destruct (row_split (p_blocks p) r Hr) as [i [b [k [B [K ->]]]]]. change (rb (p_blocks p) i) with (rows_before p i). rewrite (R i b k B K). apply filter_sorted, full_row_sorted. apply W. eapply nth_error_In; eauto.
  - apply rows_jacobian; [auto|]. intros i b k c B K. rewrite m_matrix_row, (ds_nr p m' S'). assert (Q := rb_bound (p_blocks p) i b B). unfold rb in Q.
    destruct (Nat.ltb_spec (rows_before p i + k) (num_rows_of p)); [|unfold num_rows_of, rows_before in *; lia]. rewrite (R i b k B K). apply rowval_filter.
  - intros r c x Hr I. destruct (row_split (p_blocks p) r Hr) as [i [b [k [B [K ->]]]]]. change (rb (p_blocks p) i) with (rows_before p i) in I. rewrite (R i b k B K) in I. apply filter_In in I. destruct I as [_ I]. cbn [snd] in I. unfold nonzero in I. destruct (Req_EM_T x 0); [discriminate|auto].
Qed.
