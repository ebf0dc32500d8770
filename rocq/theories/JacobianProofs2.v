(* C66: the structure of the compressed row Jacobian *)
From Coq Require Import Reals ZArith List Arith Bool Lia Permutation Sorted.
From Verif Require Import SchurModel SchurProofs SparseModel SparseSpec SparseProofs SparseProofs2 SparseProofs3 BlockSparseModel JacobianModel JacobianSpec JacobianProofs.
Import ListNotations.
Open Scope R_scope.

Lemma NoDup_flat_map {A B} (f : A -> list B) l : NoDup l -> (forall a, In a l -> NoDup (f a)) -> (forall a b x, In a l -> In b l -> In x (f a) -> In x (f b) -> a = b) -> NoDup (flat_map f l).
Proof.
  induction l as [|a l IH]; intros N F D; cbn [flat_map]; [constructor|]. inversion N; subst. apply NoDup_app_intro.
  - apply F; left; auto.
  - apply IH; [auto| |]; [intros b I; apply F; right; auto|]. intros b c x I J. apply D; right; auto.
  - intros x X Y. apply in_flat_map in Y. destruct Y as [b [I Y]]. assert (a = b) by (eapply (D a b x); auto; [left; auto|right; auto]). subst. tauto.
Qed.
Lemma map_flat_map {A B C} (g : B -> C) (f : A -> list B) l : map g (flat_map f l) = flat_map (fun a => map g (f a)) l.
Proof. induction l as [|a l IH]; cbn; [auto|]. now rewrite map_app, IH. Qed.
Lemma fold_sum {A} (f : A -> nat) l : forall n, fold_left (fun n a => (n + f a)%nat) l n = (n + list_sum (map f l))%nat.
Proof. induction l as [|a l IH]; intros n; cbn [fold_left map]; [cbn; lia|]. rewrite IH. change (list_sum (f a :: map f l)) with (f a + list_sum (map f l))%nat. lia. Qed.
Lemma list_sum_cons a l : list_sum (a :: l) = (a + list_sum l)%nat. Proof. reflexivity. Qed.
Lemma list_sum_perm l l' : Permutation l l' -> list_sum l = list_sum l'.
Proof. induction 1; rewrite ?list_sum_cons in *; lia. Qed.

(* ---------------------------------------------------------- offsets *)
Lemma offsets_nth l : forall pos v, (v < length l)%nat -> nth v (Offsets pos l) 0%nat = (pos + list_sum (firstn v l))%nat.
Proof. induction l as [|t l IH]; intros pos [|v] H; cbn [length] in H; try lia; cbn [Offsets nth firstn]; [cbn; lia|]. rewrite IH by lia. rewrite list_sum_cons. lia. Qed.
Lemma delta_column p v : (v < length (p_tangents p))%nat -> delta_offset p v = column p v.
Proof. intros H. unfold delta_offset. now rewrite offsets_nth. Qed.
Lemma column_mono p v w : (v < w)%nat -> (w <= length (p_tangents p))%nat -> (column p v + tangent p v <= column p w)%nat.
Proof.
  unfold column, tangent. revert v w. induction (p_tangents p) as [|t l IH]; intros [|v] [|w] L H; cbn [length] in H; try lia.
  - cbn [nth firstn]. rewrite list_sum_cons. cbn [firstn]. change (list_sum (@nil nat)) with 0%nat. lia.
  - cbn [nth firstn]. rewrite !list_sum_cons. specialize (IH v w ltac:(lia) ltac:(lia)). lia.
Qed.
Lemma column_bound p v : (v < length (p_tangents p))%nat -> (column p v + tangent p v <= num_columns_of p)%nat.
Proof. intros H. unfold num_columns_of. replace (list_sum (p_tangents p)) with (column p (length (p_tangents p))) by (unfold column; now rewrite firstn_all). apply column_mono; lia. Qed.
Lemma num_cols_eq p : NumEffectiveParameters p = num_columns_of p.
Proof. unfold NumEffectiveParameters, num_columns_of. rewrite (fold_sum (fun t => t)). now rewrite map_id. Qed.
Lemma num_rows_eq p : NumResiduals p = num_rows_of p.
Proof. unfold NumResiduals, num_rows_of. apply (fold_sum r_num). Qed.
Lemma width_fold p b : fold_left (fun n x => (n + tangent p (fst x))%nat) (active 0 (r_args b)) 0%nat = width_of p b.
Proof. rewrite (fold_sum (fun x : nat * nat => tangent p (fst x))). unfold width_of. rewrite <- (active_keys 0), map_map. lia. Qed.
Lemma width_ordered p b : list_sum (map (fun x : nat * nat => tangent p (fst x)) (Ordered b)) = width_of p b.
Proof. unfold width_of. rewrite <- (map_map fst (tangent p)). apply list_sum_perm. apply Permutation_map, ordered_keys. Qed.

(* ---------------------------------------------------------- row by row, in segments *)
Fixpoint Seg {A} (start : nat -> nat) (num col_pos : nat) (segs : list (nat * (nat -> nat -> A))) : list (nat * A) :=
  match segs with
  | [] => []
  | (w, f) :: segs' => flat_map (fun r => map (fun c => ((start r + col_pos + c)%nat, f r c)) (seq 0 w)) (seq 0 num) ++ Seg start num (col_pos + w) segs'
  end.
Definition seg_row {A} (segs : list (nat * (nat -> nat -> A))) (r : nat) : list A := flat_map (fun s => map (snd s r) (seq 0 (fst s))) segs.
Definition seg_width {A} (segs : list (nat * (nat -> nat -> A))) : nat := list_sum (map fst segs).
Lemma seg_row_length {A} (segs : list (nat * (nat -> nat -> A))) r : length (seg_row segs r) = seg_width segs.
Proof. unfold seg_width, seg_row. induction segs as [|s segs IH]; [auto|]. cbn [flat_map map]. rewrite app_length, map_length, seq_length, list_sum_cons. lia. Qed.
Lemma seg_in {A} (start : nat -> nat) num (segs : list (nat * (nat -> nat -> A))) : forall col_pos idx x, In (idx, x) (Seg start num col_pos segs) <->
  exists r t, (r < num)%nat /\ nth_error (seg_row segs r) t = Some x /\ idx = (start r + col_pos + t)%nat.
Proof.
  induction segs as [|[w f] segs IH]; intros col_pos idx x; cbn [Seg].
  - split; [intros []|]. intros [r [[|t] [_ [H _]]]]; discriminate.
  - rewrite in_app_iff, IH. unfold seg_row. cbn [flat_map fst snd]. fold (seg_row segs). split.
    + intros [H|[r [t [A1 [B C]]]]].
      * apply in_flat_map in H. destruct H as [r [R H]]. apply in_seq in R. apply in_map_iff in H. destruct H as [c [E C]]. apply in_seq in C. injection E as <- <-. exists r, c. split; [lia|]. split; [|auto].
        rewrite nth_error_app1 by (rewrite map_length, seq_length; lia). rewrite nth_error_map, (nth_error_nth' _ 0%nat) by (rewrite seq_length; lia). rewrite seq_nth by lia. auto.
      * exists r, (w + t)%nat. split; [auto|]. split; [|lia]. rewrite nth_error_app2 by (rewrite map_length, seq_length; lia). rewrite map_length, seq_length. replace (w + t - w)%nat with t by lia. auto.
    + intros [r [t [R [H ->]]]]. destruct (Nat.lt_ge_cases t w) as [L|L].
      * left. rewrite nth_error_app1 in H by (rewrite map_length, seq_length; lia). rewrite nth_error_map, (nth_error_nth' _ 0%nat) in H by (rewrite seq_length; lia). rewrite seq_nth in H by lia. cbn in H. injection H as <-.
        apply in_flat_map. exists r. split; [apply in_seq; lia|]. apply in_map_iff. exists t. split; [auto|apply in_seq; lia].
      * right. rewrite nth_error_app2 in H by (rewrite map_length, seq_length; lia). rewrite map_length, seq_length in H. exists r, (t - w)%nat. split; [auto|]. split; [auto|lia].
Qed.
Lemma seg_nodup {A} (start : nat -> nat) num (segs : list (nat * (nat -> nat -> A))) : (forall r r', (r < r')%nat -> (r' < num)%nat -> (start r + seg_width segs <= start r')%nat) ->
  NoDup (map fst (Seg start num 0 segs)).
Proof.
  intros H. assert (G : forall col_pos (segs' : list (nat * (nat -> nat -> A))), (col_pos + seg_width segs' <= seg_width segs)%nat -> NoDup (map fst (Seg start num col_pos segs'))); [|apply G; lia].
  intros col_pos segs'. revert col_pos. induction segs' as [|[w f] segs' IH]; intros col_pos L; cbn [Seg]; [constructor|]. change (seg_width ((w, f) :: segs')) with (w + seg_width segs')%nat in L.
  rewrite map_app. apply NoDup_app_intro; [|apply IH; lia|].
  - rewrite map_flat_map. apply NoDup_flat_map; [apply seq_NoDup| |].
    + intros r _. rewrite map_map. cbn [fst]. apply FinFun.Injective_map_NoDup; [intros x y; lia|apply seq_NoDup].
    + intros r r' x R R' X Y. rewrite map_map in X, Y. cbn [fst] in X, Y. apply in_map_iff in X, Y. destruct X as [c [<- C]], Y as [c' [E C']]. apply in_seq in R, R', C, C'.
      destruct (Nat.lt_trichotomy r r') as [Q|[Q|Q]]; [specialize (H r r' Q ltac:(lia)); lia|auto|specialize (H r' r Q ltac:(lia)); lia].
  - intros x X Y. rewrite map_flat_map in X. apply in_flat_map in X. destruct X as [r [R X]]. rewrite map_map in X. cbn [fst] in X. apply in_map_iff in X. destruct X as [c [<- C]]. apply in_seq in R, C.
    apply in_map_iff in Y. destruct Y as [[idx y] [E Y]]. cbn [fst] in E. apply seg_in in Y. destruct Y as [r' [t [R' [T E']]]]. assert (t < seg_width segs')%nat by (rewrite <- (seg_row_length segs' r'); apply nth_error_Some; congruence).
    destruct (Nat.lt_trichotomy r r') as [Q|[->|Q]]; [specialize (H r r' Q ltac:(lia)); lia|lia|specialize (H r' r Q ltac:(lia)); lia].
Qed.

(* the columns and the values of a row *)
Definition col_segs (p : Program) (l : list (nat * nat)) : list (nat * (nat -> nat -> nat)) := map (fun x => (tangent p (fst x), fun _ c => (delta_offset p (fst x) + c)%nat)) l.
Lemma col_stores p rows row_pos num l : forall col_pos, ColStores p rows row_pos num col_pos l = Seg (fun r => nth (row_pos + r) rows 0%nat) num col_pos (col_segs p l).
Proof. induction l as [|[v j] l IH]; intros col_pos; [reflexivity|]. cbn [ColStores col_segs map Seg fst]. now rewrite IH. Qed.
Definition val_segs (p : Program) (l : list (nat * nat)) (ptrs : list (option nat)) (area : vec) : list (nat * (nat -> nat -> R)) :=
  map (fun x => (tangent p (fst x), fun r c => area (match nth (snd x) ptrs None with Some pos => pos | None => 0 end + r * tangent p (fst x) + c)%nat)) l.
Lemma write_stores p rows num offset l ptrs area : forall col_pos, WriteStores p rows num offset col_pos l ptrs area = Seg (fun r => nth (offset + r) rows 0%nat) num col_pos (val_segs p l ptrs area).
Proof. induction l as [|[v j] l IH]; intros col_pos; [reflexivity|]. cbn [WriteStores val_segs map Seg fst snd]. now rewrite IH. Qed.
Lemma seg_width_map {A} p l (f : nat * nat -> nat -> nat -> A) : seg_width (map (fun x => (tangent p (fst x), f x)) l) = list_sum (map (fun x => tangent p (fst x)) l).
Proof. unfold seg_width. now rewrite map_map. Qed.
(* the entries of row k of residual block i *)
Definition full_row (p : Program) (b : RBlock) (jac : nat -> vec) (k : nat) : list (nat * R) :=
  flat_map (fun x => map (fun c => ((column p (fst x) + c)%nat, jac (snd x) (k * tangent p (fst x) + c)%nat)) (seq 0 (tangent p (fst x)))) (Ordered b).
Definition block_ok (p : Program) (b : RBlock) : Prop := NoDup (indices (r_args b)) /\ forall v, In v (indices (r_args b)) -> (v < length (p_tangents p))%nat.
Lemma full_row_cols p b jac k : block_ok p b -> map fst (full_row p b jac k) = seg_row (col_segs p (Ordered b)) k.
Proof.
  intros [N H]. unfold full_row, seg_row, col_segs. rewrite map_flat_map. rewrite flat_map_concat_map, (flat_map_concat_map _ (map _ _)), map_map. f_equal. apply map_ext_in. intros [v j] I. cbn [fst snd]. rewrite map_map. cbn [fst].
  rewrite delta_column; [auto|]. apply H. apply ordered_in in I. apply indices_in. eauto.
Qed.
Lemma full_row_vals p b jac k junk : (k < r_num b)%nat -> map snd (full_row p b jac k) = seg_row (val_segs p (Ordered b) (ScratchPrepare p (r_num b) 0 (r_args b)) (Scratch p b jac junk)) k.
Proof.
  intros K. unfold full_row, seg_row, val_segs. rewrite map_flat_map. rewrite flat_map_concat_map, (flat_map_concat_map _ (map _ _)), map_map. f_equal. apply map_ext_in. intros [v j] I. cbn [fst snd]. rewrite map_map. cbn [snd].
  apply map_ext_in. intros c C. apply in_seq in C. apply ordered_in in I. assert (T : (k * tangent p v + c < r_num b * tangent p v)%nat) by nia. destruct (scratch_value p b jac junk j v _ I T) as [pos [E V]]. rewrite E. rewrite <- Nat.add_assoc. symmetry. exact V.
Qed.
Lemma full_row_length p b jac k : length (full_row p b jac k) = width_of p b.
Proof. unfold full_row. rewrite <- width_ordered. induction (Ordered b) as [|x l IH]; [auto|]. cbn [flat_map map]. rewrite app_length, map_length, seq_length, list_sum_cons. lia. Qed.
Lemma full_row_sorted p b jac k : block_ok p b -> StronglySorted Peano.lt (map fst (full_row p b jac k)).
Proof.
  intros [N H]. unfold full_row. assert (S := ordered_sorted b N). assert (B : forall x, In x (Ordered b) -> (fst x < length (p_tangents p))%nat). { intros [v j] I. apply ordered_in in I. apply H. apply indices_in. eauto. }
  induction (Ordered b) as [|x l IH]; [constructor|]. cbn [map] in S. inversion S as [|? ? S1 S2]; subst. cbn [flat_map]. rewrite map_app, map_map. cbn [fst].
  assert (Q : StronglySorted Peano.lt (map fst (flat_map (fun x => map (fun c => ((column p (fst x) + c)%nat, jac (snd x) (k * tangent p (fst x) + c)%nat)) (seq 0 (tangent p (fst x)))) l))) by (apply IH; [auto|intros y Y; apply B; right; auto]).
  assert (L : forall y, In y (map fst (flat_map (fun x => map (fun c => ((column p (fst x) + c)%nat, jac (snd x) (k * tangent p (fst x) + c)%nat)) (seq 0 (tangent p (fst x)))) l)) -> (column p (fst x) + tangent p (fst x) <= y)%nat).
  { intros y Y. rewrite map_flat_map in Y. apply in_flat_map in Y. destruct Y as [z [Z Y]]. rewrite map_map in Y. cbn [fst] in Y. apply in_map_iff in Y. destruct Y as [c [<- C]].
    rewrite Forall_forall in S2. assert (fst x < fst z)%nat by (apply S2; now apply in_map). generalize (column_mono p (fst x) (fst z) H0 ltac:(generalize (B z ltac:(right; auto)); lia)). lia. }
  revert L Q. generalize (map fst (flat_map (fun x => map (fun c => ((column p (fst x) + c)%nat, jac (snd x) (k * tangent p (fst x) + c)%nat)) (seq 0 (tangent p (fst x)))) l)). intros rest L Q.
  assert (G : forall n a, (a + n <= tangent p (fst x))%nat -> StronglySorted Peano.lt (map (fun c => (column p (fst x) + c)%nat) (seq a n) ++ rest)).
  { induction n as [|n IHn]; intros a A; cbn [seq map app]; [auto|]. constructor; [apply IHn; lia|]. apply Forall_forall. intros y Y. apply in_app_or in Y. destruct Y as [Y|Y]; [apply in_map_iff in Y; destruct Y as [c [<- C]]; apply in_seq in C; lia|]. apply L in Y. lia. }
  apply G. lia.
Qed.
Lemma full_row_bound p b jac k c x : block_ok p b -> In (c, x) (full_row p b jac k) -> (c < num_columns_of p)%nat.
Proof.
  intros [N H] I. unfold full_row in I. apply in_flat_map in I. destruct I as [[v j] [I J]]. cbn [fst snd] in J. apply in_map_iff in J. destruct J as [u [E U]]. apply in_seq in U. injection E as <- <-.
  apply ordered_in in I. assert (v < length (p_tangents p))%nat by (apply H; apply indices_in; eauto). generalize (column_bound p v H0). lia.
Qed.
Lemma full_row_in p b jac k c x : In (c, x) (full_row p b jac k) <-> exists j v u, nth_error (r_args b) j = Some (Varying v) /\ (u < tangent p v)%nat /\ c = (column p v + u)%nat /\ x = jac j (k * tangent p v + u)%nat.
Proof.
  unfold full_row. rewrite in_flat_map. split.
  - intros [[v j] [I J]]. cbn [fst snd] in J. apply in_map_iff in J. destruct J as [u [E U]]. apply in_seq in U. injection E as <- <-. apply ordered_in in I. exists j, v, u. repeat split; auto. lia.
  - intros [j [v [u [I [U [-> ->]]]]]]. exists (v, j). split; [now apply ordered_in|]. cbn [fst snd]. apply in_map_iff. exists u. split; [auto|apply in_seq; lia].
Qed.

(* ---------------------------------------------------------- a row decides its part of the matrix *)
Lemma sorted_nodup l : StronglySorted Peano.lt l -> NoDup l.
Proof. induction l as [|a l IH]; intros S; [constructor|]. inversion S as [|? ? S1 S2]; subst. constructor; [|auto]. intros I. rewrite Forall_forall in S2. specialize (S2 a I). lia. Qed.
Lemma rowval_in l c x : NoDup (map fst l) -> In (c, x) l -> rowval l c = x.
Proof.
  unfold rowval. induction l as [|[d y] l IH]; intros N I; [destruct I|]. cbn [map fst] in N. inversion N as [|? ? N1 N2]; subst. unfold suml. cbn [fold_right fst snd]. fold (suml (fun cv : nat * R => if Nat.eqb (fst cv) c then snd cv else 0) l). destruct I as [E|I].
  - injection E as -> ->. rewrite Nat.eqb_refl. rewrite suml_zero; [ring|]. intros [d z] D. cbn [fst snd]. destruct (Nat.eqb_spec d c) as [->|]; [|auto]. exfalso. apply N1. apply in_map_iff. exists (c, z). auto.
  - destruct (Nat.eqb_spec d c) as [->|].
    + exfalso. apply N1. apply in_map_iff. exists (c, x). auto.
    + rewrite (IH N2 I). ring.
Qed.
Lemma rowval_absent l c : (forall x, ~ In (c, x) l) -> rowval l c = 0.
Proof. intros H. unfold rowval. apply suml_zero. intros [d z] D. cbn [fst snd]. destruct (Nat.eqb_spec d c) as [->|]; [|auto]. exfalso. eapply H; eauto. Qed.
Lemma rows_jacobian p jac M : well_formed p -> (forall i b k c, nth_error (p_blocks p) i = Some b -> (k < r_num b)%nat -> M (rows_before p i + k)%nat c = rowval (full_row p b (jac i) k) c) -> is_jacobian p jac M.
Proof.
  intros W H i b k B K. assert (O : block_ok p b) by (apply W; eapply nth_error_In; eauto). split.
  - intros j v u J U. rewrite (H i b k _ B K). apply rowval_in; [apply sorted_nodup, full_row_sorted; auto|]. apply full_row_in. exists j, v, u. auto.
  - intros c C. rewrite (H i b k _ B K). apply rowval_absent. intros x X. apply full_row_in in X. destruct X as [j [v [u [J [U [-> _]]]]]]. apply (C v); [apply indices_in; eauto|lia].
Qed.
Lemma rowval_filter l c : rowval (filter (fun x => nonzero (snd x)) l) c = rowval l c.
Proof.
  unfold rowval. induction l as [|[d y] l IH]; [auto|]. cbn [filter snd]. unfold nonzero at 1. destruct (Req_EM_T y 0) as [->|N].
  - unfold suml in *. cbn [fold_right fst snd]. rewrite <- IH. destruct (Nat.eqb d c); ring.
  - unfold suml in *. cbn [fold_right fst snd]. now rewrite IH.
Qed.
