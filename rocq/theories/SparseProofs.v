(* Lemmas for C45. *)

From Coq Require Import List Arith Bool Reals Permutation Sorted Lia Lra.
From Verif Require Import SparseModel SparseSpec.
Import ListNotations.
Local Open Scope R_scope.

(* ------------------------------------------------------------------ *)
(* arrays                                                              *)

Lemma set_nth_length {A} (l : list A) i x : length (set_nth l i x) = length l.
Proof. revert i. induction l as [|y l IH]; intros [|i]; cbn; auto. Qed.

Lemma set_nth_same {A} (l : list A) i x d : (i < length l)%nat -> nth i (set_nth l i x) d = x.
Proof.
  revert i. induction l as [|y l IH]; intros [|i] H; cbn in *; try lia; auto.
  apply IH. lia.
Qed.

Lemma set_nth_other {A} (l : list A) i j x d : i <> j -> nth j (set_nth l i x) d = nth j l d.
Proof.
  revert i j. induction l as [|y l IH]; intros [|i] [|j] H; cbn; auto; try lia.
Qed.

Lemma set_nth_oob {A} (l : list A) i x : (length l <= i)%nat -> set_nth l i x = l.
Proof.
  revert i. induction l as [|y l IH]; intros [|i] H; cbn in *; try lia; auto.
  rewrite IH; [auto|lia].
Qed.

Lemma nth_ext_len {A} (d : A) l1 l2 : length l1 = length l2 ->
  (forall i, (i < length l1)%nat -> nth i l1 d = nth i l2 d) -> l1 = l2.
Proof. intros. eapply nth_ext; eauto. Qed.

Lemma nth_firstn {A} (d : A) n l i : (i < n)%nat -> nth i (firstn n l) d = nth i l d.
Proof.
  revert n i. induction l as [|y l IH]; intros [|n] [|i] H; cbn; auto; try lia.
  apply IH. lia.
Qed.

Lemma nth_skipn {A} (d : A) n l i : nth i (skipn n l) d = nth (n + i) l d.
Proof.
  revert n. induction l as [|y l IH]; intros [|n]; cbn; auto.
  destruct i; auto.
Qed.

Lemma skipn_S {A} n (l : list A) : skipn (S n) l = skipn 1 (skipn n l).
Proof.
  revert l. induction n as [|n IH]; intros [|x l]; auto. cbn [skipn].
  specialize (IH l). cbn [skipn] in IH. exact IH.
Qed.

Lemma range_S a b : (a <= b)%nat -> range a (S b) = range a b ++ [b].
Proof.
  intros H. unfold range. replace (S b - a)%nat with (S (b - a)) by lia.
  rewrite seq_S. f_equal. f_equal. lia.
Qed.

Lemma range_nil a b : (b <= a)%nat -> range a b = [].
Proof. intros H. unfold range. now replace (b - a)%nat with 0%nat by lia. Qed.

Lemma range_cons a b : (a < b)%nat -> range a b = a :: range (S a) b.
Proof. intros H. unfold range. replace (b - a)%nat with (S (b - S a)) by lia. reflexivity. Qed.

Lemma in_range_range a b i : In i (range a b) <-> (a <= i < b)%nat.
Proof. unfold range. rewrite in_seq. lia. Qed.

Lemma range_app a b c : (a <= b <= c)%nat -> range a b ++ range b c = range a c.
Proof.
  intros H. unfold range. replace (c - a)%nat with ((b - a) + (c - b))%nat by lia.
  rewrite seq_app. now replace (a + (b - a))%nat with b by lia.
Qed.

Lemma range_length a b : length (range a b) = (b - a)%nat.
Proof. unfold range. apply seq_length. Qed.

Lemma range_0 n : range 0 n = seq 0 n.
Proof. unfold range. now rewrite Nat.sub_0_r. Qed.

Lemma map_nth_range {A B} (f : A -> B) (d : A) (l : list A) a b :
  (b <= length l)%nat ->
  map (fun i => f (nth i l d)) (range a b) = map f (skipn a (firstn b l)).
Proof.
  intros H. destruct (Nat.le_gt_cases b a) as [L|L].
  { rewrite range_nil by auto. rewrite skipn_all2; [reflexivity|]. rewrite firstn_length. lia. }
  apply (nth_ext_len (f d)).
  { rewrite !map_length, range_length, skipn_length, firstn_length. lia. }
  intros i Hi. rewrite map_length, range_length in Hi.
  rewrite (nth_indep _ (f d) ((fun i => f (nth i l d)) 0%nat))
    by (rewrite map_length, range_length; lia).
  rewrite (map_nth (fun i => f (nth i l d)) (range a b) 0%nat i), map_nth.
  unfold range. rewrite seq_nth by lia. now rewrite nth_skipn, nth_firstn by lia.
Qed.

Lemma map_nth_all {A} (d : A) (l : list A) n : (n <= length l)%nat ->
  map (fun i => nth i l d) (range 0 n) = firstn n l.
Proof.
  intros H. rewrite (map_nth_range (fun x => x) d l 0 n) by auto. cbn. apply map_id.
Qed.

Lemma fold_left_flat_map {A B C} (f : C -> B -> C) (g : A -> list B) l s :
  fold_left f (flat_map g l) s = fold_left (fun s a => fold_left f (g a) s) l s.
Proof.
  revert s. induction l as [|a l IH]; intros s; cbn; [auto|]. now rewrite fold_left_app, IH.
Qed.

Lemma fold_left_map {A B C} (f : C -> B -> C) (g : A -> B) l s :
  fold_left f (map g l) s = fold_left (fun s a => f s (g a)) l s.
Proof. revert s. induction l; intros s; cbn; auto. Qed.

Lemma fold_left_ext {A B} (f g : A -> B -> A) l :
  (forall s b, In b l -> f s b = g s b) -> forall s, fold_left f l s = fold_left g l s.
Proof.
  induction l as [|b l IH]; intros H s; cbn; [auto|]. rewrite H by (left; auto).
  apply IH. intros. apply H. now right.
Qed.

(* ------------------------------------------------------------------ *)
(* sums                                                                *)

Fixpoint suml {A} (f : A -> R) (l : list A) : R :=
  match l with [] => 0 | x :: r => f x + suml f r end.

Lemma suml_app {A} (f : A -> R) l1 l2 : suml f (l1 ++ l2) = suml f l1 + suml f l2.
Proof. induction l1 as [|a l1 IH]; cbn; [lra|]. rewrite IH. lra. Qed.

Lemma suml_perm {A} (f : A -> R) l1 l2 : Permutation l1 l2 -> suml f l1 = suml f l2.
Proof. induction 1; cbn; lra. Qed.

Lemma suml_ext {A} (f g : A -> R) l : (forall x, In x l -> f x = g x) -> suml f l = suml g l.
Proof.
  induction l as [|a l IH]; intros H; cbn; [auto|]. rewrite H by (left; auto).
  rewrite IH; auto. intros. apply H. now right.
Qed.

Lemma suml_map {A B} (f : B -> R) (g : A -> B) l : suml f (map g l) = suml (fun a => f (g a)) l.
Proof. induction l as [|a l IH]; cbn; [auto|]. now rewrite IH. Qed.

Lemma suml_plus {A} (f g : A -> R) l : suml (fun x => f x + g x) l = suml f l + suml g l.
Proof. induction l as [|a l IH]; cbn; [lra|]. rewrite IH. lra. Qed.

Lemma suml_zero {A} (f : A -> R) l : (forall x, In x l -> f x = 0) -> suml f l = 0.
Proof.
  induction l as [|a l IH]; intros H; cbn; [auto|]. rewrite H by (left; auto).
  rewrite IH; [lra|]. intros. apply H. now right.
Qed.

Lemma suml_scal {A} (f : A -> R) k l : suml (fun x => f x * k) l = suml f l * k.
Proof. induction l as [|a l IH]; cbn; [lra|]. rewrite IH. lra. Qed.

Lemma suml_flat_map {A B} (f : B -> R) (g : A -> list B) l :
  suml f (flat_map g l) = suml (fun a => suml f (g a)) l.
Proof. induction l as [|a l IH]; cbn; [auto|]. now rewrite suml_app, IH. Qed.

Lemma suml_swap {A B} (f : A -> B -> R) l1 l2 :
  suml (fun a => suml (f a) l2) l1 = suml (fun b => suml (fun a => f a b) l1) l2.
Proof.
  induction l1 as [|a l1 IH]; cbn.
  - symmetry. now apply suml_zero.
  - now rewrite IH, <- suml_plus.
Qed.

Lemma sum_below_suml n f : sum_below n f = suml f (seq 0 n).
Proof.
  induction n as [|n IH]; [auto|]. rewrite seq_S, suml_app. cbn [sum_below suml Nat.add].
  rewrite IH. lra.
Qed.

Lemma suml_delta n j (f : nat -> R) : (j < n)%nat ->
  suml (fun i => if Nat.eqb j i then f i else 0) (seq 0 n) = f j.
Proof.
  intros H. replace n with (j + S (n - S j))%nat by lia.
  rewrite seq_app, suml_app. cbn [seq suml Nat.add]. rewrite Nat.eqb_refl.
  rewrite suml_zero, suml_zero; [lra| |].
  - intros i I. apply in_seq in I. destruct (Nat.eqb_spec j i); [lia|auto].
  - intros i I. apply in_seq in I. destruct (Nat.eqb_spec j i); [lia|auto].
Qed.

(* ------------------------------------------------------------------ *)
(* loops that accumulate                                               *)

Lemma fold_add_at {A} (f : A -> nat) (g : A -> R) l : forall y j,
  fold_left (fun y a => add_at y (f a) (g a)) l y j =
  y j + suml (fun a => if Nat.eqb (f a) j then g a else 0) l.
Proof.
  induction l as [|a l IH]; intros y j; cbn [fold_left suml]; [lra|].
  rewrite IH. unfold add_at. rewrite (Nat.eqb_sym j). destruct (Nat.eqb (f a) j); lra.
Qed.

Lemma matrix_of_suml es r c :
  matrix_of es r c =
  suml (fun e => if Nat.eqb (c_row e) r && Nat.eqb (c_col e) c then c_val e else 0) es.
Proof. induction es as [|e es IH]; cbn; [auto|]. now rewrite IH. Qed.

Lemma matrix_of_app a b r c : matrix_of (a ++ b) r c = matrix_of a r c + matrix_of b r c.
Proof. now rewrite !matrix_of_suml, suml_app. Qed.

Lemma matrix_of_perm a b r c : Permutation a b -> matrix_of a r c = matrix_of b r c.
Proof. intros H. rewrite !matrix_of_suml. now apply suml_perm. Qed.

(* row sums over columns pick out every entry once *)
Lemma matrix_row_sum es nc (f : nat -> R) r :
  (forall e, In e es -> (c_col e < nc)%nat) ->
  sum_below nc (fun c => matrix_of es r c * f c) =
  suml (fun e => if Nat.eqb (c_row e) r then c_val e * f (c_col e) else 0) es.
Proof.
  intros H. rewrite sum_below_suml.
  rewrite (suml_ext _ (fun c => suml (fun e =>
     if Nat.eqb (c_row e) r && Nat.eqb (c_col e) c then c_val e * f c else 0) es)).
  2:{ intros c _. rewrite matrix_of_suml, <- suml_scal. apply suml_ext. intros e _.
      destruct (_ && _); lra. }
  rewrite suml_swap. apply suml_ext. intros e He.
  destruct (Nat.eqb (c_row e) r); cbn [andb].
  - rewrite (suml_delta nc (c_col e) (fun c => c_val e * f c)); auto.
  - now apply suml_zero.
Qed.

Lemma matrix_col_sum es nr (f : nat -> R) c :
  (forall e, In e es -> (c_row e < nr)%nat) ->
  sum_below nr (fun r => matrix_of es r c * f r) =
  suml (fun e => if Nat.eqb (c_col e) c then c_val e * f (c_row e) else 0) es.
Proof.
  intros H. rewrite sum_below_suml.
  rewrite (suml_ext _ (fun r => suml (fun e =>
     if Nat.eqb (c_row e) r && Nat.eqb (c_col e) c then c_val e * f r else 0) es)).
  2:{ intros r _. rewrite matrix_of_suml, <- suml_scal. apply suml_ext. intros e _.
      destruct (_ && _); lra. }
  rewrite suml_swap. apply suml_ext. intros e He.
  destruct (Nat.eqb (c_col e) c).
  - rewrite <- (suml_delta nr (c_row e) (fun r => c_val e * f r)) by auto.
    apply suml_ext. intros r _. now rewrite andb_true_r.
  - apply suml_zero. intros r _. now rewrite andb_false_r.
Qed.

(* with distinct positions an entry of the matrix is one stored value *)
Lemma matrix_of_once es r c v : no_duplicates es -> In (r, c, v) es -> matrix_of es r c = v.
Proof.
  unfold no_duplicates. induction es as [|e es IH]; cbn [map]; intros ND I; [destruct I|].
  inversion ND as [|x l NI ND']; subst. cbn [matrix_of]. destruct I as [->|I].
  - unfold c_row, c_col, c_val. cbn [fst snd]. rewrite !Nat.eqb_refl. cbn [andb].
    enough (matrix_of es r c = 0) by lra. rewrite matrix_of_suml. apply suml_zero.
    intros e He. unfold c_row, c_col. destruct e as [[r' c'] v']. cbn [fst snd] in *.
    destruct (Nat.eqb_spec r' r), (Nat.eqb_spec c' c); cbn [andb]; auto. subst.
    exfalso. apply NI. now apply (in_map fst) in He.
  - rewrite (IH ND' I). destruct e as [[r' c'] v']. unfold c_row, c_col, c_val. cbn [fst snd] in *.
    destruct (Nat.eqb_spec r' r), (Nat.eqb_spec c' c); cbn [andb]; try lra. subst.
    exfalso. apply NI. now apply (in_map fst) in I.
Qed.

Lemma matrix_of_absent es r c : ~ In (r, c) (map fst es) -> matrix_of es r c = 0.
Proof.
  intros H. rewrite matrix_of_suml. apply suml_zero. intros e He.
  destruct e as [[r' c'] v']. unfold c_row, c_col. cbn [fst snd].
  destruct (Nat.eqb_spec r' r), (Nat.eqb_spec c' c); cbn [andb]; auto. subst.
  exfalso. apply H. now apply (in_map fst) in He.
Qed.

(* the squares add up only if positions are distinct *)
Lemma matrix_square es r c : no_duplicates es ->
  matrix_of (map (fun e => (c_row e, c_col e, c_val e * c_val e)) es) r c =
  matrix_of es r c * matrix_of es r c.
Proof.
  unfold no_duplicates. induction es as [|e es IH]; cbn [map]; intros ND; [cbn; lra|].
  inversion ND as [|x l NI ND']; subst. cbn [matrix_of]. rewrite IH by auto.
  destruct e as [[r' c'] v']. unfold c_row, c_col, c_val. cbn [fst snd].
  destruct (Nat.eqb_spec r' r), (Nat.eqb_spec c' c); cbn [andb]; try lra. subst.
  rewrite matrix_of_absent by auto. lra.
Qed.

Lemma suml_square_col es nr c : no_duplicates es -> (forall e, In e es -> (c_row e < nr)%nat) ->
  suml (fun e => if Nat.eqb (c_col e) c then c_val e * c_val e else 0) es =
  sum_below nr (fun r => matrix_of es r c * matrix_of es r c).
Proof.
  intros ND B.
  rewrite <- (suml_ext (fun e => if Nat.eqb (c_col e) c then c_val e * c_val e * 1 else 0))
    by (intros; destruct (Nat.eqb _ _); lra).
  pose proof (matrix_col_sum (map (fun e => (c_row e, c_col e, c_val e * c_val e)) es) nr
                (fun _ => 1) c) as Q.
  rewrite suml_map in Q. cbn [c_row c_col c_val fst snd] in Q.
  transitivity (sum_below nr (fun r => matrix_of
    (map (fun e => (c_row e, c_col e, c_val e * c_val e)) es) r c * 1)).
  - rewrite Q. 2:{ intros e He. apply in_map_iff in He as (e' & <- & He'). cbn. now apply B. }
    apply suml_ext. intros e _. unfold c_row, c_col, c_val. reflexivity.
  - rewrite !sum_below_suml. apply suml_ext. intros r _. rewrite matrix_square by auto. lra.
Qed.

(* ------------------------------------------------------------------ *)
(* triplets                                                            *)

Definition cell0 : cell := (0%nat, 0%nat, 0).

Lemma t_cells t : t_valid t -> map (t_cell t) (range 0 (t_nnz t)) = t_entries t.
Proof. intros [H _]. unfold t_cell. now apply (map_nth_all cell0). Qed.

Lemma t_in t e : t_valid t -> In e (t_entries t) ->
  (c_row e < t_num_rows t)%nat /\ (c_col e < t_num_cols t)%nat.
Proof. intros [_ H] I. rewrite Forall_forall in H. now apply H. Qed.

Lemma t_right_eq t x y i : t_valid t ->
  t_right t x y i = y i + sum_below (t_num_cols t) (fun c => t_matrix t i c * x c).
Proof.
  intros V. unfold t_right.
  rewrite <- (fold_left_map (fun y e => add_at y (c_row e) (c_val e * x (c_col e)))).
  rewrite t_cells by auto. rewrite fold_add_at. f_equal. symmetry. apply matrix_row_sum.
  intros e He. now apply (t_in t).
Qed.

Lemma t_left_eq t x y j : t_valid t ->
  t_left t x y j = y j + sum_below (t_num_rows t) (fun r => t_matrix t r j * x r).
Proof.
  intros V. unfold t_left.
  rewrite <- (fold_left_map (fun y e => add_at y (c_col e) (c_val e * x (c_row e)))).
  rewrite t_cells by auto. rewrite fold_add_at. f_equal. symmetry. apply matrix_col_sum.
  intros e He. now apply (t_in t).
Qed.

Lemma t_dense_eq t r c : t_valid t -> t_dense t r c = t_matrix t r c.
Proof.
  intros V. unfold t_dense, t_matrix.
  rewrite <- (fold_left_map (fun (m : nat -> nat -> R) e =>
      fun r c => if Nat.eqb r (c_row e) && Nat.eqb c (c_col e) then m r c + c_val e else m r c)).
  rewrite t_cells by auto.
  assert (G : forall es (m : nat -> nat -> R), fold_left (fun (m : nat -> nat -> R) e =>
      fun r c => if Nat.eqb r (c_row e) && Nat.eqb c (c_col e) then m r c + c_val e else m r c)
      es m r c = m r c + matrix_of es r c).
  { induction es as [|e es IH]; intros m; cbn [fold_left matrix_of]; [lra|].
    rewrite IH. rewrite (Nat.eqb_sym r), (Nat.eqb_sym c). destruct (_ && _); lra. }
  rewrite G. lra.
Qed.

Lemma t_norm_eq t x c : t_valid t -> no_duplicates (t_entries t) ->
  t_squared_norm t x c =
  if (c <? t_num_cols t)%nat
  then sum_below (t_num_rows t) (fun r => t_matrix t r c * t_matrix t r c) else x c.
Proof.
  intros V ND. unfold t_squared_norm.
  rewrite <- (fold_left_map (fun y e => add_at y (c_col e) (c_val e * c_val e))).
  rewrite t_cells by auto. rewrite fold_add_at.
  rewrite (suml_square_col _ (t_num_rows t)); auto.
  2:{ intros e He. now apply (t_in t). }
  fold (t_matrix t). destruct (Nat.ltb_spec c (t_num_cols t)); [lra|].
  rewrite sum_below_suml, suml_zero; [lra|]. intros r _. unfold t_matrix.
  rewrite matrix_of_absent; [lra|]. intros I. apply in_map_iff in I as ((p & v) & E & I).
  cbn in E. subst p. apply (t_in t) in I; auto. cbn in I. unfold c_col in I. cbn in I. lia.
Qed.

(* a loop that rewrites every element once *)
Lemma fold_set_map {A} (f : A -> A) (d : A) n : forall (l : list A), (n <= length l)%nat ->
  fold_left (fun l i => set_nth l i (f (nth i l d))) (range 0 n) l =
  map f (firstn n l) ++ skipn n l.
Proof.
  induction n as [|n IH]; intros l H; [reflexivity|].
  rewrite range_S, fold_left_app by lia. cbn [fold_left]. rewrite IH by lia.
  apply (nth_ext_len d).
  - rewrite set_nth_length, !app_length, !map_length, !firstn_length, !skipn_length. lia.
  - intros i Hi.
    assert (L1 : length (map f (firstn n l)) = n) by (rewrite map_length, firstn_length; lia).
    assert (L2 : length (map f (firstn (S n) l)) = S n) by (rewrite map_length, firstn_length; lia).
    assert (LEN : (n < length (map f (firstn n l) ++ skipn n l))%nat).
    { rewrite app_length, L1, skipn_length. lia. }
    assert (VAL : nth n (map f (firstn n l) ++ skipn n l) d = nth n l d).
    { rewrite app_nth2, L1 by lia. rewrite nth_skipn. f_equal. lia. }
    destruct (Nat.eq_dec i n) as [->|NE].
    + rewrite set_nth_same by auto. rewrite VAL.
      rewrite app_nth1 by lia.
      rewrite (nth_indep (map f (firstn (S n) l)) d (f d)) by lia.
      rewrite map_nth, nth_firstn by lia. reflexivity.
    + rewrite set_nth_other by auto. destruct (Nat.lt_ge_cases i n).
      * rewrite !app_nth1 by lia.
        rewrite !(nth_indep (map f _) d (f d)) by lia.
        rewrite !map_nth, !nth_firstn by lia. reflexivity.
      * rewrite !app_nth2, L1, L2, !nth_skipn by lia. f_equal. lia.
Qed.

Definition scale_cell (scale : nat -> R) (e : cell) : cell :=
  (c_row e, c_col e, c_val e * scale (c_col e)).

Lemma matrix_of_scale scale es r c :
  matrix_of (map (scale_cell scale) es) r c = matrix_of es r c * scale c.
Proof.
  induction es as [|e es IH]; cbn [map matrix_of]; [lra|]. rewrite IH.
  unfold scale_cell, c_row, c_col, c_val. cbn [fst snd].
  destruct (Nat.eqb (fst (fst e)) r); cbn [andb]; [|lra].
  destruct (Nat.eqb_spec (snd (fst e)) c) as [->|]; lra.
Qed.

Lemma t_scale_entries t scale : t_valid t ->
  t_entries (t_scale t scale) = map (scale_cell scale) (t_entries t).
Proof.
  intros [H _]. unfold t_entries, t_scale. cbn [t_nnz t_data].
  rewrite (fold_set_map (scale_cell scale) cell0) by auto.
  rewrite firstn_app, map_length, firstn_length, Nat.min_l by auto.
  rewrite Nat.sub_diag. cbn [firstn]. rewrite app_nil_r.
  rewrite firstn_all2; [auto|]. rewrite map_length, firstn_length. lia.
Qed.

(* appending: the first nnz stay, b's cells follow shifted *)
Definition shift_cell (dr dc : nat) (e : cell) : cell :=
  ((c_row e + dr)%nat, (c_col e + dc)%nat, c_val e).

Lemma append_loop dr dc b k : forall d n, (k <= t_nnz b)%nat -> (t_nnz b <= length (t_data b))%nat ->
  (n + k <= length d)%nat ->
  fold_left (append_step dr dc b) (range 0 k) (d, n) =
  (firstn n d ++ map (shift_cell dr dc) (firstn k (t_data b)) ++ skipn (n + k) d, (n + k)%nat).
Proof.
  induction k as [|k IH]; intros d n Hk Hb Hd.
  - cbn. rewrite Nat.add_0_r, firstn_skipn. reflexivity.
  - rewrite range_S, fold_left_app by lia. cbn [fold_left]. rewrite IH by lia.
    unfold append_step. f_equal; [|lia].
    assert (LE : length (firstn n d) = n) by (rewrite firstn_length; lia).
    assert (LF : length (map (shift_cell dr dc) (firstn k (t_data b))) = k)
      by (rewrite map_length, firstn_length; lia).
    assert (LG : length (map (shift_cell dr dc) (firstn (S k) (t_data b))) = S k)
      by (rewrite map_length, firstn_length; lia).
    apply (nth_ext_len cell0).
    + rewrite set_nth_length, !app_length, !LF, !LG, !skipn_length. lia.
    + intros i Hi. rewrite set_nth_length, !app_length, LE, LF, skipn_length in Hi.
      destruct (Nat.eq_dec i (n + k)) as [->|NE].
      * rewrite set_nth_same by (rewrite !app_length, LE, LF, skipn_length; lia).
        rewrite app_nth2, LE by lia. rewrite app_nth1 by lia.
        replace (n + k - n)%nat with k by lia.
        rewrite (nth_indep _ cell0 (shift_cell dr dc cell0)) by lia.
        rewrite map_nth, nth_firstn by lia. reflexivity.
      * rewrite set_nth_other by auto. destruct (Nat.lt_ge_cases i n).
        -- rewrite !app_nth1 by lia. reflexivity.
        -- rewrite !(app_nth2 (firstn n d)), LE by lia.
           destruct (Nat.lt_ge_cases i (n + k)).
           ++ rewrite !app_nth1 by lia.
              rewrite !(nth_indep _ cell0 (shift_cell dr dc cell0)) by lia.
              rewrite !map_nth, !nth_firstn by lia. reflexivity.
           ++ rewrite !app_nth2, LF, LG, !nth_skipn by lia. f_equal. lia.
Qed.

Lemma t_append_entries dr dc nr nc t b t' : t_valid t -> t_valid b ->
  t_append dr dc nr nc t b = Some t' ->
  t_num_rows t' = nr /\ t_num_cols t' = nc /\
  (t_nnz t' <= length (t_data t'))%nat /\
  t_entries t' = t_entries t ++ map (shift_cell dr dc) (t_entries b).
Proof.
  intros [Vt _] [Vb _]. unfold t_append.
  destruct (t_reserve t (t_nnz t + t_nnz b)) as [t1|] eqn:E; [|discriminate].
  assert (R : t_nnz t1 = t_nnz t /\ (t_nnz t + t_nnz b <= length (t_data t1))%nat /\
              firstn (t_nnz t) (t_data t1) = t_entries t).
  { unfold t_reserve in E. destruct (Nat.leb_spec (t_nnz t) (t_nnz t + t_nnz b)); [|discriminate].
    cbn [negb] in E. destruct (Nat.leb_spec (t_nnz t + t_nnz b) (length (t_data t))).
    - injection E as <-. repeat split; auto.
    - injection E as <-. cbn [t_nnz t_data]. split; [auto|]. split.
      + rewrite app_length, firstn_length, repeat_length. lia.
      + rewrite firstn_app, firstn_length, Nat.min_l, Nat.sub_diag by lia. cbn [firstn].
        rewrite app_nil_r, firstn_firstn, Nat.min_id. reflexivity. }
  destruct R as (R1 & R2 & R3).
  rewrite append_loop by lia. intros Q. injection Q as <-. cbn [t_num_rows t_num_cols t_nnz t_data].
  split; [auto|]. split; [auto|].
  assert (LEN : length (firstn (t_nnz t1) (t_data t1) ++
     map (shift_cell dr dc) (firstn (t_nnz b) (t_data b))) = (t_nnz t1 + t_nnz b)%nat).
  { rewrite app_length, map_length, !firstn_length. lia. }
  split.
  - rewrite app_assoc, app_length, LEN. lia.
  - unfold t_entries at 1. cbn [t_nnz t_data].
    rewrite app_assoc, firstn_app, LEN, Nat.sub_diag. cbn [firstn].
    rewrite app_nil_r, firstn_all2 by lia. rewrite R1, R3. reflexivity.
Qed.

Lemma t_append_total dr dc nr nc t b : exists t', t_append dr dc nr nc t b = Some t'.
Proof.
  unfold t_append, t_reserve.
  destruct (Nat.leb_spec (t_nnz t) (t_nnz t + t_nnz b)); [cbn [negb]|lia].
  destruct (t_nnz t + t_nnz b <=? length (t_data t))%nat;
    match goal with |- context [fold_left ?f ?l ?s] => destruct (fold_left f l s) end; eauto.
Qed.

Lemma matrix_of_shift dr dc es r c :
  matrix_of (map (shift_cell dr dc) es) r c =
  if (dr <=? r)%nat && (dc <=? c)%nat then matrix_of es (r - dr) (c - dc) else 0.
Proof.
  induction es as [|e es IH]; cbn [map matrix_of].
  - now destruct (_ && _).
  - rewrite IH. unfold shift_cell, c_row, c_col, c_val. cbn [fst snd].
    destruct (Nat.leb_spec dr r), (Nat.leb_spec dc c); cbn [andb];
      repeat match goal with |- context [Nat.eqb ?a ?b] => destruct (Nat.eqb_spec a b) end;
      cbn [andb]; try lia; lra.
Qed.

(* Resize in place *)
Lemma resize_loop nr nc n : forall d, (n <= length d)%nat ->
  let keep := filter (fun e => (c_row e <? nr)%nat && (c_col e <? nc)%nat) (firstn n d) in
  exists d', fold_left (resize_step nr nc) (range 0 n) (d, 0%nat) = (d', (n - length keep)%nat) /\
    length d' = length d /\ firstn (length keep) d' = keep /\ skipn n d' = skipn n d.
Proof.
  induction n as [|n IH]; intros d Hd.
  - cbn. exists d. auto.
  - destruct (IH d) as (d1 & E & L1 & F1 & S1); [lia|]. cbv zeta in *.
    set (P := fun e => (c_row e <? nr)%nat && (c_col e <? nc)%nat) in *.
    assert (FS : firstn (S n) d = firstn n d ++ [nth n d cell0]).
    { apply (nth_ext_len cell0).
      - rewrite app_length, !firstn_length. cbn [length]. lia.
      - intros i Hi. rewrite firstn_length in Hi. rewrite nth_firstn by lia.
        destruct (Nat.eq_dec i n) as [->|].
        + rewrite app_nth2; rewrite firstn_length; [|lia].
          replace (n - Nat.min n (length d))%nat with 0%nat by lia. reflexivity.
        + rewrite app_nth1 by (rewrite firstn_length; lia). now rewrite nth_firstn by lia. }
    assert (KL : (length (filter P (firstn n d)) <= n)%nat).
    { clear. assert (G : forall l, (length (filter P l) <= length l)%nat).
      { induction l as [|x l IH]; cbn; [lia|]. destruct (P x); cbn; lia. }
      specialize (G (firstn n d)). rewrite firstn_length in G. lia. }
    assert (NN : nth n d1 cell0 = nth n d cell0).
    { pose proof (f_equal (fun l => nth 0 l cell0) S1) as Q. cbn beta in Q.
      rewrite !nth_skipn, Nat.add_0_r in Q. exact Q. }
    rewrite FS, filter_app, range_S, fold_left_app, E by lia. cbn [fold_left filter].
    unfold resize_step. fold cell0. rewrite NN. fold (P (nth n d cell0)).
    destruct (P (nth n d cell0)) eqn:EP.
    + rewrite app_length. cbn [length].
      set (k := length (filter P (firstn n d))) in *.
      assert (S1' : skipn (S n) d1 = skipn (S n) d).
      { now rewrite (skipn_S n d1), (skipn_S n d), S1. }
      destruct (Nat.eqb_spec (n - k) 0) as [Z|NZ].
      * exists d1. split; [f_equal; lia|]. split; [auto|]. split; [|auto].
        assert (k = n) by lia. rewrite <- F1.
        apply (nth_ext_len cell0).
        -- rewrite app_length, !firstn_length. cbn [length]. lia.
        -- intros i Hi. rewrite firstn_length in Hi. rewrite nth_firstn by lia.
           destruct (Nat.eq_dec i n) as [->|].
           ++ rewrite app_nth2; rewrite firstn_length; [|lia].
              replace (n - Nat.min k (length d1))%nat with 0%nat by lia. cbn [nth]. auto.
           ++ rewrite app_nth1 by (rewrite firstn_length; lia). now rewrite nth_firstn by lia.
      * exists (set_nth d1 (n - (n - k)) (nth n d cell0)). split; [f_equal; lia|].
        split; [now rewrite set_nth_length|].
        replace (n - (n - k))%nat with k by lia. split.
        -- apply (nth_ext_len cell0).
           ++ rewrite app_length, firstn_length, set_nth_length. cbn [length]. lia.
           ++ intros i Hi. rewrite firstn_length, set_nth_length in Hi. rewrite nth_firstn by lia.
              destruct (Nat.eq_dec i k) as [->|].
              ** rewrite set_nth_same by lia. rewrite app_nth2 by lia.
                 unfold k at 1. rewrite Nat.sub_diag. reflexivity.
              ** rewrite set_nth_other by lia. rewrite app_nth1 by (fold k; lia).
                 rewrite <- F1. now rewrite nth_firstn by lia.
        -- rewrite <- S1'. apply (nth_ext_len cell0).
           ++ rewrite !skipn_length, set_nth_length. reflexivity.
           ++ intros i Hi. rewrite !nth_skipn. apply set_nth_other. lia.
    + rewrite app_nil_r. exists d1. split; [f_equal; lia|]. split; [auto|]. split; [auto|].
      now rewrite (skipn_S n d1), (skipn_S n d), S1.
Qed.

Lemma matrix_of_filter (P : nat -> nat -> bool) es r c :
  matrix_of (filter (fun e => P (c_row e) (c_col e)) es) r c =
  if P r c then matrix_of es r c else 0.
Proof.
  induction es as [|e es IH]; cbn [filter matrix_of]; [now destruct (P r c)|].
  destruct (P (c_row e) (c_col e)) eqn:E; cbn [matrix_of]; rewrite IH;
    destruct (Nat.eqb_spec (c_row e) r), (Nat.eqb_spec (c_col e) c); cbn [andb];
    destruct (P r c) eqn:E'; try lra; congruence.
Qed.
