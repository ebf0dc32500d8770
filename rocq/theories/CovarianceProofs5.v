(* C65: the two triangular solves give columns of the inverse *)
From Coq Require Import Reals ZArith List Arith Bool Lia Lra Permutation.
From Verif Require Import SchurModel SchurProofs CGModel CGSpec SparseModel SparseSpec CovarianceModel ImplicitSchurSpec CovarianceSpec.
From Verif Require SparseProofs SparseProofs3.
Import ListNotations.
Open Scope R_scope.

(* ---- inverses of symmetric matrices ---- *)
Lemma right_inverse n (A Z : matrix) : symmetric n A -> (forall i j, (i < n)%nat -> (j < n)%nat -> sumn n (fun k => A i k * Z k j) = if (i =? j)%nat then 1 else 0) ->
  symmetric n Z /\ inverse_of n A Z.
Proof.
  intros SA H. assert (SZ : symmetric n Z).
  { intros i j I J. transitivity (sumn n (fun a => Z a i * sumn n (fun b => A a b * Z b j))).
    - transitivity (sumn n (fun b => sumn n (fun a => Z a i * A a b) * Z b j)).
      + rewrite (sumn_single n _ i I).
        * rewrite (sumn_ext n _ (fun a => A i a * Z a i)) by (intros a Ha; rewrite (SA a i) by auto; ring). rewrite H by auto. rewrite Nat.eqb_refl. ring.
        * intros b B D. rewrite (sumn_ext n _ (fun a => A b a * Z a i)) by (intros a Ha; rewrite (SA a b) by auto; ring). rewrite H by auto. rewrite (proj2 (Nat.eqb_neq b i)) by auto. ring.
      + rewrite (sumn_ext n _ (fun b => sumn n (fun a => Z a i * A a b * Z b j))) by (intros; now rewrite sumn_scal_r). rewrite sumn_swap. apply sumn_ext. intros a _. rewrite <- sumn_scal. apply sumn_ext. intros. ring.
    - rewrite (sumn_single n _ j J).
      + rewrite H by auto. rewrite Nat.eqb_refl. ring.
      + intros a Ha D. rewrite H by auto. rewrite (proj2 (Nat.eqb_neq a j)) by auto. ring. }
  split; [auto|]. intros i j I J. split; [auto|]. rewrite (sumn_ext n _ (fun k => A j k * Z k i)) by (intros k K; rewrite (SZ i k), (SA k j) by auto; ring). rewrite H by auto. now rewrite Nat.eqb_sym.
Qed.
Lemma sumn_seq n f : sumn n f = SparseProofs.suml f (seq 0 n).
Proof. induction n; [auto|]. rewrite seq_S, SparseProofs.suml_app. cbn [sumn SparseProofs.suml fold_right map]. rewrite IHn. cbn. ring. Qed.
Lemma sumn_reindex n (inv : nat -> nat) g : Permutation (map inv (seq 0 n)) (seq 0 n) -> sumn n (fun k => g (inv k)) = sumn n g.
Proof. intros P. rewrite !sumn_seq. rewrite <- (SparseProofs.suml_perm g _ _ P). now rewrite SparseProofs.suml_map. Qed.

(* ---- R ---- *)
Section Solve.
Variables (n : nat) (m : crs).
Hypothesis UF : upper_factor n m.
Definition U (r c : nat) : R := m_matrix m c r.
Fixpoint ents (l : list (nat * R)) (x : vec) : R := match l with [] => 0 | e :: l' => snd e * x (fst e) + ents l' x end.
Fixpoint at_row (l : list (nat * R)) (r : nat) : R := match l with [] => 0 | e :: l' => (if (fst e =? r)%nat then snd e else 0) + at_row l' r end.
Definition up (c : nat) : list (nat * R) := map (fun idx => (col_at m idx, val_at m idx)) (above m c).
Lemma column c : (c < n)%nat -> row_entries m c = up c ++ [(c, last_value m c)] /\ last_value m c <> 0 /\ forall e, In e (up c) -> (fst e < c)%nat.
Proof.
  intros C. destruct UF as [V [R1 [R2 H]]]. destruct (H c C) as [ab [d [E [D A]]]]. unfold row_entries, row_range, range in E.
  assert (LT : (row_at m c < row_at m (S c))%nat).
  { destruct (Nat.lt_ge_cases (row_at m c) (row_at m (S c))); [auto|]. replace (row_at m (S c) - row_at m c)%nat with 0%nat in E by lia. destruct ab; discriminate. }
  assert (S1 : (row_at m (S c) - row_at m c = S (row_at m (S c) - 1 - row_at m c))%nat) by lia.
  rewrite S1, seq_S, map_app in E. cbn [map] in E. apply app_inj_tail in E. destruct E as [E1 E2]. replace (row_at m c + (row_at m (S c) - 1 - row_at m c))%nat with (row_at m (S c) - 1)%nat in E2 by lia.
  fold (last_value m c) in E2. injection E2 as E2 E3. unfold up, above, range. rewrite E1. split; [|split; [congruence|auto]].
  unfold row_entries, row_range, range. rewrite S1, seq_S, map_app, E1. cbn [map]. f_equal. f_equal. replace (row_at m c + (row_at m (S c) - 1 - row_at m c))%nat with (row_at m (S c) - 1)%nat by lia. fold (last_value m c). congruence.
Qed.
Lemma at_row_app l1 l2 r : at_row (l1 ++ l2) r = at_row l1 r + at_row l2 r.
Proof. induction l1; cbn; [ring|]. rewrite IHl1. ring. Qed.
Lemma rowval_at l r : SparseProofs3.rowval l r = at_row l r.
Proof. unfold SparseProofs3.rowval. induction l as [|e l IH]; [reflexivity|]. cbn [at_row SparseProofs.suml]. now rewrite <- IH. Qed.
Lemma at_row_out l r c : (forall e, In e l -> (fst e < c)%nat) -> (c <= r)%nat -> at_row l r = 0.
Proof. induction l as [|e l IH]; intros H C; cbn; [auto|]. rewrite IH; auto; [|intros; apply H; right; auto]. rewrite (proj2 (Nat.eqb_neq _ _)); [ring|]. specialize (H e (or_introl eq_refl)). lia. Qed.
Lemma U_spec r c : (c < n)%nat -> U r c = at_row (up c) r + if (r =? c)%nat then last_value m c else 0.
Proof.
  intros C. destruct UF as [V [R1 [R2 H]]]. unfold U. rewrite SparseProofs3.m_matrix_row, R1, (proj2 (Nat.ltb_lt c n) C), (proj1 (column c C)), rowval_at, at_row_app. cbn. rewrite Nat.eqb_sym. ring.
Qed.
Lemma U_diag c : (c < n)%nat -> U c c = last_value m c.
Proof. intros C. rewrite U_spec by auto. rewrite (at_row_out _ _ c) by (auto; apply (column c C)). rewrite Nat.eqb_refl. ring. Qed.
Lemma U_below r c : (c < n)%nat -> (c < r)%nat -> U r c = 0.
Proof. intros C R. rewrite U_spec by auto. rewrite (at_row_out _ _ c) by (try lia; apply (column c C)). rewrite (proj2 (Nat.eqb_neq r c)) by lia. ring. Qed.
Lemma ents_sum l x : (forall e, In e l -> (fst e < n)%nat) -> sumn n (fun r => at_row l r * x r) = ents l x.
Proof.
  induction l as [|e l IH]; intros H; cbn; [apply sumn_zero; intros; ring|]. rewrite <- IH by (intros; apply H; right; auto).
  rewrite (sumn_ext n _ (fun r => (if (fst e =? r)%nat then snd e else 0) * x r + at_row l r * x r)) by (intros; ring). rewrite sumn_plus. f_equal.
  rewrite (sumn_single n _ (fst e)); [rewrite Nat.eqb_refl; auto|apply H; left; auto|]. intros j _ D. rewrite (proj2 (Nat.eqb_neq _ _)) by auto. ring.
Qed.
Lemma U_sum c x : (c < n)%nat -> sumn n (fun r => U r c * x r) = ents (up c) x + last_value m c * x c.
Proof.
  intros C. rewrite (sumn_ext n _ (fun r => at_row (up c) r * x r + (if (r =? c)%nat then last_value m c else 0) * x r)) by (intros r R; rewrite U_spec by auto; ring). rewrite sumn_plus, ents_sum.
  - f_equal. rewrite (sumn_single n _ c C); [rewrite Nat.eqb_refl; auto|]. intros j _ D. rewrite (proj2 (Nat.eqb_neq _ _)) by auto. ring.
  - intros e E. apply (proj2 (proj2 (column c C))) in E. lia.
Qed.

(* ---- backward ---- *)
Lemma upper_fold l c : (forall e, In e l -> (fst e < c)%nat) -> forall x i,
  fold_left (fun x (e : nat * R) => upd x (fst e) (x (fst e) - snd e * x c)) l x i = x i - at_row l i * x c.
Proof.
  induction l as [|e l IH]; intros H x i; cbn [fold_left at_row]; [ring|]. rewrite IH by (intros; apply H; right; auto).
  specialize (H e (or_introl eq_refl)). unfold upd. rewrite (proj2 (Nat.eqb_neq c (fst e))) by lia. rewrite (Nat.eqb_sym (fst e) i). destruct (Nat.eqb_spec i (fst e)) as [->|]; ring.
Qed.
Lemma upper_step x c i : (c < n)%nat -> UpperStep m x c i = if (i =? c)%nat then x c / last_value m c else x i - at_row (up c) i * (x c / last_value m c).
Proof.
  intros C. unfold UpperStep. set (x1 := upd x c (x c / last_value m c)).
  transitivity (fold_left (fun x (e : nat * R) => upd x (fst e) (x (fst e) - snd e * x c)) (up c) x1 i).
  - unfold up. rewrite SparseProofs.fold_left_map. reflexivity.
  - rewrite upper_fold by apply (column c C). unfold x1, upd. rewrite Nat.eqb_refl. destruct (Nat.eqb_spec i c) as [->|]; [|auto]. rewrite (at_row_out _ c c) by (auto; apply (column c C)). ring.
Qed.
Lemma rev_seq t : rev (seq 0 (S t)) = t :: rev (seq 0 t).
Proof. rewrite seq_S, rev_app_distr. reflexivity. Qed.
Lemma backward t : (t <= n)%nat -> forall x, let z := fold_left (UpperStep m) (rev (seq 0 t)) x in
  (forall i, (t <= i)%nat -> z i = x i) /\ forall i, (i < t)%nat -> sumn t (fun c => U i c * z c) = x i.
Proof.
  induction t as [|t IH]; intros T x; cbn zeta; [split; [auto|intros; lia]|]. rewrite rev_seq. cbn [fold_left]. destruct (IH ltac:(lia) (UpperStep m x t)) as [A B]. cbn zeta in A, B.
  set (z := fold_left (UpperStep m) (rev (seq 0 t)) (UpperStep m x t)) in *. assert (C : (t < n)%nat) by lia. split.
  - intros i I. rewrite A by lia. rewrite upper_step by auto. rewrite (proj2 (Nat.eqb_neq i t)) by lia. rewrite (at_row_out _ _ t) by (try lia; apply (column t C)). ring.
  - intros i I. cbn [sumn]. assert (ZT : z t = x t / last_value m t) by (rewrite A by lia; rewrite upper_step by auto; now rewrite Nat.eqb_refl). rewrite ZT. destruct (Nat.eq_dec i t) as [->|D].
    + rewrite U_diag by auto. rewrite sumn_zero; [field; apply (column t C)|]. intros c Hc. rewrite U_below by lia. ring.
    + rewrite B by lia. rewrite upper_step by auto. rewrite (proj2 (Nat.eqb_neq i t)) by lia. rewrite U_spec by auto. rewrite (proj2 (Nat.eqb_neq i t)) by lia. ring.
Qed.

(* ---- forward ---- *)
Lemma ents_ext l x y c : (forall e, In e l -> (fst e < c)%nat) -> (forall i, (i < c)%nat -> x i = y i) -> ents l x = ents l y.
Proof. intros H E. induction l as [|e l IH]; [auto|]. cbn. rewrite IH by (intros; apply H; right; auto). rewrite E; [auto|]. apply H. left; auto. Qed.
Lemma forward_fold l k c : (forall e, In e l -> (fst e < c)%nat) -> forall x,
  let y := fold_left (fun x (e : nat * R) => if (fst e <? k)%nat then x else upd x c (x c - snd e * x (fst e))) l x in
  (forall i, i <> c -> y i = x i) /\ ((forall r, (r < k)%nat -> x r = 0) -> y c = x c - ents l x).
Proof.
  induction l as [|e l IH]; intros H x; cbn zeta; cbn [fold_left ents]; [split; [auto|intros; ring]|].
  assert (HE := H e (or_introl eq_refl)). assert (HL : forall e, In e l -> (fst e < c)%nat) by (intros; apply H; right; auto).
  set (x1 := if (fst e <? k)%nat then x else upd x c (x c - snd e * x (fst e))). destruct (IH HL x1) as [A B]. cbn zeta in A, B.
  assert (X1 : forall i, i <> c -> x1 i = x i). { intros i I. unfold x1. destruct (fst e <? k)%nat; [auto|]. unfold upd. now rewrite (proj2 (Nat.eqb_neq i c)). }
  assert (EE : ents l x1 = ents l x) by (apply (ents_ext l x1 x c HL); intros i I; apply X1; lia).
  split.
  - intros i I. rewrite A by auto. auto.
  - intros Z. rewrite EE in B. destruct (Nat.lt_ge_cases (fst e) k) as [K|K].
    + rewrite B by (unfold x1; rewrite (proj2 (Nat.ltb_lt _ _) K); auto). unfold x1. rewrite (proj2 (Nat.ltb_lt _ _) K). rewrite (Z _ K). ring.
    + assert (X1c : x1 c = x c - snd e * x (fst e)). { unfold x1. rewrite (proj2 (Nat.ltb_ge _ _) K). unfold upd. now rewrite Nat.eqb_refl. }
      destruct (Nat.lt_ge_cases c k) as [Q|Q].
      * lia.
      * rewrite B by (intros r R; rewrite X1 by lia; auto). rewrite X1c. ring.
Qed.
Lemma transpose_step x k c : (c < n)%nat -> (forall r, (r < k)%nat -> x r = 0) -> forall i, TransposeStep m k x c i = if (i =? c)%nat then (x c - ents (up c) x) / last_value m c else x i.
Proof.
  intros C Z i. unfold TransposeStep.
  set (y := fold_left (fun x idx => if (col_at m idx <? k)%nat then x else upd x c (x c - val_at m idx * x (col_at m idx))) (above m c) x).
  assert (Y : y = fold_left (fun x (e : nat * R) => if (fst e <? k)%nat then x else upd x c (x c - snd e * x (fst e))) (up c) x). { unfold up. rewrite SparseProofs.fold_left_map. reflexivity. }
  destruct (forward_fold (up c) k c (proj2 (proj2 (column c C))) x) as [A B]. cbn zeta in A, B. rewrite <- Y in A, B. unfold upd. destruct (Nat.eqb_spec i c) as [->|D]; [|auto]. now rewrite B.
Qed.
Lemma forward k cnt : (k + cnt < n)%nat -> let y := fold_left (TransposeStep m k) (seq (S k) cnt) (upd (fun _ => 0) k (1 / last_value m k)) in
  (forall r, (r < k)%nat -> y r = 0) /\ (forall r, (k + cnt < r)%nat -> y r = 0) /\
  forall c, (c <= k + cnt)%nat -> sumn n (fun r => U r c * y r) = if (c =? k)%nat then 1 else 0.
Proof.
  induction cnt as [|cnt IH]; intros K; cbn zeta.
  - cbn [seq fold_left]. split; [|split].
    + intros r R. unfold upd. now rewrite (proj2 (Nat.eqb_neq r k)) by lia.
    + intros r R. unfold upd. now rewrite (proj2 (Nat.eqb_neq r k)) by lia.
    + intros c C. rewrite (sumn_single n _ k ltac:(lia)).
      * unfold upd. rewrite Nat.eqb_refl. destruct (Nat.eqb_spec c k) as [->|D].
        -- rewrite U_diag by lia. field. apply (column k ltac:(lia)).
        -- rewrite U_below by lia. ring.
      * intros j _ D. unfold upd. rewrite (proj2 (Nat.eqb_neq j k)) by auto. ring.
  - rewrite seq_S, fold_left_app. cbn [fold_left]. destruct (IH ltac:(lia)) as [A [B C]]. cbn zeta in A, B, C.
    set (y := fold_left (TransposeStep m k) (seq (S k) cnt) (upd (fun _ => 0) k (1 / last_value m k))) in *.
    assert (CN : (S k + cnt < n)%nat) by lia. assert (ST := transpose_step y k (S k + cnt) CN A). set (y' := TransposeStep m k y (S k + cnt)) in *. split; [|split].
    + intros r R. rewrite ST. rewrite (proj2 (Nat.eqb_neq _ _)) by lia. auto.
    + intros r R. rewrite ST. rewrite (proj2 (Nat.eqb_neq _ _)) by lia. apply B. lia.
    + intros c Hc. destruct (Nat.eq_dec c (S k + cnt)) as [->|D].
      * rewrite U_sum by auto. rewrite (ents_ext _ y' y (S k + cnt)); [|apply (column _ CN)|intros i I; rewrite ST; now rewrite (proj2 (Nat.eqb_neq _ _)) by lia].
        rewrite ST, Nat.eqb_refl. rewrite (B (S k + cnt)%nat) by lia. rewrite (proj2 (Nat.eqb_neq _ k)) by lia. field. apply (column _ CN).
      * rewrite <- C by lia. apply sumn_ext. intros r R. rewrite ST. destruct (Nat.eqb_spec r (S k + cnt)) as [->|]; [|auto]. rewrite U_below by lia. ring.
Qed.
Lemma solve_rtr k : (k < n)%nat -> forall i, (i < n)%nat -> sumn n (fun j => information n (transposed (m_matrix m)) i j * SolveRTR n m k j) = if (i =? k)%nat then 1 else 0.
Proof.
  intros K i I. unfold SolveRTR, SolveUpperTriangular. destruct (forward k (n - S k) ltac:(lia)) as [_ [_ F]]. cbn zeta in F.
  set (y := fold_left (TransposeStep m k) (seq (S k) (n - S k)) (upd (fun _ => 0) k (1 / last_value m k))) in *.
  destruct (backward n (Nat.le_refl n) y) as [_ B]. cbn zeta in B. set (z := fold_left (UpperStep m) (rev (seq 0 n)) y) in *.
  rewrite <- F by lia. transitivity (sumn n (fun r => U r i * sumn n (fun c => U r c * z c))).
  - unfold information, transposed. rewrite (sumn_ext n _ (fun j => sumn n (fun r => U r i * U r j * z j))) by (intros; now rewrite <- sumn_scal_r). rewrite sumn_swap. apply sumn_ext. intros r _. rewrite <- sumn_scal. apply sumn_ext. intros. ring.
  - apply sumn_ext. intros r R. now rewrite B.
Qed.
Lemma information_symmetric h (A : matrix) k : symmetric k (information h A).
Proof. intros i j _ _. unfold information. apply sumn_ext. intros. ring. Qed.
Lemma rtr_inverse : let Z : matrix := fun i j => SolveRTR n m j i in symmetric n Z /\ inverse_of n (information n (transposed (m_matrix m))) Z.
Proof. cbn zeta. apply right_inverse; [apply information_symmetric|]. intros i j I J. now apply solve_rtr. Qed.
End Solve.

(* ---- the permutation ---- *)
Lemma fold_set_inv (g : nat -> nat) idxs : NoDup (map g idxs) -> forall v, (forall i, In i idxs -> (g i < length v)%nat) ->
  length (fold_left (fun inv i => set_nth inv (g i) i) idxs v) = length v /\
  (forall i, In i idxs -> nth (g i) (fold_left (fun inv i => set_nth inv (g i) i) idxs v) 0%nat = i) /\
  (forall k, ~ In k (map g idxs) -> nth k (fold_left (fun inv i => set_nth inv (g i) i) idxs v) 0%nat = nth k v 0%nat).
Proof.
  induction idxs as [|i idxs IH]; intros N v B; cbn [fold_left map]; [split; [auto|split; [intros ? []|auto]]|]. inversion N; subst.
  destruct (IH H2 (set_nth v (g i) i)) as [A1 [A2 A3]]; [rewrite SparseProofs.set_nth_length; intros; apply B; right; auto|]. rewrite SparseProofs.set_nth_length in A1.
  split; [auto|]. split.
  - intros j [<-|J]; [|auto]. rewrite A3 by auto. apply SparseProofs.set_nth_same. apply B. left; auto.
  - intros k K. rewrite A3 by (intros X; apply K; right; auto). apply SparseProofs.set_nth_other. intros E. apply K. left; auto.
Qed.
Lemma inverse_permutation n perm : (forall l, perm = Some l -> Permutation l (seq 0 n)) -> let inv := InversePermutation n perm in
  (forall r, (r < n)%nat -> (nth r inv 0 < n)%nat /\ permuted perm (nth r inv 0%nat) = r) /\ Permutation (map (fun k => nth k inv 0%nat) (seq 0 n)) (seq 0 n).
Proof.
  intros P. cbn zeta. assert (G : (forall i, (i < n)%nat -> (permuted perm i < n)%nat /\ nth (permuted perm i) (InversePermutation n perm) 0%nat = i) /\ (forall r, (r < n)%nat -> exists i, (i < n)%nat /\ permuted perm i = r)).
  { unfold InversePermutation, permuted. destruct perm as [l|].
    - specialize (P l eq_refl). assert (LN : length l = n) by (rewrite (Permutation_length P); apply seq_length).
      assert (ML : map (fun i => nth i l 0%nat) (seq 0 n) = l) by (rewrite <- SparseProofs.range_0, SparseProofs.map_nth_all by lia; rewrite <- LN; apply firstn_all).
      destruct (fold_set_inv (fun i => nth i l 0%nat) (seq 0 n)) with (v := repeat 0%nat n) as [_ [A _]].
      + rewrite ML. rewrite P. apply seq_NoDup.
      + intros i I. apply in_seq in I. rewrite repeat_length. assert (In (nth i l 0%nat) l) by (apply nth_In; lia). apply (Permutation_in _ P) in H. apply in_seq in H. lia.
      + split.
        * intros i I. split; [|apply A; apply in_seq; lia]. assert (In (nth i l 0%nat) l) by (apply nth_In; lia). apply (Permutation_in _ P) in H. apply in_seq in H. lia.
        * intros r R. assert (In r l) by (apply (Permutation_in _ (Permutation_sym P)); apply in_seq; lia). destruct (In_nth _ _ 0%nat H) as [i [I E]]. exists i. split; [lia|auto].
    - split; [intros i I; split; [auto|now apply seq_nth]|]. intros r R. exists r. auto. }
  destruct G as [G1 G2]. assert (G3 : forall r, (r < n)%nat -> (nth r (InversePermutation n perm) 0 < n)%nat /\ permuted perm (nth r (InversePermutation n perm) 0%nat) = r).
  { intros r R. destruct (G2 r R) as [i [I <-]]. destruct (G1 i I) as [H1 H2]. rewrite H2. auto. }
  split; [auto|]. apply NoDup_Permutation_bis.
  - assert (INJ : forall a b, (a < n)%nat -> (b < n)%nat -> nth a (InversePermutation n perm) 0%nat = nth b (InversePermutation n perm) 0%nat -> a = b). { intros a b A B E. rewrite <- (proj2 (G3 a A)), <- (proj2 (G3 b B)). now rewrite E. }
    clear - INJ. assert (H : forall k, (k <= n)%nat -> NoDup (map (fun k => nth k (InversePermutation n perm) 0%nat) (seq 0 k))).
    { induction k as [|k IH]; intros K; [constructor|]. rewrite seq_S, map_app. cbn [map Nat.add].
      apply (Permutation_NoDup (Permutation_sym (Permutation_app_comm _ [_]))). cbn. constructor; [|apply IH; lia]. intros X. apply in_map_iff in X. destruct X as [j [E J]]. apply in_seq in J. apply INJ in E; lia. }
    now apply H.
  - rewrite map_length. auto.
  - intros x X. apply in_map_iff in X. destruct X as [r [<- R]]. apply in_seq in R. apply in_seq. split; [lia|]. apply G3. lia.
Qed.
(* the values that the sparse QR versions write are those of the inverse of J'J *)
Lemma qr_inverse h n (J : matrix) q : q_ok q = true -> (n <= q_rank q)%nat -> factors h n J q ->
  let inv := InversePermutation n (q_permutation q) in let f : matrix := fun r c => SolveRTR n (q_R q) (nth r inv 0%nat) (nth c inv 0%nat) in
  symmetric n f /\ inverse_of n (information h J) f.
Proof.
  intros OK RK FA. destruct (FA OK RK) as [UF [PM E]]. cbn zeta. destruct (inverse_permutation n _ PM) as [I1 I2]. cbn zeta in I1, I2. set (inv := InversePermutation n (q_permutation q)) in *.
  destruct (rtr_inverse n (q_R q) UF) as [SZ IV]. cbn zeta in SZ, IV.
  assert (HE : forall r c, (r < n)%nat -> (c < n)%nat -> information h J r c = information n (transposed (m_matrix (q_R q))) (nth r inv 0%nat) (nth c inv 0%nat)).
  { intros r c R C. destruct (I1 r R) as [Ra Rb]. destruct (I1 c C) as [Ca Cb]. rewrite E by auto. now rewrite Rb, Cb. }
  apply right_inverse; [apply information_symmetric|]. intros i j I J'. destruct (I1 i I) as [Ia Ib]. destruct (I1 j J') as [Ja Jb].
  transitivity (sumn n (fun k => information n (transposed (m_matrix (q_R q))) (nth i inv 0%nat) (nth k inv 0%nat) * SolveRTR n (q_R q) (nth j inv 0%nat) (nth k inv 0%nat))).
  - apply sumn_ext. intros k K. rewrite HE by auto. f_equal. apply (SZ (nth j inv 0%nat) (nth k inv 0%nat)); [auto|]. apply (I1 k K).
  - rewrite (sumn_reindex n (fun k => nth k inv 0%nat) (fun k => information n (transposed (m_matrix (q_R q))) (nth i inv 0%nat) k * SolveRTR n (q_R q) (nth j inv 0%nat) k) I2).
    rewrite (proj1 (IV _ _ Ia Ja)). destruct (Nat.eqb_spec i j) as [->|D]; [now rewrite Nat.eqb_refl|]. rewrite (proj2 (Nat.eqb_neq _ _)); [auto|]. intros X. apply D. rewrite <- Ib, <- Jb. now rewrite X.
Qed.
