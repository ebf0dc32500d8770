(* Proofs for C72: the stored matrix. *)
From Coq Require Import Reals List Arith Bool Lia Lra Permutation ZArith.
From Verif Require Import GraphModel ForestModel ForestSpec ForestProps VisModel VisSpec VisProofs VisProofs3 VbpModel VbpSpec VbpProofs VbpProofs2 VbpProofs3.
Import ListNotations.
Open Scope nat_scope.

Lemma pair_in_sym cp c d : pair_in cp c d <-> pair_in cp d c.
Proof. unfold pair_in. rewrite Nat.min_comm, Nat.max_comm. tauto. Qed.
Lemma interact_sym E rows i j : interact E rows i j <-> interact E rows j i.
Proof.
  assert (forall i j, interact E rows i j -> interact E rows j i) as H; [|split; apply H]. intros a c [[p [A B]]|[r [A [B [C D]]]]]; [left; exists p; auto|right; exists r; auto].
Qed.
Definition pairs_of (n E : nat) (rows : list (list nat)) (cl : nat -> nat) (cp bp : list (nat * nat)) : Prop :=
  forall i j, In (i, j) bp <-> i < n /\ j < n /\ (i = j \/ (i < j /\ interact E rows i j /\ pair_in cp (cl i) (cl j))).
Lemma stored_cells n E rows cl cp bp (A : block_matrix) (w : nat -> nat -> R) (S : block_matrix) : pairs_of n E rows cl cp bp -> symmetric S ->
  (forall i j r c, i < n -> j < n -> i <> j -> ~ interact E rows i j -> S i j r c = 0%R) ->
  (forall i j r c, In (i, j) bp -> A i j r c = (w i j * S i j r c)%R) -> (forall i j, w i j = w j i) -> (forall i j, i < n -> j < n -> i <> j -> ~ pair_in cp (cl i) (cl j) -> w i j = 0%R) ->
  forall i j r c, i < n -> j < n -> stored bp A i j r c = (w i j * S i j r c)%R.
Proof.
  intros P SY SZ HA WS WZ i j r c Hi Hj. unfold stored. destruct (in_dec _ (i, j) bp) as [I1|N1]; [apply HA; exact I1|]. destruct (in_dec _ (j, i) bp) as [I2|N2]; [rewrite (HA j i c r I2), WS, (SY i j r c); reflexivity|].
  assert (i <> j) as N by (intros ->; apply N1, (proj2 (P _ _)); auto).
  assert (~ (interact E rows i j /\ pair_in cp (cl i) (cl j))) as NN.
  { intros [X Y]. destruct (Nat.lt_ge_cases i j) as [L|L]; [apply N1, (proj2 (P _ _)); auto 8|]. apply N2, (proj2 (P _ _)). split; [exact Hj|]. split; [exact Hi|]. right. split; [lia|]. split; [apply interact_sym; exact X|apply pair_in_sym; exact Y]. }
  destruct (in_dec (fun p q : nat * nat => ltac:(decide equality; apply Nat.eq_dec)) (Nat.min (cl i) (cl j), Nat.max (cl i) (cl j)) cp) as [Y|Y].
  - rewrite (SZ i j r c Hi Hj N) by (intro X; apply NN; auto). lra.
  - rewrite (WZ i j Hi Hj N Y). lra.
Qed.
Lemma form_weighted n sz (A S : block_matrix) (w : nat -> nat -> R) x : (forall i j r c, i < n -> j < n -> A i j r c = (w i j * S i j r c)%R) ->
  form n sz A x = total (seq 0 n) (fun i => total (seq 0 n) (fun j => (w i j * b sz S x i j)%R)).
Proof.
  intro H. unfold form. apply total_ext. intros i Hi. apply total_ext. intros j Hj. apply in_seq in Hi, Hj. unfold b. rewrite <- total_scal. apply total_ext. intros r _. rewrite <- total_scal. apply total_ext. intros c _. rewrite H by lia. ring.
Qed.
Lemma jacobi_in K c d : c < K -> (pair_in (JacobiClusterPairs K) c d <-> c = d).
Proof.
  intro L. unfold pair_in, JacobiClusterPairs. rewrite in_map_iff. split; [intros [k [E _]]; injection E as E1 E2; lia|]. intros <-. exists c. rewrite Nat.min_id, Nat.max_id. split; [reflexivity|apply in_seq; lia].
Qed.
Lemma jacobi_definite n E rows sz S K cl bp : (forall i, i < n -> cl i < K) -> pairs_of n E rows cl (JacobiClusterPairs K) bp -> symmetric S -> positive_definite n sz S ->
  (forall i j r c, i < n -> j < n -> i <> j -> ~ interact E rows i j -> S i j r c = 0%R) ->
  (forall i j r c, i < n -> j < n -> stored bp S i j r c = if cl i =? cl j then S i j r c else 0%R) /\ positive_definite n sz (stored bp S).
Proof.
  intros CL P SY PD SZ.
  assert (forall i j r c, i < n -> j < n -> stored bp S i j r c = (ind (cl i =? cl j) * S i j r c)%R) as ST.
  { intros i j r c Hi Hj. unfold stored. destruct (in_dec _ (i, j) bp) as [I1|N1]; [|destruct (in_dec _ (j, i) bp) as [I2|N2]].
    - assert (cl i = cl j) as -> by (apply P in I1; destruct I1 as [_ [_ [->|[_ [_ Q]]]]]; [reflexivity|apply (jacobi_in K) in Q; [exact Q|apply CL; exact Hi]]). rewrite Nat.eqb_refl. unfold ind. lra.
    - assert (cl i = cl j) as -> by (apply P in I2; destruct I2 as [_ [_ [->|[_ [_ Q]]]]]; [reflexivity|apply (jacobi_in K) in Q; [congruence|apply CL; exact Hj]]). rewrite Nat.eqb_refl, (SY i j). unfold ind. lra.
    - destruct (Nat.eqb_spec (cl i) (cl j)) as [EQ|NE]; unfold ind; [|lra]. assert (i <> j) as N by (intros ->; apply N1, (proj2 (P _ _)); auto). rewrite SZ; [lra|exact Hi|exact Hj|exact N|]. intro X. destruct (Nat.lt_ge_cases i j) as [L|L]; [apply N1, (proj2 (P _ _)); split; [exact Hi|]; split; [exact Hj|]; right; split; [exact L|]; split; [exact X|]; apply (jacobi_in K); [apply CL; exact Hi|exact EQ]|].
      apply N2, (proj2 (P _ _)). split; [exact Hj|]. split; [exact Hi|]. right. split; [lia|]. split; [apply interact_sym; exact X|]. apply (jacobi_in K); [apply CL; exact Hj|congruence]. }
  split; [intros i j r c Hi Hj; rewrite ST by assumption; unfold ind; destruct (cl i =? cl j); lra|].
  intros x NZ. rewrite (form_weighted n sz (stored bp S) S (fun i j => ind (cl i =? cl j)) x ST). apply (jacobi_pos n sz S PD K cl CL x NZ).
Qed.
Definition edge (cp : list (nat * nat)) (a c : nat) : bool := negb (a =? c) && has_pair cp (Nat.min a c) (Nat.max a c).
Lemma tridiagonal_definite n E rows sz S K membership cp bp f : (forall i, i < n -> cluster_of membership i < K) -> pairs_of n E rows (cluster_of membership) cp bp ->
  (forall a c, In (a, c) cp <-> a < K /\ c < K /\ (a = c \/ (a < c /\ joined f a c))) -> (forall a c, joined f a c -> joined f c a) -> at_most_two (joined f) ->
  symmetric S -> positive_definite n sz S -> (forall i j r c, i < n -> j < n -> i <> j -> ~ interact E rows i j -> S i j r c = 0%R) ->
  positive_definite n sz (stored bp (ScaleOffDiagonalCells membership bp S)).
Proof.
  intros CL P CP JS J2 SY PD SZ x NZ.
  assert (forall a c, edge cp a c = edge cp c a) as ES by (intros a c; unfold edge; rewrite (Nat.eqb_sym a), Nat.min_comm, Nat.max_comm; reflexivity).
  assert (forall a c, edge cp a c = true -> joined f a c) as EJ.
  { intros a c H. unfold edge in H. apply andb_true_iff in H. destruct H as [H1 H2]. apply negb_true_iff, Nat.eqb_neq in H1. apply has_pair_in, CP in H2. destruct H2 as [_ [_ [H2|[L H2]]]]; [lia|]. destruct (Nat.lt_ge_cases a c) as [L'|L']; [rewrite Nat.min_l, Nat.max_r in H2 by lia; exact H2|rewrite Nat.min_r, Nat.max_l in H2 by lia; apply JS; exact H2]. }
  rewrite (form_weighted n sz _ S (fun i j => ind (cluster_of membership i =? cluster_of membership j) + / 2 * ind (edge cp (cluster_of membership i) (cluster_of membership j)))%R x).
  - apply (tridiagonal_pos n sz S PD K (cluster_of membership) CL x NZ (edge cp) ES).
    + intro a. unfold edge. rewrite Nat.eqb_refl. reflexivity.
    + intros v a c d A C D. apply (J2 v); apply EJ; assumption.
  - apply (stored_cells n E rows (cluster_of membership) cp bp _ (fun i j => ind (cluster_of membership i =? cluster_of membership j) + / 2 * ind (edge cp (cluster_of membership i) (cluster_of membership j)))%R S P SY SZ).
    + intros i j r c HB. unfold ScaleOffDiagonalCells, IsBlockPairOffDiagonal. rewrite (proj2 (has_pair_in bp i j) HB). cbn [andb]. unfold edge. destruct (Nat.eqb_spec (cluster_of membership i) (cluster_of membership j)) as [EQ|NE]; cbn [negb andb]; [unfold ind; lra|].
      assert (has_pair cp (Nat.min (cluster_of membership i) (cluster_of membership j)) (Nat.max (cluster_of membership i) (cluster_of membership j)) = true) as ->.
      { apply has_pair_in. apply P in HB. destruct HB as [_ [_ [->|[_ [_ Q]]]]]; [congruence|exact Q]. }
      unfold ind. lra.
    + intros i j. rewrite ES, Nat.eqb_sym. reflexivity.
    + intros i j Hi Hj N Q. unfold edge. assert (cluster_of membership i <> cluster_of membership j) as NE.
      { intro EQ. apply Q. unfold pair_in. rewrite EQ, Nat.min_id, Nat.max_id. apply CP. split; [apply CL; exact Hj|]. split; [apply CL; exact Hj|auto]. }
      destruct (Nat.eqb_spec (cluster_of membership i) (cluster_of membership j)); [contradiction|]. destruct (has_pair cp _ _) eqn:HP; [apply has_pair_in in HP; contradiction|]. unfold ind. cbn [negb andb]. lra.
Qed.
