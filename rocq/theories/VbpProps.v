(* C72: theorems. *)
From Coq Require Import Reals List Arith Bool Lia Lra Psatz Permutation ZArith.
From Verif Require Import GraphModel ForestModel ForestSpec ForestProps VisModel VisSpec VisProofs VisProofs3 VbpModel VbpSpec VbpProofs VbpProofs2 VbpProofs3 VbpProofs4.
Import ListNotations.
Open Scope nat_scope.

(* the cells that are stored: the diagonal ones, and above the diagonal those of the Schur complement
   whose clusters are a pair of the set *)
Theorem preconditioner_cells num_cols E membership cluster_pairs rows : rows_fine num_cols E rows ->
  exists block_pairs, ComputeBlockPairsInPreconditioner (num_cols - E) E membership cluster_pairs rows = Some block_pairs /\
    forall i j, In (i, j) block_pairs <-> i < num_cols - E /\ j < num_cols - E /\
      (i = j \/ (i < j /\ interact E rows i j /\ pair_in cluster_pairs (nth i membership 0) (nth j membership 0))).
Proof. apply block_pairs_spec. Qed.
Print Assumptions preconditioner_cells.
(* three points, three cameras, each point seen by two; a last row without a point *)
Definition some_rows : list (list nat) := [[0; 3]; [0; 4]; [1; 4]; [1; 5]; [2; 3]; [2; 5]].
Lemma some_rows_fine : rows_fine 6 3 some_rows.
Proof.
  constructor.
  - intros row H. cbn in H. repeat (destruct H as [<-|H]; [split; [discriminate|split; [intros c Hc; cbn in Hc; lia|intros c Hc; cbn in Hc; lia]]|]). destruct H.
  - intros i j k A B C _. cbn [some_rows length] in C. destruct k as [|[|[|[|[|[|k]]]]]]; try lia; (destruct j as [|[|[|[|[|j]]]]]; try lia; (destruct i as [|[|[|[|i]]]]; try lia; vm_compute; intro Q; try lia; try discriminate Q; reflexivity)).
  - intros i k A C _. cbn [some_rows length] in C. destruct i as [|[|[|[|[|[|i]]]]]]; try lia; vm_compute; lia.
Qed.
Example cells_example : ComputeBlockPairsInPreconditioner 3 3 [0; 0; 1] (JacobiClusterPairs 2) some_rows = Some [(0, 0); (1, 1); (2, 2); (0, 1)].
Proof. reflexivity. Qed.

(* CLUSTER_JACOBI: the pairs are the clusters with themselves *)
Theorem jacobi_cluster_pairs num_clusters c d : In (c, d) (JacobiClusterPairs num_clusters) <-> c = d /\ c < num_clusters.
Proof. unfold JacobiClusterPairs. rewrite in_map_iff. split; [intros [k [E H]]; injection E as <- <-; apply in_seq in H; lia|intros [-> L]; exists d; split; [reflexivity|apply in_seq; lia]]. Qed.
Print Assumptions jacobi_cluster_pairs.

(* CLUSTER_TRIDIAGONAL: the clusters with themselves and the edges of a forest of degree two in the
   graph of the clusters, whose edges count the points seen from both *)
Theorem tridiagonal_cluster_pairs num_blocks n membership visibility : (forall i, i < num_blocks -> nth i membership 0 < n) ->
  exists cv g f cp, cv = ComputeClusterVisibility num_blocks n membership visibility /\ CreateClusterGraph n cv = Some g /\ degree2_forest g = Some f /\
    (forall k p, k < n -> (In p (nth k cv []) <-> exists i, i < num_blocks /\ nth i membership 0 = k /\ In p (nth i visibility []))) /\
    (forall a b, joined g a b <-> a < n /\ b < n /\ a <> b /\ exists p, In p (nth a cv []) /\ In p (nth b cv [])) /\
    (forall a b, joined g a b -> edge_weight g a b = (Z.of_nat (length (common cv a b)) * 2 ^ 1074)%Z) /\
    TridiagonalClusterPairs num_blocks n membership visibility = Some cp /\ at_most_two (joined f) /\ (forall a b, joined f a b -> joined g a b /\ joined f b a) /\
    forall a b, In (a, b) cp <-> a < n /\ b < n /\ (a = b \/ (a < b /\ joined f a b)).
Proof. apply tridiagonal_pairs_spec. Qed.
Print Assumptions tridiagonal_cluster_pairs.
Definition some_visibility : list (list nat) := [[0; 2]; [0; 1]; [1; 2]].
Example tridiagonal_pairs_example : ComputeVisibility 6 3 some_rows = Some some_visibility /\ TridiagonalClusterPairs 3 3 [0; 1; 2] some_visibility = Some [(0, 0); (0, 2); (1, 1); (1, 2); (2, 2)].
Proof. split; [reflexivity|vm_compute; reflexivity]. Qed.

(* CLUSTER_JACOBI is the block diagonal part of the Schur complement, and positive definite *)
Theorem cluster_jacobi_positive_definite num_cols E rows num_clusters membership block_pairs sz (S : block_matrix) :
  rows_fine num_cols E rows -> (forall i, i < num_cols - E -> nth i membership 0 < num_clusters) ->
  ComputeBlockPairsInPreconditioner (num_cols - E) E membership (JacobiClusterPairs num_clusters) rows = Some block_pairs ->
  symmetric S -> positive_definite (num_cols - E) sz S ->
  (forall i j r c, i < num_cols - E -> j < num_cols - E -> i <> j -> ~ interact E rows i j -> S i j r c = 0%R) ->
  (forall i j r c, i < num_cols - E -> j < num_cols - E -> stored block_pairs S i j r c = if nth i membership 0 =? nth j membership 0 then S i j r c else 0%R) /\
  positive_definite (num_cols - E) sz (stored block_pairs S).
Proof.
  intros F CL EB SY PD SZ. destruct (block_pairs_spec num_cols E membership (JacobiClusterPairs num_clusters) rows F) as [bp [E1 P]]. rewrite EB in E1. injection E1 as <-.
  exact (jacobi_definite (num_cols - E) E rows sz S num_clusters (cluster_of membership) block_pairs CL P SY PD SZ).
Qed.
Print Assumptions cluster_jacobi_positive_definite.

(* CLUSTER_TRIDIAGONAL is positive definite once the cells between clusters are halved *)
Theorem cluster_tridiagonal_positive_definite num_cols E rows num_clusters membership visibility cluster_pairs block_pairs sz (S : block_matrix) :
  rows_fine num_cols E rows -> (forall i, i < num_cols - E -> nth i membership 0 < num_clusters) ->
  TridiagonalClusterPairs (num_cols - E) num_clusters membership visibility = Some cluster_pairs ->
  ComputeBlockPairsInPreconditioner (num_cols - E) E membership cluster_pairs rows = Some block_pairs ->
  symmetric S -> positive_definite (num_cols - E) sz S ->
  (forall i j r c, i < num_cols - E -> j < num_cols - E -> i <> j -> ~ interact E rows i j -> S i j r c = 0%R) ->
  positive_definite (num_cols - E) sz (stored block_pairs (ScaleOffDiagonalCells membership block_pairs S)).
Proof.
  intros F CL EC EB SY PD SZ. destruct (block_pairs_spec num_cols E membership cluster_pairs rows F) as [bp [E1 P]]. rewrite EB in E1. injection E1 as <-.
  destruct (tridiagonal_pairs_spec (num_cols - E) num_clusters membership visibility CL) as [cv [g [f [cp [_ [_ [_ [_ [_ [_ [E2 [J2 [JS CP]]]]]]]]]]]]]. rewrite EC in E2. injection E2 as <-.
  exact (tridiagonal_definite (num_cols - E) E rows sz S num_clusters membership cluster_pairs block_pairs f CL P CP (fun a c H => proj2 (JS a c H)) J2 SY PD SZ).
Qed.
Print Assumptions cluster_tridiagonal_positive_definite.

(* the scaling is needed: a positive definite Schur complement and its tridiagonal part that is not *)
Definition some_schur : block_matrix := fun i j _ _ => if i =? j then 1%R else if (i =? 2) || (j =? 2) then (4 / 5)%R else (3 / 5)%R.
Lemma some_schur_symmetric : symmetric some_schur.
Proof. intros i j r c. unfold some_schur. rewrite (Nat.eqb_sym j i), (orb_comm (j =? 2)). reflexivity. Qed.
Lemma some_schur_definite : positive_definite 3 (fun _ => 1) some_schur.
Proof.
  intros x [i [r [Hi [Hr N]]]]. assert (r = 0) as -> by lia. unfold form, some_schur. cbn [seq total Nat.eqb orb].
  set (x0 := x 0 0) in *. set (x1 := x 1 0) in *. set (x2 := x 2 0) in *.
  assert (x0 <> 0 \/ x1 <> 0 \/ x2 <> 0)%R as NZ by (destruct i as [|[|[|i]]]; [left; exact N|right; left; exact N|right; right; exact N|lia]).
  match goal with |- (0 < ?t)%R => replace t with ((x0 + 3 / 5 * x1 + 4 / 5 * x2) * (x0 + 3 / 5 * x1 + 4 / 5 * x2) + ((4 / 5 * x1 + 2 / 5 * x2) * (4 / 5 * x1 + 2 / 5 * x2) + / 5 * (x2 * x2)))%R by field end.
  assert (forall y, 0 <= y * y)%R as SQ by (intro y; nra). pose proof (SQ (x0 + 3 / 5 * x1 + 4 / 5 * x2)%R) as Q1. pose proof (SQ (4 / 5 * x1 + 2 / 5 * x2)%R) as Q2. pose proof (SQ x2) as Q3.
  assert (forall y, y <> 0 -> 0 < y * y)%R as SP by (intros y Hy; destruct (Rtotal_order y 0) as [L|[L|L]]; nra).
  destruct (Req_dec x2 0) as [E2|E2]; [|pose proof (SP x2 E2); lra].
  destruct (Req_dec x1 0) as [E1|E1]; [|pose proof (SP (4 / 5 * x1 + 2 / 5 * x2)%R ltac:(lra)); lra].
  pose proof (SP (x0 + 3 / 5 * x1 + 4 / 5 * x2)%R ltac:(destruct NZ as [|[|]]; lra)). lra.
Qed.
Definition some_pairs : list (nat * nat) := [(0, 0); (1, 1); (2, 2); (1, 2); (0, 2)].
Lemma some_cells : ComputeBlockPairsInPreconditioner (6 - 3) 3 [0; 1; 2] [(0, 0); (0, 2); (1, 1); (1, 2); (2, 2)] some_rows = Some some_pairs.
Proof. reflexivity. Qed.
Lemma some_interact i j : i < 3 -> j < 3 -> i <> j -> interact 3 some_rows i j.
Proof.
  intros Hi Hj N. left. unfold sees, some_rows. cbn [In].
  assert (forall p c, In [p; 3 + c] some_rows -> p < 3 -> exists cells, In (p :: cells) some_rows /\ p < 3 /\ In (3 + c) cells) as K by (intros p c H L; exists [3 + c]; split; [exact H|split; [exact L|left; reflexivity]]).
  destruct i as [|[|[|i]]]; destruct j as [|[|[|j]]]; try lia; [exists 0|exists 2|exists 0|exists 1|exists 2|exists 1]; split; apply K; try lia; cbn; tauto.
Qed.
Example tridiagonal_example : positive_definite 3 (fun _ => 1) (stored some_pairs (ScaleOffDiagonalCells [0; 1; 2] some_pairs some_schur)).
Proof.
  apply (cluster_tridiagonal_positive_definite 6 3 some_rows 3 [0; 1; 2] some_visibility [(0, 0); (0, 2); (1, 1); (1, 2); (2, 2)] some_pairs (fun _ => 1) some_schur some_rows_fine).
  - intros i Hi. destruct i as [|[|[|i]]]; cbn; lia.
  - apply tridiagonal_pairs_example.
  - exact some_cells.
  - exact some_schur_symmetric.
  - exact some_schur_definite.
  - intros i j r c Hi Hj N X. exfalso. exact (X (some_interact i j Hi Hj N)).
Qed.
Theorem unscaled_tridiagonal_refuted : positive_definite 3 (fun _ => 1) some_schur /\ ~ positive_definite 3 (fun _ => 1) (stored some_pairs some_schur).
Proof.
  split; [exact some_schur_definite|]. intro PD.
  specialize (PD (fun i _ => if i =? 2 then (-1)%R else (4 / 5)%R)). assert (exists i r : nat, i < 3 /\ r < 1 /\ (if i =? 2 then (-1)%R else (4 / 5)%R) <> 0%R) as NZ by (exists 0, 0; split; [lia|split; [lia|cbn [Nat.eqb]; lra]]). apply PD in NZ. unfold form, stored, some_pairs, some_schur in NZ. cbn -[Rlt Rmult Rdiv] in NZ. lra.
Qed.
Print Assumptions unscaled_tridiagonal_refuted.

(* UpdateImpl: success means that the matrix it leaves was factorized; it is the one eliminated into,
   or, of a tridiagonal preconditioner after a failed factorization, that one with the cells between
   clusters halved *)
Theorem update_reports tridiagonal membership block_pairs eliminated factorize ok m :
  UpdateImpl tridiagonal membership block_pairs eliminated factorize = (ok, m) ->
  (ok = true -> exists k, factorize k m = SUCCESS) /\
  (m = eliminated \/
   (tridiagonal = true /\ factorize 0 eliminated = FAILURE /\
    forall i j r c, m i j r c = if in_dec (fun p q : nat * nat => ltac:(decide equality; apply Nat.eq_dec)) (i, j) block_pairs
                                then (if nth i membership 0 =? nth j membership 0 then eliminated i j r c else (eliminated i j r c / 2)%R) else eliminated i j r c)).
Proof.
  unfold UpdateImpl. destruct (factorize 0 eliminated) eqn:F0.
  - intro H. injection H as <- <-. split; [intros _; exists 0; exact F0|left; reflexivity].
  - destruct tridiagonal.
    + intro H. injection H as H <-. split.
      * intros ->. exists 1. destruct (factorize 1 _); [reflexivity|discriminate H|discriminate H].
      * right. split; [reflexivity|]. split; [reflexivity|]. intros i j r c. unfold ScaleOffDiagonalCells, IsBlockPairOffDiagonal, cluster_of. destruct (in_dec _ (i, j) block_pairs) as [I1|N1].
        -- rewrite (proj2 (has_pair_in block_pairs i j) I1). cbn [andb]. destruct (nth i membership 0 =? nth j membership 0); reflexivity.
        -- destruct (has_pair block_pairs i j) eqn:HP; [apply has_pair_in in HP; contradiction|]. reflexivity.
    + intro H. injection H as <- <-. split; [discriminate|left; reflexivity].
  - intro H. injection H as <- <-. split; [discriminate|left; reflexivity].
Qed.
Print Assumptions update_reports.
(* with a factorization that succeeds on positive definite matrices and does not fail fatally, the
   update of either preconditioner succeeds *)
Theorem update_succeeds (tridiagonal : bool) num_cols E rows num_clusters membership visibility cluster_pairs block_pairs sz (S : block_matrix) factorize :
  rows_fine num_cols E rows -> (forall i, i < num_cols - E -> nth i membership 0 < num_clusters) ->
  (if tridiagonal then TridiagonalClusterPairs (num_cols - E) num_clusters membership visibility = Some cluster_pairs else cluster_pairs = JacobiClusterPairs num_clusters) ->
  ComputeBlockPairsInPreconditioner (num_cols - E) E membership cluster_pairs rows = Some block_pairs ->
  symmetric S -> positive_definite (num_cols - E) sz S ->
  (forall i j r c, i < num_cols - E -> j < num_cols - E -> i <> j -> ~ interact E rows i j -> S i j r c = 0%R) ->
  (forall k m, factorize k m <> FATAL_ERROR) -> (forall k m, positive_definite (num_cols - E) sz (stored block_pairs m) -> factorize k m = SUCCESS) ->
  fst (UpdateImpl tridiagonal membership block_pairs S factorize) = true.
Proof.
  intros F CL EC EB SY PD SZ NF FS. unfold UpdateImpl. destruct (factorize 0 S) eqn:F0; [reflexivity| |exfalso; exact (NF 0 S F0)]. destruct tridiagonal.
  - cbn [fst]. rewrite FS; [reflexivity|]. exact (cluster_tridiagonal_positive_definite num_cols E rows num_clusters membership visibility cluster_pairs block_pairs sz S F CL EC EB SY PD SZ).
  - exfalso. subst cluster_pairs. rewrite FS in F0; [discriminate F0|]. exact (proj2 (cluster_jacobi_positive_definite num_cols E rows num_clusters membership block_pairs sz S F CL EB SY PD SZ)).
Qed.
Print Assumptions update_succeeds.
