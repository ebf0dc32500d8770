(** C15 (partitioning of a loop range) and C16 (triangular index). *)
Require Import ZArith List Lia.
From Verif Require Import OrderedGroupsModel PartitionModel PartitionSpec PartitionProofs.
Import ListNotations.
Open Scope Z_scope.

(** C15.  For every range, every limit on the number of pieces and every
    non-negative per-index cost whose cumulative sums fit in half an int, the
    call returns a partition of exactly the range into at most [m] non-empty
    pieces, and no other partition into at most [m] pieces has a cheaper most
    expensive piece. *)
Theorem partition_optimal :
  forall (w c : Z -> Z) start end_ m,
    0 <= start < end_ -> 1 <= m ->
    (forall i, 0 <= i < end_ -> 0 <= w i) ->
    (forall i, 0 <= i < end_ -> c i = range_cost w 0 (i + 1)) ->
    2 * c (end_ - 1) <= INT_MAX ->
    exists p, partition_range c start end_ m = Ok p /\
      is_partition start end_ m p /\ increasing p /\
      forall q C, is_partition start end_ m q -> costs_at_most w C q -> costs_at_most w C p.
Proof. intros w c start end_ m [H1 H2] Hm Hw Hc HO. exact (partition_range_correct w c start end_ m H1 H2 Hm Hw Hc HO). Qed.
Print Assumptions partition_optimal.

(** A non-trivial instance: costs 5 1 1 1 4 2 on [1,6) in 2 pieces. *)
Definition ex_w (i : Z) : Z := nth (Z.to_nat i) [5; 1; 1; 1; 4; 2] 0.
Definition ex_c (i : Z) : Z := range_cost ex_w 0 (i + 1).
Example partition_instance : partition_range ex_c 1 6 2 = Ok [1; 4; 6].
Proof. vm_compute. reflexivity. Qed.
Example partition_instance_hyps :
  (forall i, 0 <= i < 6 -> 0 <= ex_w i) /\ 2 * ex_c 5 <= INT_MAX.
Proof.
  split.
  - intros i Hi. assert (i = 0 \/ i = 1 \/ i = 2 \/ i = 3 \/ i = 4 \/ i = 5) as K by lia.
    destruct K as [?|[?|[?|[?|[?|?]]]]]; subst; vm_compute; discriminate.
  - vm_compute. discriminate.
Qed.

(** C15 without the size condition is false: all cumulative costs fit in an
    int, yet the computation of the target cumulative cost overflows. *)
Definition big_w (i : Z) : Z := if i =? 0 then INT_MAX - 20 else 10.
Definition big_c (i : Z) : Z := range_cost big_w 0 (i + 1).
Theorem partition_overflow_refuted :
  exists (w c : Z -> Z) start end_ m,
    0 <= start < end_ /\ 1 <= m /\
    (forall i, 0 <= i < end_ -> 0 <= w i) /\
    (forall i, 0 <= i < end_ -> c i = range_cost w 0 (i + 1)) /\
    c (end_ - 1) <= INT_MAX /\ partition_range c start end_ m = UB.
Proof.
  exists big_w, big_c, 1, 3, 2. split; [lia|]. split; [lia|]. split.
  { intros i Hi. unfold big_w. destruct (i =? 0); unfold INT_MAX; lia. }
  split; [reflexivity|]. split; [vm_compute; discriminate|vm_compute; reflexivity].
Qed.
Print Assumptions partition_overflow_refuted.

(** C16.  The linear index runs through every pair [0 <= i <= j < n] exactly
    once as it goes through [0, n(n+1)/2). *)
Theorem triangular_index_bijection :
  forall n, 0 <= n ->
    (forall k, 0 <= k < n * (n + 1) / 2 ->
       let '(i, j) := linear_to_upper k n in 0 <= i <= j /\ j < n) /\
    (forall i j, 0 <= i <= j -> j < n ->
       exists k, (0 <= k < n * (n + 1) / 2 /\ linear_to_upper k n = (i, j)) /\
         forall k', 0 <= k' < n * (n + 1) / 2 -> linear_to_upper k' n = (i, j) -> k' = k).
Proof.
  intros n Hn. split; [intros; apply upper_in_range; auto|].
  intros i j Hi Hj. destruct (upper_surj n i j Hn Hi Hj) as [k [K1 K2]]. exists k. split; [auto|].
  intros k' K3 K4. apply (upper_inj n); auto. congruence.
Qed.
Print Assumptions triangular_index_bijection.

Example triangular_instance : map (fun k => linear_to_upper k 3) [0; 1; 2; 3; 4; 5]
  = [(0,0); (0,1); (0,2); (2,2); (1,1); (1,2)].
Proof. reflexivity. Qed.
