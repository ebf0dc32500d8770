(** C08, C09: theorems about OrderedGroups. *)
Require Import ZArith List Lia.
From Verif Require Import ZMap OrderedGroupsModel OrderedGroupsSpec OrderedGroupsProofs.
Import ListNotations.
Open Scope Z_scope.

(** C08. Every history of calls behaves like updates of one partial function
    from elements to group ids (so each element is in at most one group, the
    last it was put in), every returned value is right, and every observer
    (GroupId, IsMember, GroupSize, NumElements, NumGroups, MinNonZeroGroup)
    reports that function. *)
Theorem ordered_groups_refine : forall os s rs,
  run os og_empty = Some (s, rs) ->
  exists f, spec_run no_groups os rs f /\
  (forall e, group_id e s = match f e with Some g => g | None => -1 end) /\
  (forall e, is_member e s = true <-> f e <> None) /\
  (forall e g, f e = Some g -> 0 <= g) /\
  (forall g, count_is (fun e => f e = Some g) (group_size g s)) /\
  count_is (fun e => f e <> None) (num_elements s) /\
  count_is (fun g => exists e, f e = Some g) (num_groups s) /\
  (match min_nonzero_group s with
   | None => forall e, f e = None
   | Some g => (exists e, f e = Some g) /\ forall e g', f e = Some g' -> g <= g'
   end).
Proof.
  intros os s rs H.
  destruct (run_refines os og_empty s rs no_groups rep_empty H) as [f [S R]].
  exists f. split; [exact S | exact (observers_ok s f R)].
Qed.
Print Assumptions ordered_groups_refine.

Example ordered_groups_refine_case :
  exists s, run [OAdd 10 3; OAdd 11 3; OAdd 12 0; OAdd 11 0; OAdd 13 (-1); OReverse; ORemoveBulk [10; 99; 10]] og_empty
            = Some (s, [RBool true; RBool true; RBool true; RBool true; RBool false; RVoid; RInt 1])
            /\ group_id 12 s = 4 /\ num_groups s = 1.
Proof. eexists. vm_compute. repeat split. Qed.

(** C08 also needs that the stored group table (which Ceres iterates over) is
    the same partition: after any history, element [e] is listed in group [g]
    of the table iff GroupId(e) = g, groups are listed in increasing id order
    and none is empty. *)
Theorem ordered_groups_table : forall os s rs,
  run os og_empty = Some (s, rs) ->
  (forall e g, In e (zkeys (group_get g (g2e s))) <-> (group_id e s = g /\ 0 <= g)) /\
  Sorting.Sorted.StronglySorted Z.lt (map fst (g2e s)) /\
  (forall g es, In (g, es) (g2e s) -> es <> [] /\ Sorting.Sorted.StronglySorted Z.lt (map fst es)).
Proof.
  intros os s rs H.
  destruct (run_refines os og_empty s rs no_groups rep_empty H) as [f [S [O F]]].
  split; [|split; [exact (ok_g s O)|]].
  - intros e g. unfold group_get, group_id. split.
    + intros I. destruct (zfind g (g2e s)) as [es|] eqn:E; [|contradiction].
      assert (K : zfind e (e2g s) = Some g) by (apply (ok_eq s O); eauto).
      rewrite K. split; [reflexivity|]. exact (ok_pos s O _ _ K).
    + intros [G P]. destruct (zfind e (e2g s)) as [g'|] eqn:E; [|lia]. subst g'.
      apply (ok_eq s O) in E. destruct E as [es [E I]]. rewrite E. exact I.
  - intros g es I. apply (in_zfind _ _ _ (ok_g s O)) in I.
    destruct (ok_sets s O _ _ I) as [A B]. split; [exact B|exact A].
Qed.
Print Assumptions ordered_groups_table.

(** C09. Reverse is defined and reverses the order of the groups whenever the
    largest group id plus the number of groups fits an int. *)
Theorem reverse_reverses : forall os s rs gmax,
  run os og_empty = Some (s, rs) ->
  (forall e, group_id e s <= gmax) -> gmax + num_groups s <= INT_MAX ->
  exists s', reverse s = Some s' /\
    order_reversed (fun e => if is_member e s then Some (group_id e s) else None)
                   (fun e => if is_member e s' then Some (group_id e s') else None) /\
    num_groups s' = num_groups s /\ num_elements s' = num_elements s.
Proof.
  intros os s rs gmax H G L.
  destruct (run_refines os og_empty s rs no_groups rep_empty H) as [f [S [O F]]].
  destruct (reverse_defined s gmax) as [s' R]; [|exact O|exact L|].
  { intros e g' E. specialize (G e). unfold group_id in G. rewrite E in G. exact G. }
  exists s'. split; [exact R|].
  destruct (reverse_order s s' O R) as [O' OR].
  assert (X : forall t e, (if is_member e t then Some (group_id e t) else None) = zfind e (e2g t)).
  { intros t e. unfold is_member, zmem, group_id. destruct (zfind e (e2g t)); reflexivity. }
  destruct OR as [N Rv]. split; [split|].
  - intros e. rewrite !X. apply N.
  - intros e1 e2 g1 g2 h1 h2. rewrite !X. apply Rv.
  - exact (reverse_counts s s' O O' (conj N Rv)).
Qed.
Print Assumptions reverse_reverses.

(** Applying Reverse twice restores the original relative order. *)
Theorem reverse_twice_restores_order : forall os s rs s1 s2,
  run os og_empty = Some (s, rs) -> reverse s = Some s1 -> reverse s1 = Some s2 ->
  forall e1 e2, is_member e1 s = true -> is_member e2 s = true ->
  (group_id e1 s2 < group_id e2 s2 <-> group_id e1 s < group_id e2 s).
Proof.
  intros os s rs s1 s2 H R1 R2 e1 e2 M1 M2.
  destruct (run_refines os og_empty s rs no_groups rep_empty H) as [f [S [O F]]].
  exact (reverse_twice_ids s s1 s2 O R1 R2 e1 e2 M1 M2).
Qed.
Print Assumptions reverse_twice_restores_order.

Example reverse_case : exists s s', run [OAdd 1 2; OAdd 2 5; OAdd 3 5; OAdd 4 9] og_empty = Some (s, [RBool true; RBool true; RBool true; RBool true])
  /\ reverse s = Some s' /\ group_id 4 s' = 9 /\ group_id 2 s' = 10 /\ group_id 3 s' = 10 /\ group_id 1 s' = 11
  /\ (forall e, group_id e s <= 9) /\ 9 + num_groups s <= INT_MAX.
Proof.
  eexists; eexists. split; [vm_compute; reflexivity|]. split; [vm_compute; reflexivity|].
  repeat split.
  - intros e. unfold group_id; cbn -[Z.eqb].
    repeat (match goal with |- context [if ?b then _ else _] => destruct b end; try lia).
  - vm_compute. discriminate.
Qed.

(** C09, the negative part: with legal (non-negative int) group ids Reverse can
    be undefined behaviour - one group with id INT_MAX suffices. *)
Theorem reverse_overflow_refuted : exists os,
  (forall o, In o os -> exists e g, o = OAdd e g /\ 0 <= g <= INT_MAX) /\
  run (os ++ [OReverse]) og_empty = None.
Proof. exact reverse_undefined. Qed.
Print Assumptions reverse_overflow_refuted.
