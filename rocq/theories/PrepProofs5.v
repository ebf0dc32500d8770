(* C81: the remaining pieces, and tools for the examples *)
From Coq Require Import ZArith List Arith Bool Lia Permutation Sorting.Sorted.
From Verif Require Import ZMap OrderedGroupsModel OrderedGroupsProofs ReorderModel ReorderProps SolveOrderingModel SolveOrderingSpec SolveOrderingProofs PrepModel PrepSpec PrepProofs PrepProofs3 PrepProofs4.
Import ListNotations.
Close Scope Z_scope. Open Scope nat_scope.

Lemma pattern_from F idx rs : forall c0 r c, In (r, c) (PatternFrom F idx c0 rs) <-> c0 <= c /\ exists res a, nth_error rs (c - c0) = Some res /\ uses F res a /\ idx a = r.
Proof.
  induction rs as [|x rs IH]; intros c0 r c; cbn [PatternFrom].
  - split; [intros []|]. intros [_ [res [a [H _]]]]. destruct (c - c0); discriminate.
  - rewrite in_app_iff, in_map_iff, IH. split.
    + intros [[a [E H]]|[L [res [a [H U]]]]].
      * injection E as <- <-. apply filter_In in H. destruct H as [H C]. apply negb_true_iff in C. split; [auto|]. exists x, a. rewrite Nat.sub_diag. cbn [nth_error]. split; [auto|]. split; [split; auto|auto].
      * split; [lia|]. exists res, a. replace (c - c0) with (S (c - S c0)) by lia. auto.
    + intros [L [res [a [H [[I C] E]]]]]. destruct (Nat.eq_dec c c0) as [->|N].
      * left. rewrite Nat.sub_diag in H. cbn [nth_error] in H. injection H as <-. exists a. split; [now rewrite E|]. apply filter_In. split; [auto|]. now rewrite C.
      * right. split; [lia|]. exists res, a. replace (c - c0) with (S (c - S c0)) in H by lia. split; [auto|]. split; [split; auto|auto].
Qed.
Lemma nth_error_skip {A} (l : list A) : forall s i, nth_error (skipn s l) i = nth_error l (s + i).
Proof. induction l as [|x l IH]; intros [|s] i; cbn [skipn plus nth_error]; auto. now destruct i. Qed.

Lemma by_groups_before o l b b' : by_groups o l -> before l b b' -> (group_id b o <= group_id b' o)%Z.
Proof. intros S [l1 [l2 [l3 E]]]. apply (sorted_before _ l b b' S). exists l1, l2, l3. exact E. Qed.

Lemma partition_ok T chosen p r i : sound_tools T ->
  let '(p1, start) := ByPartition T chosen p in
  blocks p1 = blocks p /\ index p1 = index p /\ Permutation (residuals p1) (residuals p) /\
  (nth_error (residuals p1) i = Some r -> (chosen (res_id r) = true <-> start <= i)).
Proof.
  intros ST. unfold ByPartition. cbn [blocks index residuals]. set (f := fun x => negb (chosen (res_id x))). destruct (st_partition T ST f (residuals p)) as [yes [no [E [P [Y N]]]]].
  split; [auto|]. split; [auto|]. split; [exact P|].
  assert (L : length (filter f (residuals p)) = length yes).
  { rewrite E in P. assert (Q : length (filter f (residuals p)) = length (filter f (yes ++ no))). { clear - P. induction P; cbn [filter]; auto; [destruct (f x); cbn [length]; auto|destruct (f x), (f y); auto|congruence]. }
    rewrite Q, filter_app, app_length. assert (A : filter f yes = yes). { clear - Y. induction yes as [|a l IH]; [auto|]. cbn [filter]. rewrite (Y a (or_introl eq_refl)). f_equal. apply IH. intros; apply Y; now right. }
    assert (B : filter f no = []). { clear - N. induction no as [|a l IH]; [auto|]. cbn [filter]. rewrite (N a (or_introl eq_refl)). apply IH. intros; apply N; now right. }
    rewrite A, B. cbn. lia. }
  rewrite L, E. intros H. destruct (le_lt_dec (length yes) i) as [Q|Q].
  - rewrite nth_error_app2 in H by auto. apply nth_error_In in H. specialize (N r H). unfold f in N. apply negb_false_iff in N. tauto.
  - rewrite nth_error_app1 in H by auto. apply nth_error_In in H. specialize (Y r H). unfold f in Y. apply negb_true_iff in Y. split; [congruence|lia].
Qed.

Lemma mismatch o p b : ok o -> NoDup (blocks p) -> (num_elements o =? Z.of_nat (length (blocks p)))%Z = true -> ~ (has o b <-> In b (blocks p)) -> exists b', In b' (blocks p) /\ ~ has o b'.
Proof.
  intros O N L NB. apply Z.eqb_eq in L. unfold num_elements in L. apply Nat2Z.inj in L.
  assert (KEYS : forall x, In x (zkeys (e2g o)) <-> has o x). { intros x. rewrite has_find. destruct (zfind x (e2g o)) eqn:Q; [apply zfind_in_keys in Q|apply zfind_none_keys in Q]; split; auto; congruence. }
  destruct (existsb (fun x => negb (is_member x o)) (blocks p)) eqn:Q.
  - apply existsb_exists in Q. destruct Q as [x [X Y]]. apply negb_true_iff in Y. exists x. split; [auto|]. unfold has. congruence.
  - exfalso. apply NB. assert (ALL : forall x, In x (blocks p) -> has o x). { intros x X. unfold has. destruct (is_member x o) eqn:E; [auto|]. assert (existsb (fun x => negb (is_member x o)) (blocks p) = true) by (apply existsb_exists; exists x; rewrite E; auto). congruence. }
    split; [|apply ALL]. intros Hb. apply KEYS in Hb. assert (LK : length (zkeys (e2g o)) = length (e2g o)) by (unfold zkeys; apply map_length).
    revert Hb. apply (NoDup_length_incl N); [lia|]. intros x X. apply KEYS. auto.
Qed.

(* ---------------------------------------------------------- tools that keep their promises *)
Fixpoint insert_by (C : list nat) (i : nat) (l : list nat) : list nat := match l with [] => [i] | j :: l' => if nth i C 0 <=? nth j C 0 then i :: l else j :: insert_by C i l' end.
Definition sort_by (C l : list nat) : list nat := fold_right (insert_by C) [] l.
Lemma insert_by_perm C i l : Permutation (insert_by C i l) (i :: l).
Proof. induction l as [|j l IH]; cbn [insert_by]; [auto|]. destruct (_ <=? _); [auto|]. eapply Permutation_trans; [apply perm_skip; exact IH|apply perm_swap]. Qed.
Lemma sort_by_perm C l : Permutation (sort_by C l) l.
Proof. induction l as [|i l IH]; cbn [sort_by fold_right]; [auto|]. eapply Permutation_trans; [apply insert_by_perm|]. now apply perm_skip. Qed.
Lemma insert_by_sorted C i l : StronglySorted (fun a b => nth a C 0 <= nth b C 0) l -> StronglySorted (fun a b => nth a C 0 <= nth b C 0) (insert_by C i l).
Proof.
  induction 1 as [|j l S IH FA]; cbn [insert_by]; [repeat constructor|]. rewrite Forall_forall in FA. destruct (Nat.leb_spec (nth i C 0) (nth j C 0)) as [L|L].
  - constructor; [constructor; [auto|now apply Forall_forall]|]. apply Forall_forall. intros x [<-|X]; [auto|]. specialize (FA x X). lia.
  - constructor; [auto|]. apply Forall_forall. intros x X. apply (Permutation_in _ (insert_by_perm C i l)) in X. destruct X as [<-|X]; [lia|auto].
Qed.
Lemma sort_by_follows C l : follows C (sort_by C l).
Proof.
  assert (S : StronglySorted (fun a b => nth a C 0 <= nth b C 0) (sort_by C l)) by (induction l as [|i l IH]; cbn [sort_by fold_right]; [constructor|now apply insert_by_sorted]).
  intros i j I J. revert i j I J. induction S as [|x q S IH FA]; intros i j I J; [cbn in J; lia|]. rewrite Forall_forall in FA. destruct j as [|j]; [lia|]. cbn [length] in J. destruct i as [|i]; cbn [nth].
  - apply FA. apply nth_In. lia.
  - apply IH; lia.
Qed.
(* all the algorithms turn the order around, CAMD within its sets *)
Definition good_tools : Tools := mkTools (fun n _ C => Some (sort_by C (rev (seq 0 n)))) (fun n _ => Some (rev (seq 0 n))) (fun n _ => Some (rev (seq 0 n)))
  (fun _ n k _ => rev (seq 0 (n - k))) (fun _ n _ => rev (seq 0 n)) (fun f l => rev (filter f l) ++ filter (fun r => negb (f r)) l).
Lemma rev_permutation n : is_permutation n (rev (seq 0 n)).
Proof. apply Permutation_sym, Permutation_rev. Qed.
Lemma good_tools_ok : sound_tools good_tools /\ working good_tools.
Proof.
  split; [|repeat split; discriminate]. constructor; cbn [camd amd nesdis eigen_schur eigen_order partition good_tools].
  - intros n P C l _ E. injection E as <-. split; [|apply sort_by_follows]. eapply Permutation_trans; [apply sort_by_perm|apply rev_permutation].
  - intros n P l E. injection E as <-. apply rev_permutation.
  - intros n P l E. injection E as <-. apply rev_permutation.
  - intros. apply rev_permutation.
  - intros. apply rev_permutation.
  - intros f l. exists (rev (filter f l)), (filter (fun r => negb (f r)) l). split; [auto|]. split; [|split].
    + eapply Permutation_trans; [apply Permutation_app_tail; apply Permutation_sym, Permutation_rev|]. induction l as [|x l IH]; [auto|]. cbn [filter]. destruct (f x); cbn [negb app]; [now apply perm_skip|]. eapply Permutation_trans; [apply Permutation_sym, Permutation_middle|now apply perm_skip].
    + intros r H. apply in_rev in H. apply filter_In in H. tauto.
    + intros r H. apply filter_In in H. destruct H as [_ H]. now apply negb_true_iff.
Qed.
