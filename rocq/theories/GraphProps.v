(** C17-C19 and C56: theorems about Graph and the block orderings. *)
Require Import List Arith Bool Lia Permutation Sorted ZArith.
From Verif Require Import ZMap OrderedGroupsModel OrderedGroupsProofs GraphModel GraphSpec GraphProofs GraphProofs2 GraphProofs3.
Import ListNotations.
Open Scope nat_scope.

(** C56. After any allowed sequence of edits the graph's vertices and
    neighbours are exactly those of the history; anything else is reported
    (None). *)
Theorem graph_refines : forall ops,
  match grun ops g_empty with
  | Some g => allowed (rev ops) /\ NoDup (g_v g) /\ (forall v, In v (g_v g) <-> has_v (rev ops) v) /\
              (forall x, match neighbors g x with
                         | Some l => has_v (rev ops) x /\ NoDup l /\ forall y, In y l <-> has_e (rev ops) x y
                         | None => ~ has_v (rev ops) x end)
  | None => ~ allowed (rev ops)
  end.
Proof.
  intros ops. pose proof (grun_rep ops [] g_empty rep_empty_graph I) as G. rewrite app_nil_r in G.
  destruct (grun ops g_empty) as [g|]; [|auto]. destruct G as [[GI [GV GE]] A]. split; auto. split; [apply gi_nodup; auto|]. split; auto.
  intros x. unfold neighbors. destruct (g_e g x) as [l|] eqn:E.
  - split; [apply GV; apply (gi_dom g GI); congruence|]. pose proof (gi_set g GI x) as N. unfold at_ in N. rewrite E in N. split; auto.
    intros y. rewrite <- GE. unfold adj, at_. rewrite E. tauto.
  - rewrite <- GV. intros X. apply (gi_dom g GI) in X. congruence.
Qed.

Lemma first_k_ext : forall V V' E E' o k, (forall v, V v <-> V' v) -> (forall a b, E a b <-> E' a b) ->
  first_k_independent V E o k -> first_k_independent V' E' o k.
Proof.
  intros V V' E E' o k HV HE [A [B [C [D F]]]]. split; auto. split; [intros v; rewrite B; auto|]. split; auto. split.
  - intros a b X Y Z. apply (D a b X Y). apply HE; auto.
  - intros b X. destruct (F b X) as [a [P Q]]. exists a. split; auto. apply HE; auto.
Qed.

(** C17. IndependentSetOrdering on any graph without self loops: succeeds,
    the first k vertices form a maximal independent set, and both parts are in
    order of increasing degree. *)
Theorem independent_set_ordering_correct : forall ops g, grun ops g_empty = Some g -> (forall v, ~ has_e (rev ops) v v) ->
  exists ordering k, independent_set_ordering g = Some (ordering, k) /\
    first_k_independent (has_v (rev ops)) (has_e (rev ops)) ordering k /\
    StronglySorted (fun a b => degree g a <= degree g b) (firstn k ordering) /\
    StronglySorted (fun a b => degree g a <= degree g b) (skipn k ordering).
Proof.
  intros ops g H NL. pose proof (grun_rep ops [] g_empty rep_empty_graph I) as G. rewrite app_nil_r, H in G. destruct G as [[GI [GV GE]] A].
  assert (L : isolated_loops g) by (intros v X; apply GE in X; exact (NL v X)).
  destruct (iso_ok g GI L) as [o [k [E OQ]]]. exists o, k. split; auto. split; [eapply first_k_ext; [| |eapply oq_spec; eauto]; auto|].
  destruct (oq_split _ _ _ _ OQ) as [f [F1 F2]]. rewrite F1, F2. split; apply strong_filter; apply sorted_degree_total.
Qed.

(** C17. The stable variant, for any input order of the vertices; vertices of
    equal degree in the same part keep their input order. *)
Theorem stable_independent_set_ordering_correct : forall ops g input, grun ops g_empty = Some g -> (forall v, ~ has_e (rev ops) v v) ->
  NoDup input -> (forall v, In v input <-> has_v (rev ops) v) ->
  exists ordering k, stable_independent_set_ordering g input = Some (ordering, k) /\
    first_k_independent (has_v (rev ops)) (has_e (rev ops)) ordering k /\
    StronglySorted (fun a b => degree g a <= degree g b) (firstn k ordering) /\
    StronglySorted (fun a b => degree g a <= degree g b) (skipn k ordering) /\
    (forall d, exists f, filter (fun v => degree g v =? d) (firstn k ordering) = filter f (filter (fun v => degree g v =? d) input) /\
                         filter (fun v => degree g v =? d) (skipn k ordering) = filter (fun v => negb (f v)) (filter (fun v => degree g v =? d) input)).
Proof.
  intros ops g input H NL ND IN. pose proof (grun_rep ops [] g_empty rep_empty_graph I) as G. rewrite app_nil_r, H in G. destruct G as [[GI [GV GE]] A].
  assert (L : isolated_loops g) by (intros v X; apply GE in X; exact (NL v X)).
  assert (P : Permutation input (g_v g)).
  { apply NoDup_Permutation; auto; [apply gi_nodup; auto|]. intros x. rewrite IN, GV. tauto. }
  destruct (siso_ok g input GI L P) as [o [k [E OQ]]]. exists o, k. split; auto. split; [eapply first_k_ext; [| |eapply oq_spec; eauto]; auto|].
  destruct (oq_split _ _ _ _ OQ) as [f [F1 F2]]. rewrite F1, F2. split; [|split].
  - apply strong_filter; apply sorted_degree.
  - apply strong_filter; apply sorted_degree.
  - intros d. exists f.
    assert (SW : forall p q l, filter p (filter q l) = filter q (filter p l) :> list nat).
    { intros p q. induction l as [|x l IH]; simpl; auto. destruct (p x) eqn:P1, (q x) eqn:P2; simpl; rewrite ?P1, ?P2; auto. rewrite IH; auto. }
    assert (ST : filter (fun v => degree g v =? d) (ssort (degree_lt g) input) = filter (fun v => degree g v =? d) input).
    { clear. induction input as [|x l IH]; simpl; auto.
      assert (SI : forall m, filter (fun v => degree g v =? d) (sinsert (degree_lt g) x m) = if degree g x =? d then x :: filter (fun v => degree g v =? d) m else filter (fun v => degree g v =? d) m).
      { induction m as [|y r IHm]; simpl; auto. unfold degree_lt at 1. destruct (Nat.ltb_spec (degree g y) (degree g x)); simpl; [|auto].
        rewrite IHm. destruct (Nat.eqb_spec (degree g x) d), (Nat.eqb_spec (degree g y) d); auto. lia. }
      rewrite SI, IH. auto. }
    rewrite (SW _ f), (SW _ (fun v => negb (f v))), ST. auto.
Qed.

(** C17. The result does not depend on the iteration order of hash sets. *)
Theorem independent_set_ordering_deterministic : forall ops ops' g g', grun ops g_empty = Some g -> grun ops' g_empty = Some g' ->
  (forall v, has_v (rev ops) v <-> has_v (rev ops') v) -> (forall a b, has_e (rev ops) a b <-> has_e (rev ops') a b) ->
  independent_set_ordering g = independent_set_ordering g'.
Proof.
  intros ops ops' g g' H H' V E. pose proof (grun_rep ops [] g_empty rep_empty_graph I) as G. rewrite app_nil_r, H in G.
  pose proof (grun_rep ops' [] g_empty rep_empty_graph I) as G'. rewrite app_nil_r, H' in G'.
  destruct G as [[GI [GV GE]] _], G' as [[GI' [GV' GE']] _]. apply iso_same; auto. split.
  - intros v. rewrite GV, GV'. auto.
  - intros a b. rewrite GE, GE'. auto.
Qed.

(** With a self loop (a residual block using a block twice, possible only with
    safety checks disabled) the final CHECK fails. *)
Theorem self_loop_aborts_refuted : exists ops g, grun ops g_empty = Some g /\ independent_set_ordering g = None.
Proof. exists [AddV 1; AddE 1 1]. eexists. split; vm_compute; reflexivity. Qed.

(** C18. *)
Definition schur_correct (p : prog) (ordering : list nat) (k : nat) : Prop :=
  Permutation ordering (p_blocks p) /\
  k <= length ordering /\
  (forall b, In b (firstn k ordering) -> var_block p b) /\
  (forall a b, In a (firstn k ordering) -> In b (firstn k ordering) -> a <> b -> ~ together p a b) /\
  (forall b, In b (skipn k ordering) -> p_const p b = false -> exists a, In a (firstn k ordering) /\ together p a b) /\
  (exists vs cs, ordering = vs ++ cs /\ (forall b, In b vs -> p_const p b = false) /\ (forall b, In b cs -> p_const p b = true)).

Lemma schur_from : forall p g q o k, valid_prog p -> GInv g -> (forall v, In v (g_v g) <-> var_block p v) ->
  (forall a b, adj g a b <-> a <> b /\ var_block p a /\ var_block p b /\ together p a b) -> OQ g q o k ->
  schur_correct p (o ++ filter (p_const p) (p_blocks p)) k.
Proof.
  intros p g q o k V GI GV GE [P K SP IN MX].
  assert (F : firstn k (o ++ filter (p_const p) (p_blocks p)) = firstn k o) by (rewrite firstn_app; replace (k - length o) with 0 by lia; simpl; apply app_nil_r).
  assert (S : skipn k (o ++ filter (p_const p) (p_blocks p)) = skipn k o ++ filter (p_const p) (p_blocks p)) by (rewrite skipn_app; replace (k - length o) with 0 by lia; reflexivity).
  assert (OV : forall b, In b o <-> var_block p b) by (intros b; rewrite <- GV; split; apply Permutation_in; auto; symmetry; auto).
  assert (FV : forall b, In b (firstn k o) -> var_block p b) by (intros b B; apply OV; rewrite <- (firstn_skipn k o); apply in_or_app; auto).
  unfold schur_correct. rewrite F, S. split; [|split; [rewrite app_length; lia|split; [auto|split; [|split]]]].
  - eapply Permutation_trans; [|apply (filter_perm (p_const p))]. rewrite (Permutation_app_comm (filter (p_const p) (p_blocks p))). apply Permutation_app_tail.
    apply NoDup_Permutation.
    + eapply Permutation_NoDup; [symmetry; exact P|apply gi_nodup; auto].
    + apply NoDup_filter. apply (proj1 V).
    + intros b. rewrite OV, filter_In, negb_true_iff. reflexivity.
  - intros a b A B NE T. apply (IN a b A B). apply GE. auto.
  - intros b B C. apply in_app_or in B. destruct B as [B|B].
    + destruct (MX b B) as [a [A E]]. exists a. split; auto. apply GE in E. tauto.
    + apply filter_In in B. destruct B; congruence.
  - exists o, (filter (p_const p) (p_blocks p)). split; auto. split.
    + intros b B. apply OV in B. apply B.
    + intros b B. apply filter_In in B. tauto.
Qed.

(** For every valid program: all blocks exactly once, constants last; the
    first k are variable, no two of them are used by one residual block, and
    every other variable block shares a residual block with one of them. *)
Theorem stable_schur_ordering_correct : forall p, valid_prog p ->
  exists ordering k, stable_schur_ordering p = Some (ordering, k) /\ schur_correct p ordering k.
Proof.
  intros p V. destruct (hessian_ok p V) as [g [E [GI [L [GV GE]]]]]. unfold stable_schur_ordering. rewrite E.
  destruct (siso_ok g (filter (fun b => mem b (g_v g)) (p_blocks p)) GI L) as [o [k [E1 OQ]]].
  - apply NoDup_Permutation; [apply NoDup_filter; apply (proj1 V)|apply gi_nodup; auto|]. intros b. rewrite filter_In, mem_in, GV. unfold var_block. tauto.
  - rewrite E1. eexists. eexists. split; [reflexivity|]. eapply schur_from; eauto.
Qed.
Theorem schur_ordering_correct : forall p, valid_prog p ->
  exists ordering k, schur_ordering p = Some (ordering, k) /\ schur_correct p ordering k.
Proof.
  intros p V. destruct (hessian_ok p V) as [g [E [GI [L [GV GE]]]]]. unfold schur_ordering. rewrite E.
  destruct (iso_ok g GI L) as [o [k [E1 OQ]]]. rewrite E1. eexists. eexists. split; [reflexivity|]. eapply schur_from; eauto.
Qed.

(** C19. Without constant blocks the recursive ordering terminates (in at most
    as many rounds as blocks), puts exactly the program's blocks into groups,
    and no residual block uses two blocks of one group. *)
Theorem recursive_ordering_correct : forall p, valid_prog p -> (forall b, In b (p_blocks p) -> p_const p b = false) ->
  forall fuel, length (p_blocks p) <= fuel ->
  exists o, recursive_ordering fuel p = RDone o /\
    (forall b, In b (p_blocks p) -> (0 <= group_id (Z.of_nat b) o)%Z) /\
    (forall x, is_member x o = true <-> exists b, x = Z.of_nat b /\ In b (p_blocks p)) /\
    (forall a b, In a (p_blocks p) -> In b (p_blocks p) -> a <> b -> group_id (Z.of_nat a) o = group_id (Z.of_nat b) o -> ~ together p a b).
Proof.
  intros p V NC fuel F. destruct (hessian_ok p V) as [g [E [GI [L [GV GE]]]]]. unfold recursive_ordering. rewrite E.
  assert (VB : forall b, var_block p b <-> In b (p_blocks p)) by (intros b; unfold var_block; split; [tauto|auto]).
  destruct (rec_loop_done fuel (p_blocks p) (fun a b => adj g a b) 0 0%Z g og_empty) as [o [R [O [G1 [G2 G3]]]]]; auto.
  - apply (proj1 V).
  - constructor; auto; try lia; simpl; try discriminate.
    + apply ok_empty.
    + apply nodup_same_length; [apply gi_nodup; auto|apply (proj1 V)|]. intros x. rewrite GV. auto.
    + intros x X. apply VB. apply GV. auto.
    + intros a b. split; [|tauto]. intros X. split; [eapply vert_l; eauto|]. split; auto. eapply gi_vert; eauto.
    + intros b B NB. exfalso. apply NB. apply GV. apply VB. auto.
  - lia.
  - exists o. split; auto. split; [|split].
    + intros b B. destruct (G2 b B) as [r X]. unfold group_id. rewrite X. apply G1 in X. tauto.
    + intros x. unfold is_member, zmem. split.
      * destruct (zfind x (e2g o)) eqn:X; [|discriminate]. intros _. apply G1 in X. destruct X as [_ X]. exact X.
      * intros [b [-> B]]. destruct (G2 b B) as [r X]. rewrite X. auto.
    + intros a b A B NE EQ T. destruct (G2 a A) as [r X]. destruct (G2 b B) as [r' Y]. unfold group_id in EQ. rewrite X, Y in EQ. subst r'.
      apply (G3 a b r X Y). apply GE. rewrite !VB. auto.
Qed.

(** C19, second half: with a constant block the loop never ends. *)
Theorem recursive_ordering_diverges : forall p, valid_prog p -> (exists b, In b (p_blocks p) /\ p_const p b = true) ->
  forall fuel, recursive_ordering fuel p = RRunning.
Proof.
  intros p V [b [B C]] fuel. destruct (hessian_ok p V) as [g [E [GI [L [GV GE]]]]]. unfold recursive_ordering. rewrite E.
  apply rec_loop_forever; auto; try lia; [apply ok_empty|]. simpl.
  assert (X : length (b :: g_v g) <= length (p_blocks p)).
  { apply NoDup_incl_length.
    - constructor; [|apply gi_nodup; auto]. intros X. apply GV in X. destruct X; congruence.
    - intros x [X|X]; [subst; auto|]. apply GV in X. apply X. }
  simpl in X. lia.
Qed.

Print Assumptions graph_refines.
Print Assumptions independent_set_ordering_correct.
Print Assumptions stable_independent_set_ordering_correct.
Print Assumptions independent_set_ordering_deterministic.
Print Assumptions stable_schur_ordering_correct.
Print Assumptions schur_ordering_correct.
Print Assumptions recursive_ordering_correct.
Print Assumptions recursive_ordering_diverges.

(** Cases: a star with centre 1; the leaves come first. *)
Definition star : list gop := [AddV 1; AddV 2; AddV 3; AddV 4; AddE 1 2; AddE 1 3; AddE 4 1; AddV 9; RemV 9].
Example star_case : match grun star g_empty with Some g => independent_set_ordering g | None => None end = Some ([2; 3; 4; 1], 3).
Proof. vm_compute. reflexivity. Qed.
Example star_stable : match grun star g_empty with Some g => stable_independent_set_ordering g [1; 4; 2; 3] | None => None end = Some ([4; 2; 3; 1], 3).
Proof. vm_compute. reflexivity. Qed.
(** Two cameras (1, 2), three points (3, 4, 5), constant block 6. *)
Definition ba : prog := mkProg [1; 2; 3; 4; 5; 6] (fun b => b =? 6) [[1; 3; 6]; [1; 4; 6]; [2; 4; 6]; [2; 5; 6]; [1; 5; 6]; [2; 3]].
Example ba_valid : valid_prog ba.
Proof.
  split; [repeat constructor; simpl; lia|]. intros r R. simpl in R.
  repeat (destruct R as [R|R]; [subst r; split; [repeat constructor; simpl; lia|simpl; intros b X; lia]|]). contradiction.
Qed.
Example ba_schur : stable_schur_ordering ba = Some ([3; 4; 5; 1; 2; 6], 3).
Proof. vm_compute. reflexivity. Qed.
Example ba_recursive : match recursive_ordering 5 (mkProg [1; 2; 3; 4; 5] (fun _ => false) [[1; 3]; [1; 4]; [2; 4]; [2; 5]; [1; 2]]) with
  | RDone o => map (fun b => group_id b o) [1; 2; 3; 4; 5]%Z = [1; 2; 0; 0; 0]%Z | _ => False end.
Proof. vm_compute. reflexivity. Qed.
