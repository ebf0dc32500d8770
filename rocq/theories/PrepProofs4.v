(* C81: the whole reordering *)
From Coq Require Import ZArith List Arith Bool Lia Permutation Sorting.Sorted.
From Verif Require Import ZMap OrderedGroupsModel OrderedGroupsProofs GraphModel GraphSpec GraphProps ReorderModel ReorderProofs ReorderProofs2 ReorderProps SolveOrderingModel SolveOrderingSpec SolveOrderingProofs PrepModel PrepSpec PrepProofs PrepProofs3.
Import ListNotations.
Close Scope Z_scope. Open Scope nat_scope.

Lemma covers_count F o p : reduced F p -> ok o -> (forall b, has o b <-> In b (blocks p)) -> (num_elements o =? Z.of_nat (length (blocks p)))%Z = true.
Proof.
  intros R O H. unfold num_elements. apply Z.eqb_eq. f_equal. rewrite <- (map_length fst). apply Permutation_length. apply NoDup_Permutation; [apply zsorted_nodup, O|apply R|].
  intros b. rewrite <- H, has_find. fold (zkeys (e2g o)). destruct (zfind b (e2g o)) as [g|] eqn:E; [apply zfind_in_keys in E|apply zfind_none_keys in E]; split; auto; congruence.
Qed.

(* ---------------------------------------------------------- one group *)
Section One.
Context (F : Facts) (p : Prg) (R : reduced F p).
Lemma block_var b : In b (blocks p) -> constant F b = false.
Proof. intros H. apply (rd_blocks F p R) in H. destruct H as [r [_ U]]. apply U. Qed.
Lemma place_block b : In b (blocks p) -> place p b < length (blocks p) /\ nth (place p b) (blocks p) 0%Z = b.
Proof.
  intros H. apply In_nth_error in H. destruct H as [i H]. rewrite (place_nth p i b (rd_nodup F p R) H). split; [apply nth_error_Some; congruence|]. now apply nth_error_nth.
Qed.
Lemma place_at i : i < length (blocks p) -> place p (nth i (blocks p) 0%Z) = i.
Proof. intros L. apply place_nth; [apply R|]. now apply nth_error_nth'. Qed.
Lemma graph_args r b : In r (residuals p) -> (In b (map (place p) (filter (fun a => negb (constant F a)) (res_args r))) <-> exists a, uses F r a /\ place p a = b).
Proof.
  intros H. rewrite in_map_iff. split.
  - intros [a [E I]]. apply filter_In in I. destruct I as [I C]. apply negb_true_iff in C. exists a. split; [split; auto|auto].
  - intros [a [[I C] E]]. exists a. split; [auto|]. apply filter_In. split; [auto|]. now rewrite C.
Qed.
Lemma used_block r a : In r (residuals p) -> uses F r a -> In a (blocks p).
Proof. intros H U. apply (rd_blocks F p R). eauto. Qed.
Lemma graph_valid : valid_prog (graph_of F p).
Proof.
  split; [apply seq_NoDup|]. intros l L. unfold graph_of in L. cbn [p_res p_blocks graph_of] in *. apply in_map_iff in L. destruct L as [r [<- Hr]]. split.
  - assert (N : NoDup (filter (fun a => negb (constant F a)) (res_args r))) by (apply NoDup_filter; now apply (rd_args F p R)).
    assert (U : forall a, In a (filter (fun a => negb (constant F a)) (res_args r)) -> In a (blocks p)). { intros a I. apply filter_In in I. destruct I as [I C]. apply negb_true_iff in C. apply (used_block r); [auto|split; auto]. }
    revert N U. generalize (filter (fun a => negb (constant F a)) (res_args r)). induction l as [|a l IH]; intros N U; cbn [map]; constructor; inversion N; subst.
    + rewrite in_map_iff. intros [b [E I]]. apply H1. destruct (place_block a) as [_ A]; [apply U; now left|]. destruct (place_block b) as [_ B]; [apply U; now right|]. rewrite E in B. congruence.
    + apply IH; [auto|]. intros b I. apply U. now right.
  - intros b Hb. apply (graph_args r b Hr) in Hb. destruct Hb as [a [U <-]]. apply in_seq. destruct (place_block a) as [L _]; [now apply (used_block r)|]. lia.
Qed.
Lemma together_uses a b : together (graph_of F p) (place p a) (place p b) -> In a (blocks p) -> In b (blocks p) -> exists r, In r (residuals p) /\ uses F r a /\ uses F r b.
Proof.
  intros [l [L [A B]]] Ia Ib. unfold graph_of in L. cbn [p_res] in L. apply in_map_iff in L. destruct L as [r [<- Hr]]. exists r. split; [auto|]. apply (graph_args r _ Hr) in A, B.
  destruct A as [a' [Ua Ea]]. destruct B as [b' [Ub Eb]]. destruct (place_block a Ia) as [_ A]. destruct (place_block b Ib) as [_ B]. destruct (place_block a' (used_block r a' Hr Ua)) as [_ A']. destruct (place_block b' (used_block r b' Hr Ub)) as [_ B'].
  rewrite Ea in A'. rewrite Eb in B'. rewrite A in A'. rewrite B in B'. rewrite A', B'. auto.
Qed.
Lemma uses_together r a b : In r (residuals p) -> uses F r a -> uses F r b -> together (graph_of F p) (place p a) (place p b).
Proof.
  intros Hr A B. exists (map (place p) (filter (fun a => negb (constant F a)) (res_args r))). split; [unfold graph_of; cbn [p_res]; apply in_map_iff; exists r; auto|]. split; apply (graph_args r _ Hr); eauto.
Qed.
Lemma schur_ordering_ok : exists l k, SchurOrdering F p = Some (l, k) /\ Permutation l (blocks p) /\ 1 <= k <= length l /\
  independent F p (fun b => In b (firstn k l)) /\ maximal F p (fun b => In b (firstn k l)).
Proof.
  destruct (stable_schur_ordering_correct _ graph_valid) as [ord [k [E [PO [K [V [IN [MX _]]]]]]]]. unfold SchurOrdering. rewrite E. cbn [p_blocks graph_of] in PO.
  set (dec := fun i => nth i (blocks p) 0%Z). destruct (permuted_ok (blocks p) ord PO) as [_ PB]. fold dec in PB.
  assert (LO : length ord = length (blocks p)) by (rewrite (Permutation_length PO); apply seq_length).
  assert (RG : forall i, In i ord -> i < length (blocks p)). { intros i H. apply (Permutation_in _ PO) in H. apply in_seq in H. lia. }
  assert (CT : forall i, i < length (blocks p) -> p_const (graph_of F p) i = false). { intros i L. cbn [graph_of p_const]. apply block_var. now apply nth_In. }
  assert (SUB : forall i, In i (firstn k ord) -> In i ord) by (intros i H; rewrite <- (firstn_skipn k ord); apply in_or_app; auto).
  assert (SUB' : forall i, In i (skipn k ord) -> In i ord) by (intros i H; rewrite <- (firstn_skipn k ord); apply in_or_app; auto).
  assert (PL : forall b, In b (firstn k (map dec ord)) <-> In b (blocks p) /\ In (place p b) (firstn k ord)).
  { intros b. rewrite firstn_map, in_map_iff. split.
    - intros [i [<- H]]. unfold dec. rewrite place_at by (apply RG; auto). split; [apply nth_In; apply RG; auto|auto].
    - intros [H Q]. exists (place p b). split; [|auto]. now apply place_block. }
  exists (map dec ord), k. split; [reflexivity|]. split; [exact PB|]. rewrite map_length. split; [|split].
  - split; [|exact K]. destruct k as [|k']; [|lia]. exfalso. destruct ord as [|i ord']; [cbn in LO; apply (rd_some F p R); destruct (blocks p); [auto|discriminate]|].
    destruct (MX i ltac:(now left)) as [a [[] _]]. apply CT, RG. now left.
  - intros r a b Hr Ua Ub A B. apply PL in A, B. destruct A as [Ia A]. destruct B as [Ib B].
    destruct (Nat.eq_dec (place p a) (place p b)) as [Q|Q]; [|exfalso; apply (IN _ _ A B Q); eapply uses_together; eauto].
    destruct (place_block a Ia) as [_ <-]. destruct (place_block b Ib) as [_ X]. rewrite Q. exact X.
  - intros b Ib NB. assert (Q : In (place p b) (skipn k ord)).
    { assert (X : In (place p b) ord) by (apply (Permutation_in _ (Permutation_sym PO)); apply in_seq; destruct (place_block b Ib); lia). rewrite <- (firstn_skipn k ord) in X. apply in_app_or in X. destruct X as [X|X]; [|auto]. exfalso. apply NB. apply PL. auto. }
    destruct (MX _ Q) as [i [Hi TG]]; [apply CT, RG; auto|]. assert (Li := RG i (SUB i Hi)). rewrite <- (place_at i Li) in TG. assert (Ii : In (nth i (blocks p) 0%Z) (blocks p)) by (now apply nth_In).
    destruct (together_uses _ _ TG Ii Ib) as [r [Hr [U1 U2]]]. exists r, (nth i (blocks p) 0%Z). split; [auto|]. split; [|auto]. apply PL. rewrite place_at by auto. auto.
Qed.
Lemma regroup_first o l k : ok o -> Permutation l (blocks p) -> (forall b, has o b <-> In b (blocks p)) -> 1 <= k <= length l ->
  let o' := regroup l 0 k o in ok o' /\ (forall b, has o' b <-> In b (blocks p)) /\ by_groups o' l /\ (forall b, In b l -> group_id b o' = if in_dec Z.eq_dec b (firstn k l) then 0%Z else 1%Z) /\
  exists es, FirstGroup o' = Some es /\ length es = k /\ (forall b, In b es <-> In b (firstn k l)).
Proof.
  intros O P H K o'. assert (N : NoDup l) by (eapply Permutation_NoDup; [apply Permutation_sym; exact P|apply R]).
  destruct (regroup_exact l 0 k o O N) as [O' [K1 K2]]. fold o' in O', K1, K2.
  assert (GI : forall b, In b l -> group_id b o' = if in_dec Z.eq_dec b (firstn k l) then 0%Z else 1%Z).
  { intros b Hb. apply In_nth_error in Hb. destruct Hb as [j J]. rewrite (group_find _ _ _ (K2 j b J)). cbn [plus]. assert (Lj : j < length l) by (apply nth_error_Some; congruence).
    destruct (Nat.ltb_spec j k) as [L|L]; destruct (in_dec Z.eq_dec b (firstn k l)) as [Q|Q]; auto.
    - exfalso. apply Q. rewrite <- (firstn_skipn k l) in J. rewrite nth_error_app1 in J by (rewrite firstn_length; lia). eapply nth_error_In; eauto.
    - exfalso. apply In_nth_error in Q. destruct Q as [i Q]. assert (Li : i < length (firstn k l)) by (apply nth_error_Some; congruence). assert (Li' := Li). rewrite firstn_length in Li'.
      assert (Q' : nth_error l i = Some b) by (rewrite <- (firstn_skipn k l); rewrite nth_error_app1; auto). assert (i = j); [|lia]. apply (proj1 (NoDup_nth_error l) N); [lia|congruence]. }
  assert (HS : forall b, has o' b <-> In b (blocks p)).
  { intros b. rewrite has_find. split.
    - intros Q. destruct (in_dec Z.eq_dec b l) as [I|I]; [now apply (Permutation_in _ P)|]. rewrite (K1 b I) in Q. apply H. now apply has_find.
    - intros Q. apply (Permutation_in _ (Permutation_sym P)) in Q. apply In_nth_error in Q. destruct Q as [j J]. rewrite (K2 j b J). discriminate. }
  split; [exact O'|]. split; [exact HS|]. split; [|split; [exact GI|]].
  - apply sorted_nth with (d := 0%Z). intros i j I J. assert (Ni : nth_error l i = Some (nth i l 0%Z)) by (apply nth_error_nth'; lia). assert (Nj : nth_error l j = Some (nth j l 0%Z)) by (apply nth_error_nth'; lia).
    rewrite (group_find _ _ _ (K2 _ _ Ni)), (group_find _ _ _ (K2 _ _ Nj)). cbn [plus]. destruct (Nat.ltb_spec i k); destruct (Nat.ltb_spec j k); lia.
  - destruct l as [|x l']; [cbn in K; lia|]. destruct (first_group_some o' x O') as [es E]; [apply HS; apply (Permutation_in _ P); now left|]. exists es. split; [auto|].
    destruct (first_group o' es O' E) as [NE [NN IN]].
    assert (Q : forall b, In b es <-> In b (firstn k (x :: l'))).
    { intros b. rewrite IN. assert (X : In x (firstn k (x :: l'))) by (destruct k; [lia|now left]). unfold in_first. split.
      - intros [Hb M]. apply HS in Hb. apply (Permutation_in _ (Permutation_sym P)) in Hb. specialize (M x). rewrite (GI b Hb), (GI x) in M by now left.
        destruct (in_dec Z.eq_dec x (firstn k (x :: l'))); [|contradiction]. destruct (in_dec Z.eq_dec b (firstn k (x :: l'))) as [Y|Y]; [auto|]. exfalso. assert (1 <= 0)%Z; [|lia]. apply M. apply HS. apply (Permutation_in _ P). now left.
      - intros Hb. assert (Hl : In b (x :: l')) by (rewrite <- (firstn_skipn k (x :: l')); apply in_or_app; auto). split; [apply HS; now apply (Permutation_in _ P)|]. intros b' Hb'. apply HS in Hb'. apply (Permutation_in _ (Permutation_sym P)) in Hb'. rewrite (GI b Hl), (GI b' Hb').
        destruct (in_dec Z.eq_dec b (firstn k (x :: l'))); [|contradiction]. destruct (in_dec Z.eq_dec b' (firstn k (x :: l'))); lia. }
    split; [|exact Q]. transitivity (length (firstn k (x :: l'))); [|rewrite firstn_length; lia]. apply Permutation_length. apply NoDup_Permutation; [auto| |auto].
    assert (N' := N). rewrite <- (firstn_skipn k (x :: l')) in N'. clear - N'. induction (firstn k (x :: l')) as [|y ys IH]; [constructor|]. cbn [app] in N'. inversion N'; subst. constructor; [|auto]. intros Y. apply H1. apply in_or_app. auto.
Qed.
End One.

(* ---------------------------------------------------------- the user's groups *)
Lemma independent_iff F p es : reduced F p -> (forall b, In b es -> In b (blocks p)) -> (IsIndependent es p = true <-> independent F p (fun b => In b es)).
Proof.
  intros R SUB. unfold IsIndependent. rewrite forallb_forall. split.
  - intros H r a b Hr Ua Ub Ia Ib. specialize (H r Hr). apply Nat.leb_le in H. destruct (Z.eq_dec a b) as [|N]; [auto|exfalso].
    assert (X : forall x, In x [a; b] -> In x (filter (fun a => existsb (Z.eqb a) es) (res_args r))).
    { intros x Hx. assert (Q : uses F r x /\ In x es) by (destruct Hx as [<-|[<-|[]]]; auto). destruct Q as [[Q _] Q']. apply filter_In. split; [auto|]. apply existsb_exists. exists x. split; [auto|apply Z.eqb_refl]. }
    apply NoDup_incl_length in X; [cbn [length] in X; lia|]. repeat constructor; cbn; intuition.
  - intros H r Hr. apply Nat.leb_le. assert (N := rd_args F p R r Hr). set (l := filter (fun a => existsb (Z.eqb a) es) (res_args r)). assert (Nl : NoDup l) by (apply NoDup_filter; auto).
    assert (Q : forall x, In x l -> uses F r x /\ In x es).
    { intros x X. apply filter_In in X. destruct X as [X Y]. apply existsb_exists in Y. destruct Y as [y [Y E]]. apply Z.eqb_eq in E. subst y. split; [|auto]. split; [auto|]. apply (block_var F p R). auto. }
    destruct l as [|a [|b l']]; cbn [length]; try lia. exfalso. inversion Nl; subst. apply H2. left. symmetry. apply (H r a b Hr); apply Q; cbn; auto.
Qed.
Lemma fg_filter m g l b : In b (fg m g l) <-> In b l /\ zfind b m = Some g.
Proof. unfold fg, ing. rewrite filter_In. destruct (zfind b m) as [h|]; [rewrite Z.eqb_eq|]; split; intros [A B]; (split; [auto|]); congruence. Qed.
Lemma apply_ok F o p known : reduced F p -> ok o -> (forall b, has o b <-> In b (blocks p)) -> (forall b, In b (blocks p) -> In b known) ->
  exists l, apply_ordering known o (blocks p) = AOk l /\ Permutation l (blocks p) /\ by_groups o l.
Proof.
  intros R O H KN. unfold apply_ordering. rewrite (covers_count F o p R O H). cbn [negb].
  assert (KEYS : forall b, In b (zkeys (e2g o)) <-> In b (blocks p)). { intros b. rewrite <- H, has_find. destruct (zfind b (e2g o)) eqn:Q; [apply zfind_in_keys in Q|apply zfind_none_keys in Q]; split; auto; congruence. }
  replace (forallb _ (zkeys (e2g o))) with true. 2:{ symmetry. apply forallb_forall. intros b Hb. apply existsb_exists. exists b. split; [|apply Z.eqb_refl]. apply KN. now apply KEYS. }
  cbn [negb]. assert (LN : length (blocks p) = length (e2g o)). { assert (Q := covers_count F o p R O H). apply Z.eqb_eq in Q. unfold num_elements in Q. lia. }
  destruct (place_ok o (blocks p) O (rd_nodup F p R) LN) as [[A ->]|[[b [Hb Nb]] _]]; [|exfalso; apply H in Hb; rewrite has_find in Hb; congruence].
  eexists. split; [reflexivity|]. pose proof (zsorted_nodup _ (ok_g o O)) as NG. split.
  - apply groups_perm; auto. intros b Hb. destruct (zfind b (e2g o)) as [g|] eqn:Q; [|elim (A b Hb Q)]. exists g. split; auto. apply (ok_eq o O) in Q. destruct Q as [es [Q _]]. eapply zfind_in_keys; eauto.
  - pose proof (ok_g o O) as SG. unfold zsorted in SG. unfold by_groups. induction SG as [|g gs SG IH FA]; cbn [flat_map]; [constructor|]. rewrite Forall_forall in FA.
    assert (Q1 : forall b, In b (fg (e2g o) g (blocks p)) -> group_id b o = g) by (intros b Hb; apply fg_filter in Hb; apply group_find; tauto).
    assert (Q2 : forall b, In b (flat_map (fun g => fg (e2g o) g (blocks p)) gs) -> (g < group_id b o)%Z).
    { intros b Hb. apply in_flat_map in Hb. destruct Hb as [g' [Hg Hb]]. apply fg_filter in Hb. rewrite (group_find _ _ _ (proj2 Hb)). auto. }
    inversion NG; subst. specialize (IH H3). revert Q1. generalize (fg (e2g o) g (blocks p)). induction l as [|x l IHl]; intros Q1; cbn [app]; [auto|]. constructor.
    + apply IHl. intros b Hb. apply Q1. now right.
    + apply Forall_forall. intros y Y. rewrite (Q1 x) by (now left). apply in_app_or in Y. destruct Y as [Y|Y]; [rewrite (Q1 y) by (now right); apply Z.le_refl|]. specialize (Q2 y Y). lia.
Qed.

(* ---------------------------------------------------------- everything for Schur type solvers *)
Section All.
Context (B : Build) (T : Tools) (F : Facts) (s : Solver) (lib : Library) (is_amd : bool) (known : list Z) (o : og) (p : Prg).
Context (ST : sound_tools T) (WT : working T) (R : reduced F p) (C : covers o p) (KN : forall b, In b (blocks p) -> In b known).
Definition ready (p' : Prg) (o' : og) : Prop :=
  ok o' /\ (forall b, has o' b <-> In b (blocks p)) /\
  exists es, FirstGroup o' = Some es /\ rearranged p p' /\ begins es (blocks p') /\ independent F p (fun b => In b es) /\
    (~ eigen_moves B s lib -> by_groups o' (blocks p')) /\ 1 <= length es <= length (blocks p') /\ no_two F p' (length es) /\
    StronglySorted (fun r q => key F (index p') (length es) r <= key F (index p') (length es) q) (residuals p') /\
    ((one_group o /\ maximal F p (fun b => In b es) /\ forall b, In b (blocks p) -> group_id b o' = if in_dec Z.eq_dec b es then 0%Z else 1%Z) \/ (~ one_group o /\ o' = o)).
Lemma schur_ready : (ReorderSchur B T F s lib is_amd known o p = Refused /\ ~ one_group o /\ ~ independent F p (in_first o)) \/
  (exists p' o', ReorderSchur B T F s lib is_amd known o p = Ready p' o' /\ (one_group o \/ independent F p (in_first o)) /\ ready p' o').
Proof.
  destruct C as [BU H]. pose proof (built_ok o BU) as O. unfold ReorderSchur. rewrite (covers_count F o p R O H). cbn [negb].
  assert (X : exists x, has o x). { destruct (blocks p) as [|x l] eqn:E; [elim (rd_some F p R E)|]. exists x. apply H. now left. }
  destruct X as [x X]. pose proof (one_group_iff o x O X) as OG. destruct (num_groups o =? 1)%Z.
  - right. assert (ONE := proj1 OG eq_refl). destruct (schur_ordering_ok F p R) as [l [k [-> [P [K [IND MX]]]]]]. rewrite (Permutation_length P), Nat.eqb_refl. cbn [negb].
    destruct (regroup_first F p R o l k O P H K) as [O' [H' [BG [GI [es [E [LE Q]]]]]]].
    assert (IND' : independent F p (fun b => In b es)) by (intros r a b Hr Ua Ub Ia Ib; apply (IND r); auto; now apply Q).
    assert (BE : begins es l) by (intros b; rewrite LE; symmetry; apply Q).
    destruct (finish_ok B T F s lib is_amd ST WT p _ l es R O' H' P E BE IND') as [p' [-> [RE [Gp [Sp [Kp [N2 SO]]]]]]].
    exists p', (regroup l 0 k o). split; [reflexivity|]. split; [now left|]. split; [exact O'|]. split; [exact H'|]. exists es. split; [auto|]. split; [auto|]. split; [auto|]. split; [auto|]. split; [auto|]. split; [auto|]. split; [auto|]. split; [auto|].
    left. split; [auto|]. split.
    + intros b Hb NB. destruct (MX b Hb) as [r [a [Hr [Ia [Ua Ub]]]]]; [now rewrite <- Q|]. exists r, a. split; [auto|]. split; [now apply Q|auto].
    + intros b Hb. apply (Permutation_in _ (Permutation_sym P)) in Hb. rewrite (GI b Hb). destruct (in_dec Z.eq_dec b (firstn k l)) as [Y|Y]; destruct (in_dec Z.eq_dec b es) as [Z|Z]; auto; exfalso; rewrite <- Q in Y; contradiction.
  - assert (MANY : ~ one_group o) by (intros Q; apply OG in Q; discriminate). destruct (first_group_some o x O X) as [es E]. rewrite E. destruct (first_group o es O E) as [NE [NN IN]].
    assert (SUB : forall b, In b es -> In b (blocks p)) by (intros b Hb; apply H; apply IN in Hb; apply Hb). pose proof (independent_iff F p es R SUB) as II.
    assert (EQ : independent F p (fun b => In b es) <-> independent F p (in_first o)) by (split; intros Q r a b Hr Ua Ub Ia Ib; apply (Q r); auto; now apply IN).
    destruct (IsIndependent es p); cbn [negb].
    + right. assert (IND := proj1 II eq_refl). destruct (apply_ok F o p known R O H KN) as [l [-> [P BG]]].
      assert (BE : begins es l). { apply (by_groups_begins o); auto; [eapply Permutation_NoDup; [apply Permutation_sym; exact P|apply R]|]. intros b. rewrite H. split; apply Permutation_in; [apply Permutation_sym|]; auto. }
      destruct (finish_ok B T F s lib is_amd ST WT p o l es R O H P E BE IND) as [p' [-> [RE [Gp [Sp [Kp [N2 SO]]]]]]]. exists p', o. split; [reflexivity|]. split; [right; now apply EQ|].
      split; [auto|]. split; [auto|]. exists es. split; [auto|]. split; [auto|]. split; [auto|]. split; [auto|]. split; [auto|]. split; [auto|]. split; [auto|]. split; [auto|]. right. auto.
    + left. split; [auto|]. split; [auto|]. intros Q. apply EQ in Q. apply II in Q. discriminate.
Qed.
(* ---------------------------------------------------------- sparse Cholesky *)
Lemma sparse_ready start p1 : supported B (NormalCholesky false) lib is_amd -> Permutation (blocks p1) (blocks p) -> indexed_by_place p1 ->
  exists p', ReorderSparse B T F lib is_amd o start p1 = Ready p' o /\ Permutation (blocks p') (blocks p) /\ residuals p' = residuals p1 /\ indexed_by_place p' /\
    (lib = SuiteSparse -> is_amd = true -> ~ one_group o -> by_groups o (blocks p')).
Proof.
  intros SU P1 I1. destruct C as [BU H]. pose proof (built_ok o BU) as O. unfold ReorderSparse. rewrite (Permutation_length P1), (covers_count F o p R O H). cbn [negb].
  assert (AP : forall pi, is_permutation (length (blocks p1)) pi -> exists bl, permuted (blocks p1) pi = Some bl /\ bl = map (fun i => nth i (blocks p1) 0%Z) pi /\ Permutation bl (blocks p) /\ indexed_by_place (SetIndex (mkPrg bl (residuals p1) (index p1)))).
  { intros pi PI. destruct (permuted_ok _ _ PI) as [E PB]. eexists. split; [exact E|]. split; [reflexivity|]. assert (Q : Permutation (map (fun i => nth i (blocks p1) 0%Z) pi) (blocks p)) by (eapply Permutation_trans; eauto). split; [exact Q|]. apply set_index_ok. cbn [blocks]. eapply Permutation_NoDup; [apply Permutation_sym; exact Q|apply R]. }
  assert (X : exists x, has o x). { destruct (blocks p) as [|x l] eqn:E; [elim (rd_some F p R E)|]. exists x. apply H. now left. } destruct X as [x X]. pose proof (one_group_iff o x O X) as OG.
  assert (NG : (1 <= num_groups o)%Z). { destruct (first_group_some o x O X) as [es E]. unfold FirstGroup in E. unfold num_groups. destruct (g2e o); [discriminate|]. cbn [length]. lia. }
  destruct lib; cbn [supported] in SU.
  - destruct SU as [S1 S2]. unfold OrderSuiteSparse. rewrite S1. cbn [negb]. destruct is_amd.
    + destruct (Z.leb_spec (num_groups o) 1) as [L|L].
      * destruct (amd T _ _) as [pi|] eqn:A; [|exfalso; eapply (proj1 (proj2 WT)); eauto]. cbn [or_zeros]. destruct (AP pi (st_amd T ST _ _ _ A)) as [bl [-> [_ [PB IB]]]]. eexists. split; [reflexivity|]. split; [auto|]. split; [auto|]. split; [auto|]. intros _ _ N. exfalso. apply N. apply OG. apply Z.eqb_eq. lia.
      * destruct (camd T _ _ _) as [pi|] eqn:A; [|exfalso; eapply (proj1 WT); eauto]. cbn [or_zeros]. assert (LC : length (Constraints o p1) = length (blocks p1)) by (unfold Constraints, Contiguous; now rewrite !map_length).
        destruct (st_camd T ST _ _ _ _ LC A) as [PI FO]. destruct (AP pi PI) as [bl [-> [EB [PB IB]]]]. eexists. split; [reflexivity|]. split; [auto|]. split; [auto|]. split; [auto|]. intros _ _ _. cbn [SetIndex blocks]. rewrite EB. now apply follows_by_groups.
    + rewrite S2 by auto. cbn [negb]. destruct (nesdis T _ _) as [pi|] eqn:A; [|exfalso; eapply (proj2 (proj2 WT)); eauto]. cbn [or_zeros]. destruct (AP pi (st_nesdis T ST _ _ _ A)) as [bl [-> [_ [PB IB]]]]. eexists. split; [reflexivity|]. split; [auto|]. split; [auto|]. split; [auto|]. discriminate.
  - unfold OrderEigen. rewrite SU. cbn [negb]. destruct (AP _ (st_eigen_order T ST is_amd (length (blocks p1)) (SparsityTranspose F start p1))) as [bl [-> [_ [PB IB]]]]. eexists. split; [reflexivity|]. split; [auto|]. split; [auto|]. split; [auto|]. discriminate.
  - exists p1. split; [auto|]. split; [auto|]. split; [auto|]. split; [auto|]. discriminate.
  - exists p1. split; [auto|]. split; [auto|]. split; [auto|]. split; [auto|]. discriminate.
  - destruct SU.
Qed.
End All.
