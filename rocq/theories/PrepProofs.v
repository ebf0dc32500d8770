(* C81: positions, permutations, the lexicographic order *)
From Coq Require Import ZArith List Arith Bool Lia Permutation Sorting.Sorted.
From Verif Require Import ZMap OrderedGroupsModel OrderedGroupsProofs GraphModel ReorderModel ReorderProofs ReorderProps SolveOrderingModel SolveOrderingSpec SolveOrderingProofs PrepModel PrepSpec.
Import ListNotations.
Close Scope Z_scope. Open Scope nat_scope.

(* ---------------------------------------------------------- positions *)
Lemma lp_some b l : forall i k, last_position i b l = Some k -> i <= k /\ nth_error l (k - i) = Some b.
Proof.
  induction l as [|x l IH]; intros i k; cbn [last_position]; [discriminate|].
  destruct (last_position (S i) b l) as [k'|] eqn:E.
  - intros H. injection H as <-. destruct (IH _ _ E) as [L N]. split; [lia|]. replace (k' - i) with (S (k' - S i)) by lia. exact N.
  - destruct (Z.eqb_spec x b) as [->|]; [|discriminate]. intros H. injection H as <-. split; [lia|]. now rewrite Nat.sub_diag.
Qed.
Lemma lp_in b l : forall i, In b l -> exists k, last_position i b l = Some k.
Proof.
  induction l as [|x l IH]; intros i []; cbn [last_position].
  - subst. destruct (last_position (S i) b l); [eauto|]. rewrite Z.eqb_refl. eauto.
  - destruct (IH (S i) H) as [k ->]. eauto.
Qed.
Lemma lp_nodup b l : NoDup l -> forall i j, nth_error l j = Some b -> last_position i b l = Some (i + j).
Proof.
  intros N i j H. destruct (lp_in b l i) as [k E]; [eapply nth_error_In; eauto|]. rewrite E. destruct (lp_some _ _ _ _ E) as [L Q].
  f_equal. assert (k - i = j); [|lia]. apply (proj1 (NoDup_nth_error l) N); [apply nth_error_Some; congruence|congruence].
Qed.
Lemma place_nth p i b : NoDup (blocks p) -> nth_error (blocks p) i = Some b -> place p b = i.
Proof. intros N H. unfold place. now rewrite (lp_nodup b _ N 0 i H). Qed.
Lemma set_index_ok p : NoDup (blocks p) -> indexed_by_place (SetIndex p).
Proof. intros N i b H. cbn [SetIndex blocks index] in *. now rewrite (lp_nodup b _ N 0 i H). Qed.

Lemma place_of p b : indexed_by_place p -> In b (blocks p) -> exists i, nth_error (blocks p) i = Some b /\ i < length (blocks p) /\ index p b = Z.of_nat i.
Proof.
  intros I H. apply In_nth_error in H. destruct H as [i H]. exists i. split; [auto|]. split; [apply nth_error_Some; congruence|]. auto.
Qed.
Lemma index_inj p a b : indexed_by_place p -> In a (blocks p) -> In b (blocks p) -> index p a = index p b -> a = b.
Proof.
  intros I A B E. destruct (place_of p a I A) as [i [Ni [_ Ii]]]. destruct (place_of p b I B) as [j [Nj [_ Ij]]]. assert (i = j) by lia. subst. congruence.
Qed.
Lemma in_firstn_index p k b : NoDup (blocks p) -> indexed_by_place p -> (In b (firstn k (blocks p)) <-> In b (blocks p) /\ (index p b < Z.of_nat k)%Z).
Proof.
  intros N I. split.
  - intros H. assert (B : In b (blocks p)) by (rewrite <- (firstn_skipn k); apply in_or_app; auto). split; [auto|].
    apply In_nth_error in H. destruct H as [i H]. assert (L : i < length (firstn k (blocks p))) by (apply nth_error_Some; congruence).
    rewrite firstn_length in L. assert (Q : nth_error (blocks p) i = Some b).
    { rewrite <- (firstn_skipn k (blocks p)). rewrite nth_error_app1; [auto|]. rewrite firstn_length. lia. }
    rewrite (I _ _ Q). lia.
  - intros [B L]. destruct (place_of p b I B) as [i [Ni [Li Ii]]]. assert (i < k) by lia.
    rewrite <- (firstn_skipn k (blocks p)) in Ni. rewrite nth_error_app1 in Ni by (rewrite firstn_length; lia). eapply nth_error_In; eauto.
Qed.

Lemma reduced_again F p p' : reduced F p -> rearranged p p' -> reduced F p'.
Proof.
  intros R [PB [PR I]]. constructor.
  - intros E. rewrite E in PB. apply Permutation_nil in PB. now apply (rd_some F p R).
  - eapply Permutation_NoDup; [apply Permutation_sym; exact PB|apply R].
  - intros b. split.
    + intros H. apply (Permutation_in _ PB) in H. apply (rd_blocks F p R) in H. destruct H as [r [H U]]. exists r. split; [|auto]. apply (Permutation_in _ (Permutation_sym PR)); auto.
    + intros [r [H U]]. apply (Permutation_in _ (Permutation_sym PB)). apply (rd_blocks F p R). exists r. split; [|auto]. apply (Permutation_in _ PR); auto.
  - intros r H. apply (rd_args F p R). apply (Permutation_in _ PR); auto.
  - intros r H. apply (rd_uses F p R). apply (Permutation_in _ PR); auto.
  - exact I.
Qed.

(* ---------------------------------------------------------- permuted lists *)
Lemma all_some_ok {A B} (f : A -> option B) (g : A -> B) l : (forall x, In x l -> f x = Some (g x)) -> all_some (map f l) = Some (map g l).
Proof.
  induction l as [|x l IH]; intros H; cbn [map all_some]; [auto|]. rewrite (H x (or_introl eq_refl)). rewrite IH; [auto|]. intros y Y. apply H. now right.
Qed.
Lemma map_nth_seq (l : list Z) : map (fun i => nth i l 0%Z) (seq 0 (length l)) = l.
Proof.
  induction l as [|x l IH]; [auto|]. cbn [length seq map nth]. f_equal. rewrite <- seq_shift, map_map. exact IH.
Qed.
Lemma permuted_ok l o : is_permutation (length l) o -> permuted l o = Some (map (fun i => nth i l 0%Z) o) /\ Permutation (map (fun i => nth i l 0%Z) o) l.
Proof.
  intros P. split.
  - apply all_some_ok. intros i H. apply nth_error_nth'. apply (Permutation_in _ P) in H. apply in_seq in H. lia.
  - eapply Permutation_trans; [apply Permutation_map; exact P|]. rewrite map_nth_seq. auto.
Qed.

(* ---------------------------------------------------------- sorted lists *)
Section Sorted.
Context {A : Type} (key : A -> nat).
Let le_key := fun a b => key a <= key b.
Lemma sorted_split l s : StronglySorted le_key l -> (forall x, In x l -> s <= key x) -> l = filter (fun x => key x =? s) l ++ filter (fun x => s <? key x) l.
Proof.
  induction l as [|x l IH]; intros S G; [auto|]. inversion S as [|? ? S' H]; subst. rewrite Forall_forall in H. cbn [filter].
  assert (Gx : s <= key x) by (apply G; now left). specialize (IH S' (fun y Y => G y (or_intror Y))).
  destruct (Nat.eqb_spec (key x) s) as [E|E].
  - destruct (Nat.ltb_spec s (key x)) as [Q|Q]; [lia|]. cbn [app]. now rewrite IH at 1.
  - destruct (Nat.ltb_spec s (key x)) as [Q|Q]; [|lia].
    assert (N : filter (fun y => key y =? s) l = []).
    { destruct (filter (fun y => key y =? s) l) as [|y l'] eqn:E'; [auto|]. assert (Y : In y (filter (fun y => key y =? s) l)) by (rewrite E'; now left). apply filter_In in Y. destruct Y as [Y Y']. apply Nat.eqb_eq in Y'. specialize (H y Y). unfold le_key in H. lia. }
    rewrite N in IH. rewrite N. cbn [app] in *. now rewrite IH at 1.
Qed.
Lemma sorted_filter f l : StronglySorted le_key l -> StronglySorted le_key (filter f l).
Proof.
  induction 1 as [|x l S IH H]; cbn [filter]; [constructor|]. destruct (f x); [|auto]. constructor; [auto|]. rewrite Forall_forall in *. intros y Y. apply filter_In in Y. apply H. tauto.
Qed.
Lemma sorted_buckets m : forall s l, StronglySorted le_key l -> (forall x, In x l -> s <= key x < s + m) ->
  l = flat_map (fun b => filter (fun x => key x =? b) l) (seq s m).
Proof.
  induction m as [|m IH]; intros s l S G.
  - destruct l as [|x l]; [auto|]. specialize (G x (or_introl eq_refl)). lia.
  - cbn [seq flat_map]. rewrite (sorted_split l s S) at 1 by (intros; apply G; auto). f_equal.
    rewrite (IH (Datatypes.S s) (filter (fun x => s <? key x) l)) at 1.
    + apply flat_ext. intros b Hb. apply in_seq in Hb. clear - Hb. induction l as [|x l IHl]; cbn [filter]; [auto|].
      destruct (Nat.ltb_spec s (key x)); cbn [filter]; destruct (Nat.eqb_spec (key x) b); rewrite ?IHl; auto; lia.
    + now apply sorted_filter.
    + intros x H. apply filter_In in H. destruct H as [H L]. apply Nat.ltb_lt in L. specialize (G x H). lia.
Qed.
Lemma sorted_map {B} (f : B -> A) l : StronglySorted (fun x y => key (f x) <= key (f y)) l -> StronglySorted le_key (map f l).
Proof.
  induction 1 as [|x l S IH H]; cbn [map]; [constructor|]. constructor; [auto|]. rewrite Forall_forall in *. intros y Y. apply in_map_iff in Y. destruct Y as [z [<- Z]]. now apply H.
Qed.
End Sorted.
Lemma sorted_weaken {A} (R R' : A -> A -> Prop) l : (forall x y, In x l -> In y l -> R x y -> R' x y) -> StronglySorted R l -> StronglySorted R' l.
Proof.
  intros H S. induction S as [|x l S IH F]; [constructor|]. constructor.
  - apply IH. intros a b Ia Ib. apply H; now right.
  - rewrite Forall_forall in *. intros y Y. apply H; [now left|now right|auto].
Qed.

(* ---------------------------------------------------------- the residual blocks *)
(* the number of the eliminated block, k if there is none *)
Definition params (F : Facts) (idx : Z -> Z) (r : Res) : list (bool * Z) := map (fun a => (constant F a, idx a)) (res_args r).
Definition key (F : Facts) (idx : Z -> Z) (k : nat) (r : Res) : nat := bucket k (mkR 0 (params F idx r)).
Lemma in_params F idx r i : In (false, i) (params F idx r) <-> exists a, uses F r a /\ idx a = i.
Proof.
  unfold params, uses. rewrite in_map_iff. split.
  - intros [a [E H]]. injection E as E1 E2. eauto.
  - intros [a [[H C] <-]]. exists a. rewrite C. auto.
Qed.
Lemma numbered_spec F idx d : forall rs pre all, all = pre ++ rs ->
  map (fun x => nth (r_name x) all d) (Numbered F idx (length pre) rs) = rs /\
  (forall x, In x (Numbered F idx (length pre) rs) -> r_name x < length all /\ r_params x = params F idx (nth (r_name x) all d)).
Proof.
  induction rs as [|r rs IH]; intros pre all ->; cbn [Numbered map]; [split; [auto|intros ? []]|].
  destruct (IH (pre ++ [r]) (pre ++ r :: rs)) as [A B]; [rewrite <- app_assoc; auto|]. rewrite app_length in A, B. cbn [length] in A, B. rewrite Nat.add_1_r in A, B.
  assert (Q : nth (length pre) (pre ++ r :: rs) d = r) by (rewrite app_nth2, Nat.sub_diag by lia; auto).
  split; [cbn [r_name]; rewrite Q; f_equal; exact A|]. intros x [<-|X]; [|auto]. cbn [r_name r_params]. rewrite Q. split; [rewrite app_length; cbn [length]; lia|reflexivity].
Qed.
Lemma bucket_params n x F idx r : r_params x = params F idx r -> bucket n x = key F idx n r.
Proof. intros H. unfold key, bucket. cbn [r_params]. now rewrite H. Qed.

Definition no_two (F : Facts) (p : Prg) (k : nat) : Prop :=
  forall r a b, In r (residuals p) -> uses F r a -> uses F r b -> (index p a < Z.of_nat k)%Z -> (index p b < Z.of_nat k)%Z -> a = b.
Lemma order_residuals F p k : reduced F p -> 1 <= k <= length (blocks p) -> no_two F p k ->
  exists rs, OrderResiduals F k p = Some (mkPrg (blocks p) rs (index p)) /\ Permutation rs (residuals p) /\
    StronglySorted (fun r s => key F (index p) k r <= key F (index p) k s) rs.
Proof.
  intros R K IND. set (idx := index p). set (d := mkRes 0 0 []).
  destruct (numbered_spec F idx d (residuals p) [] (residuals p) eq_refl) as [NM NP]. cbn [length] in NM, NP. set (N := Numbered F idx 0 (residuals p)) in *. set (dec := fun x : rblock => nth (r_name x) (residuals p) d) in *.
  assert (IN : forall x, In x N -> In (dec x) (residuals p)) by (intros x X; apply nth_In; now apply NP).
  assert (POS : forall r b, In r (residuals p) -> uses F r b -> exists i, nth_error (blocks p) i = Some b /\ i < length (blocks p) /\ idx b = Z.of_nat i).
  { intros r b H U. apply place_of; [apply R|]. apply (rd_blocks F p R). eauto. }
  assert (FI : Forall indexed N).
  { apply Forall_forall. intros x X i H. destruct (NP x X) as [_ E]. rewrite E in H. apply in_params in H. destruct H as [a [U <-]]. destruct (POS _ a (IN x X) U) as [j [_ [_ ->]]]. lia. }
  assert (USED : forall b, b < k -> exists x, In x N /\ bucket k x = b).
  { intros b Hb. destruct (nth_error (blocks p) b) as [a|] eqn:Ea; [|apply nth_error_None in Ea; lia].
    assert (Ia : In a (blocks p)) by (eapply nth_error_In; eauto). apply (rd_blocks F p R) in Ia. destruct Ia as [r [Hr U]].
    rewrite <- NM in Hr. apply in_map_iff in Hr. destruct Hr as [x [<- X]]. exists x. split; [auto|]. fold (dec x) in U. destruct (NP x X) as [_ E]. fold (dec x) in E.
    rewrite Forall_forall in FI. destruct (bucket_ok k x (FI x X)) as [_ [B [M W]]].
    assert (T : In (false, Z.of_nat b) (r_params x)) by (rewrite E; apply in_params; exists a; split; [auto|]; apply (rd_index F p R); auto).
    specialize (M _ T). destruct W as [W|W]; [lia|]. rewrite E in W. apply in_params in W. destruct W as [a' [U' I']].
    assert (a' = a). { apply (IND (dec x)); auto; fold idx; [lia|]. unfold idx. rewrite (rd_index F p R _ _ Ea). lia. }
    subst a'. unfold idx in I'. rewrite (rd_index F p R _ _ Ea) in I'. lia. }
  unfold OrderResiduals. fold idx. fold N. rewrite (lexi_ok k N) by (auto; lia).
  set (bk := fun x => Nat.min (bucket k x) k).
  assert (EQ : flat_map (fun b => rev (inb (bucket k) b N)) (seq 0 (k + 1)) = flat_map (fun b => rev (inb bk b N)) (seq 0 (k + 1))).
  { apply flat_ext. intros b _. f_equal. unfold inb. apply filter_ext_in. intros x X. rewrite Forall_forall in FI. destruct (bucket_ok k x (FI x X)) as [_ [B _]]. unfold bk. rewrite Nat.min_l; auto. }
  rewrite EQ. assert (BL : forall x, bk x <= k) by (intros; unfold bk; lia). pose proof (buckets_perm k bk BL N) as P. pose proof (buckets_sorted k bk N) as S.
  set (out := flat_map (fun b => rev (inb bk b N)) (seq 0 (k + 1))) in *.
  rewrite (all_some_ok _ dec). 2:{ intros x X. apply nth_error_nth'. apply NP. apply (Permutation_in _ P); auto. }
  exists (map dec out). split; [reflexivity|]. split.
  - rewrite <- NM. now apply Permutation_map.
  - apply (sorted_map (key F idx k) dec). revert S. apply sorted_weaken. intros x y X Y L. apply (Permutation_in _ P) in X, Y. rewrite Forall_forall in FI.
    destruct (bucket_ok k x (FI x X)) as [_ [B1 _]]. destruct (bucket_ok k y (FI y Y)) as [_ [B2 _]]. unfold bk in L. rewrite !Nat.min_l in L by auto.
    rewrite <- (bucket_params k x F idx (dec x)) by (apply NP; auto). rewrite <- (bucket_params k y F idx (dec y)) by (apply NP; auto). exact L.
Qed.
