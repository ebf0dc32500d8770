(* C80: addresses of the windows *)
From Coq Require Import Reals List Arith ZArith Bool Lia Permutation Sorting.Sorted.
From Verif Require Import SchurModel SchurSpec SchurProofs4 BraModel BraSpec.
Import ListNotations.
Close Scope R_scope.
Open Scope nat_scope.

(* ------------------------------------------------------------------ sizes and positions *)
Lemma laid_total p bl : laid_out p bl -> bl <> [] -> match rev bl with [] => 0 | b :: _ => position b + size b end = p + total bl.
Proof.
  revert p. induction bl as [|b bl IH]; intros p LL N; [congruence|]; destruct LL as [P L]. destruct bl as [|b' bl'].
  - cbn. unfold total. cbn. lia.
  - specialize (IH _ L ltac:(discriminate)). cbn [rev] in *. destruct (rev bl' ++ [b']) as [|z zs] eqn:Z.
    + destruct (rev bl'); discriminate.
    + cbn [app]. rewrite IH. unfold total. cbn [fold_right]. lia.
Qed.
Lemma scalar_entries bl : laid_out 0 bl -> NumScalarEntries bl = total bl.
Proof. intros L. unfold NumScalarEntries. destruct bl as [|b bl]; [reflexivity|]. exact (laid_total 0 _ L ltac:(discriminate)). Qed.
Lemma zsum_total bl : zsum (fun b => Z.of_nat (size b)) bl = Z.of_nat (total bl).
Proof. induction bl as [|b bl IH]; [reflexivity|]. unfold zsum, total in *. cbn [fold_right]. rewrite IH. lia. Qed.
Lemma sum_sizes_total bl : sum_sizes bl = total bl.
Proof.
  unfold sum_sizes. assert (G : forall n, fold_left (fun n b => n + size b) bl n = n + total bl).
  { induction bl as [|b bl IH]; intros n; [cbn; unfold total; cbn; lia|]. cbn [fold_left]. rewrite IH. unfold total. cbn. lia. }
  rewrite G. lia.
Qed.
Lemma laid_in p bl i : laid_out p bl -> i < length bl -> p <= block_position bl i /\ block_position bl i + block_size bl i <= p + total bl.
Proof.
  unfold block_position, block_size. revert p i. induction bl as [|b bl IH]; intros p i LL H; [cbn in H; lia|]; destruct LL as [P L]. destruct i as [|i].
  - cbn. unfold total. cbn. lia.
  - cbn [nth]. cbn in H. destruct (IH _ i L ltac:(lia)) as [A B]. unfold total in *. cbn [fold_right]. lia.
Qed.
Lemma laid_unique bl i j r c : laid_out 0 bl -> i < length bl -> j < length bl -> r < block_size bl i -> c < block_size bl j ->
  block_position bl i + r = block_position bl j + c -> i = j /\ r = c.
Proof.
  unfold block_position, block_size. intros L Hi Hj Hr Hc E. destruct (lt_eq_lt_dec i j) as [[H|H]|H].
  - pose proof (laid_mono 0 bl i j (mkBlock 0 0) L ltac:(lia)). lia.
  - subst. lia.
  - pose proof (laid_mono 0 bl j i (mkBlock 0 0) L ltac:(lia)). lia.
Qed.
Lemma nth_error_block bl i : i < length bl -> nth_error bl i = Some (nth i bl (mkBlock 0 0)).
Proof. intros H. apply nth_error_nth'. exact H. Qed.

(* ------------------------------------------------------------------ chains of windows *)
Definition area (bl : list Block) (e : nat * nat) : nat := block_size bl (fst e) * block_size bl (snd e).
Fixpoint chain (bl : list Block) (p : nat) (l : list (nat * nat * nat)) : Prop :=
  match l with [] => True | (e, v) :: l' => v = p /\ chain bl (p + area bl e) l' end.
Fixpoint areas (bl : list Block) (l : list (nat * nat)) : nat := match l with [] => 0 | e :: l' => area bl e + areas bl l' end.
Lemma areas_app bl l l' : areas bl (l ++ l') = areas bl l + areas bl l'.
Proof. induction l as [|e l IH]; [reflexivity|]. cbn. rewrite IH. lia. Qed.
Lemma chain_app bl p l l' : chain bl p (l ++ l') <-> chain bl p l /\ chain bl (p + areas bl (map fst l)) l'.
Proof.
  revert p. induction l as [|[e v] l IH]; intros p; cbn.
  - rewrite Nat.add_0_r. tauto.
  - rewrite IH. rewrite Nat.add_assoc. tauto.
Qed.
Lemma chain_bound bl l : forall p e v, chain bl p l -> In (e, v) l -> p <= v /\ v + area bl e <= p + areas bl (map fst l).
Proof.
  induction l as [|[e0 v0] l IH]; intros p e v C H; [destruct H|]. destruct C as [-> C]. cbn [map fst areas]. destruct H as [H|H].
  - inversion H. subst. lia.
  - destruct (IH _ _ _ C H). lia.
Qed.
Lemma chain_disjoint bl l : forall p e v e' v', chain bl p l -> In (e, v) l -> In (e', v') l -> e <> e' ->
  v + area bl e <= v' \/ v' + area bl e' <= v.
Proof.
  induction l as [|[e0 v0] l IH]; intros p e v e' v' C H H' N; [destruct H|]. destruct C as [-> C]. destruct H as [H|H]; destruct H' as [H'|H'].
  - inversion H. inversion H'. congruence.
  - inversion H. subst. left. exact (proj1 (chain_bound bl l _ _ _ C H')).
  - inversion H'. subst. right. exact (proj1 (chain_bound bl l _ _ _ C H)).
  - exact (IH _ _ _ _ _ C H H' N).
Qed.
Lemma chain_single bl l : forall p e v v', chain bl p l -> NoDup (map fst l) -> In (e, v) l -> In (e, v') l -> v = v'.
Proof.
  induction l as [|[e0 v0] l IH]; intros p e v v' C N H H'; [destruct H|]. destruct C as [-> C]. cbn in N. inversion N as [|? ? N1 N2]. subst.
  destruct H as [H|H]; destruct H' as [H'|H'].
  - inversion H. inversion H'. congruence.
  - inversion H. subst. exfalso. apply N1. apply (in_map fst) in H'. exact H'.
  - inversion H'. subst. exfalso. apply N1. apply (in_map fst) in H. exact H.
  - exact (IH _ _ _ _ C N2 H H').
Qed.

(* ------------------------------------------------------------------ the set of pairs *)
Definition plt (p q : nat * nat) : Prop := pair_lt p q = true.
Lemma plt_iff p q : plt p q <-> fst p < fst q \/ (fst p = fst q /\ snd p < snd q).
Proof. unfold plt, pair_lt. rewrite orb_true_iff, andb_true_iff, !Nat.ltb_lt, Nat.eqb_eq. tauto. Qed.
Lemma plt_total p q : ~ plt p q -> ~ plt q p -> p = q.
Proof. rewrite !plt_iff. destruct p, q. cbn. intros. f_equal; lia. Qed.
Lemma in_emplace p s q : In q (emplace p s) <-> q = p \/ In q s.
Proof.
  induction s as [|x s IH]; [cbn; intuition|]. cbn [emplace]. destruct (pair_lt p x) eqn:E; [cbn; intuition|].
  destruct (pair_lt x p) eqn:E'; [cbn; rewrite IH; intuition|].
  assert (p = x) by (apply plt_total; unfold plt; congruence). subst. cbn. intuition.
Qed.
Lemma sorted_emplace p s : StronglySorted plt s -> StronglySorted plt (emplace p s).
Proof.
  induction s as [|x s IH]; intros S; [cbn; repeat constructor|]. cbn [emplace]. inversion S as [|? ? S1 S2]. subst.
  destruct (pair_lt p x) eqn:E.
  - constructor; [exact S|]. constructor; [exact E|]. rewrite Forall_forall in *. intros y Hy. specialize (S2 y Hy). unfold plt in *.
    apply plt_iff in E. apply plt_iff in S2. apply plt_iff. lia.
  - destruct (pair_lt x p) eqn:E'; [|exact S]. constructor; [apply IH; exact S1|]. rewrite Forall_forall in *. intros y Hy.
    apply in_emplace in Hy as [->|Hy]; [exact E'|exact (S2 y Hy)].
Qed.
Lemma btree_spec ps : StronglySorted plt (btree_set ps) /\ forall q, In q (btree_set ps) <-> In q ps.
Proof.
  unfold btree_set. assert (G : forall s, StronglySorted plt s -> StronglySorted plt (fold_left (fun s p => emplace p s) ps s) /\
    forall q, In q (fold_left (fun s p => emplace p s) ps s) <-> In q ps \/ In q s).
  { induction ps as [|p ps IH]; intros s S; [cbn; split; [exact S|tauto]|]. cbn [fold_left]. destruct (IH _ (sorted_emplace p s S)) as [A B].
    split; [exact A|]. intros q. rewrite B, in_emplace. cbn. intuition. }
  destruct (G [] ltac:(constructor)) as [A B]. split; [exact A|]. intros q. rewrite B. cbn. tauto.
Qed.
Lemma sorted_nodup s : StronglySorted plt s -> NoDup s.
Proof.
  induction 1 as [|x s S IH F]; constructor; [|exact IH]. intros H. rewrite Forall_forall in F. specialize (F x H). apply plt_iff in F. lia.
Qed.
Lemma btree_permutation ps : Permutation (btree_set ps) (nodup pair_dec ps).
Proof.
  destruct (btree_spec ps) as [S I]. apply NoDup_Permutation; [exact (sorted_nodup _ S)|apply NoDup_nodup|]. intros q. rewrite I, nodup_In. tauto.
Qed.
Lemma zsum_areas bl l : zsum (fun p => (Z.of_nat (block_size bl (fst p)) * Z.of_nat (block_size bl (snd p)))%Z) l = Z.of_nat (areas bl l).
Proof. induction l as [|e l IH]; [reflexivity|]. unfold zsum in *. cbn [fold_right areas]. rewrite IH. unfold area. lia. Qed.
Lemma areas_permutation bl l l' : Permutation l l' -> areas bl l = areas bl l'.
Proof. induction 1; cbn; lia. Qed.

(* ------------------------------------------------------------------ the cells of the sparse matrix *)
Definition flat_row (i : nat) (cs : list Cell) : list (nat * nat * nat) := map (fun c => (i, block_id c, cell_position c)) cs.
Fixpoint flat (i : nat) (css : list (list Cell)) : list (nat * nat * nat) :=
  match css with [] => [] | cs :: css' => flat_row i cs ++ flat (S i) css' end.
Lemma layout_flat i css : make_layout i css = map (fun e => (IntPairToInt64 (fst (fst e)) (snd (fst e)), snd e)) (flat i css).
Proof.
  revert i. induction css as [|cs css IH]; intros i; [reflexivity|]. cbn [make_layout flat]. rewrite map_app, IH. f_equal.
  unfold flat_row. rewrite map_map. reflexivity.
Qed.
Lemma fits_iff z : fits z = true <-> (z <= INT_MAX)%Z.
Proof. unfold fits. apply Z.leb_le. Qed.

Lemma row_cells_spec bl i p : forall n cs n' rest, row_cells bl i (block_size bl i) p n = Some (cs, n', rest) ->
  exists taken, p = taken ++ rest /\ map fst (flat_row i cs) = taken /\ chain bl n (flat_row i cs) /\ n' = n + areas bl taken /\
    (forall q, In q taken -> snd q < length bl) /\ (forall q rest', rest = q :: rest' -> fst q <> i) /\ ((Z.of_nat n <= INT_MAX)%Z -> (Z.of_nat n' <= INT_MAX)%Z).
Proof.
  induction p as [|[a b] p IH]; intros n cs n' rest H; cbn [row_cells] in H.
  - inversion H. subst. exists []. cbn. repeat split; auto; try lia; intros; try contradiction; congruence.
  - destruct (i =? a) eqn:E.
    + apply Nat.eqb_eq in E. subst a. destruct (nth_error bl b) as [bb|] eqn:Eb; [|discriminate].
      assert (Hb : b < length bl) by (apply nth_error_Some; congruence).
      assert (Sb : size bb = block_size bl b) by (unfold block_size; rewrite (nth_error_nth _ _ _ Eb); reflexivity).
      destruct (fits _) eqn:F; [|discriminate]. apply fits_iff in F.
      destruct (row_cells bl i (block_size bl i) p (n + block_size bl i * size bb)) as [[[cs0 n0] rest0]|] eqn:R; [|discriminate]. inversion H. subst.
      destruct (IH _ _ _ _ R) as [t [A [B [C [D [G [K L]]]]]]]. exists ((i, b) :: t). rewrite A. split; [reflexivity|]. cbn [flat_row map fst block_id cell_position].
      split; [f_equal; exact B|]. unfold flat_row in C. split; [|].
      * cbn [chain]. split; [reflexivity|]. unfold area. cbn [fst snd]. rewrite <- Sb. exact C.
      * split; [rewrite D; cbn [areas]; unfold area; cbn [fst snd]; rewrite Sb; lia|].
        split; [intros q [<-|Hq]; [exact Hb|exact (G q Hq)]|]. split; [exact K|]. intros _. apply L. lia.
    + inversion H. subst. exists []. cbn. split; [reflexivity|]. split; [reflexivity|]. split; [exact I|]. split; [lia|]. split; [tauto|]. split; [|auto].
      intros q rest' Q. inversion Q. subst. cbn. apply Nat.eqb_neq in E. congruence.
Qed.
Lemma row_cells_some bl i p : forall n, (forall q, In q p -> snd q < length bl) -> (Z.of_nat (n + areas bl p) <= INT_MAX)%Z ->
  exists r, row_cells bl i (block_size bl i) p n = Some r.
Proof.
  induction p as [|[a b] p IH]; intros n Hp F; cbn [row_cells]; [eexists; reflexivity|].
  destruct (i =? a) eqn:E; [|eexists; reflexivity]. apply Nat.eqb_eq in E. subst a.
  pose proof (Hp _ (or_introl eq_refl)) as Hb. cbn in Hb. rewrite (nth_error_block bl b Hb).
  change (size (nth b bl (mkBlock 0 0))) with (block_size bl b). cbn [areas] in F. unfold area in F. cbn [fst snd] in F.
  assert (F1 : fits (Z.of_nat n + Z.of_nat (block_size bl i) * Z.of_nat (block_size bl b)) = true) by (apply fits_iff; lia).
  rewrite F1. destruct (IH (n + block_size bl i * block_size bl b)) as [[[cs n'] rest] R]; [intros q Hq; apply Hp; right; exact Hq|lia|].
  rewrite R. eexists. reflexivity.
Qed.
Lemma sorted_app_l {A} (R : A -> A -> Prop) l l' : StronglySorted R (l ++ l') -> StronglySorted R l'.
Proof. induction l as [|x l IH]; [auto|]. cbn. intros S. inversion S. auto. Qed.

Lemma all_cells_spec bl todo : forall i p n css, todo = skipn i bl -> StronglySorted plt p -> (forall q, In q p -> i <= fst q < length bl) ->
  all_cells bl todo i p n = Some css ->
  length css = length todo /\ map fst (flat i css) = p /\ chain bl n (flat i css) /\ (forall q, In q p -> snd q < length bl) /\
  ((Z.of_nat n <= INT_MAX)%Z -> (Z.of_nat (n + areas bl p) <= INT_MAX)%Z).
Proof.
  induction todo as [|b todo IH]; intros i p n css T S P H; cbn [all_cells] in H.
  - inversion H. subst. assert (length bl <= i) by (apply (f_equal (@length _)) in T; rewrite skipn_length in T; cbn in T; lia).
    destruct p as [|q p]; [cbn; repeat split; auto; [intros ? []|intros; lia]|]. exfalso. pose proof (P q (or_introl eq_refl)). lia.
  - assert (Hi : i < length bl) by (apply (f_equal (@length _)) in T; rewrite skipn_length in T; cbn in T; lia).
    assert (Sb : size b = block_size bl i).
    { unfold block_size. rewrite <- (Nat.add_0_r i) at 1. rewrite <- (firstn_skipn i bl), app_nth2; rewrite firstn_length; [|lia].
      rewrite Nat.min_l by lia. replace (i + 0 - i) with 0 by lia. rewrite <- T. reflexivity. }
    rewrite Sb in H. destruct (row_cells bl i (block_size bl i) p n) as [[[cs n'] rest]|] eqn:R; [|discriminate].
    destruct (all_cells bl todo (Datatypes.S i) rest n') as [css'|] eqn:R'; [|discriminate]. inversion H. subst css.
    destruct (row_cells_spec bl i p _ _ _ _ R) as [t [A [B [C [D [G [K L]]]]]]].
    assert (Sr : StronglySorted plt rest) by (subst p; exact (sorted_app_l _ _ _ S)).
    assert (Pr : forall q, In q rest -> Datatypes.S i <= fst q < length bl).
    { intros q Hq. assert (Q : i <= fst q < length bl) by (apply P; rewrite A; apply in_or_app; right; exact Hq). split; [|lia].
      destruct rest as [|q0 rest']; [destruct Hq|]. pose proof (K q0 rest' eq_refl) as K0.
      assert (Q0 : i <= fst q0 < length bl) by (apply P; rewrite A; apply in_or_app; right; left; reflexivity).
      destruct Hq as [<-|Hq]; [lia|]. inversion Sr as [|? ? S1 S2]. subst. rewrite Forall_forall in S2. specialize (S2 q Hq). apply plt_iff in S2. lia. }
    assert (T' : todo = skipn (Datatypes.S i) bl).
    { clear - T. revert bl T. induction i as [|i IHi]; intros [|x bl] T; cbn in *; try congruence. apply IHi in T. exact T. }
    destruct (IH (Datatypes.S i) rest n' css' T' Sr Pr R') as [A1 [B1 [C1 [D1 E1]]]].
    split; [cbn; lia|]. cbn [flat]. rewrite map_app, B, B1. split; [congruence|]. split.
    + apply chain_app. split; [exact C|]. rewrite B, <- D. exact C1.
    + split; [intros q Hq; rewrite A in Hq; apply in_app_or in Hq as [Hq|Hq]; [exact (G q Hq)|exact (D1 q Hq)]|].
      intros F. rewrite A, areas_app. rewrite D in *. specialize (E1 (L F)). lia.
Qed.
Lemma all_cells_some bl todo : forall i p n, todo = skipn i bl -> (forall q, In q p -> snd q < length bl) -> (Z.of_nat (n + areas bl p) <= INT_MAX)%Z ->
  exists css, all_cells bl todo i p n = Some css.
Proof.
  induction todo as [|b todo IH]; intros i p n T P F; cbn [all_cells]; [eexists; reflexivity|].
  assert (Hi : i < length bl) by (apply (f_equal (@length _)) in T; rewrite skipn_length in T; cbn in T; lia).
  assert (Sb : size b = block_size bl i).
  { unfold block_size. rewrite <- (Nat.add_0_r i) at 1. rewrite <- (firstn_skipn i bl), app_nth2; rewrite firstn_length; [|lia].
    rewrite Nat.min_l by lia. replace (i + 0 - i) with 0 by lia. rewrite <- T. reflexivity. }
  rewrite Sb. destruct (row_cells_some bl i p n P F) as [[[cs n'] rest] R]. rewrite R.
  destruct (row_cells_spec bl i p _ _ _ _ R) as [t [A [B [C [D [G [K L]]]]]]]. subst p n'. rewrite areas_app in F.
  assert (T' : todo = skipn (Datatypes.S i) bl).
  { clear - T. revert bl T. induction i as [|i IHi]; intros [|x bl] T; cbn in *; try congruence. apply IHi in T. exact T. }
  destruct (IH (Datatypes.S i) rest (n + areas bl t) T') as [css H]; [intros q Hq; apply P; apply in_or_app; right; exact Hq|lia|].
  rewrite H. eexists. reflexivity.
Qed.
Lemma nonzeros_flat bl css : length css = length bl -> bsm_nonzeros bl css = areas bl (map fst (flat 0 css)).
Proof.
  unfold bsm_nonzeros. assert (G : forall todo i css n, todo = skipn i bl -> length css = length todo ->
    fold_left (fun n rc => fold_left (fun n c => n + size (nth (block_id c) bl (mkBlock 0 0)) * size (fst rc)) (snd rc) n) (combine todo css) n = n + areas bl (map fst (flat i css))).
  { induction todo as [|b todo IH]; intros i css0 n T L; destruct css0 as [|cs css0]; try discriminate; [cbn; lia|].
    assert (Hi : i < length bl) by (apply (f_equal (@length _)) in T; rewrite skipn_length in T; cbn in T; lia).
    assert (Sb : size b = block_size bl i).
    { unfold block_size. rewrite <- (Nat.add_0_r i) at 1. rewrite <- (firstn_skipn i bl), app_nth2; rewrite firstn_length; [|lia].
      rewrite Nat.min_l by lia. replace (i + 0 - i) with 0 by lia. rewrite <- T. reflexivity. }
    assert (T' : todo = skipn (Datatypes.S i) bl).
    { clear - T. revert bl T. induction i as [|i IHi]; intros [|x bl] T; cbn in *; try congruence. apply IHi in T. exact T. }
    cbn [combine fold_left fst snd flat]. rewrite (IH _ _ _ T') by (cbn in L; lia). rewrite map_app, areas_app.
    assert (Q : forall n, fold_left (fun n c => n + size (nth (block_id c) bl (mkBlock 0 0)) * size b) cs n = n + areas bl (map fst (flat_row i cs))).
    { clear - Sb. induction cs as [|c cs IHc]; intros n; [cbn; lia|]. cbn [fold_left]. rewrite IHc. cbn [flat_row map fst areas]. unfold area. cbn [fst snd]. rewrite Sb. unfold block_size, flat_row. lia. }
    rewrite Q. lia. }
  intros L. rewrite (G bl 0 css 0 eq_refl L). lia.
Qed.

Lemma key_injective i j i' j' : (Z.of_nat j <= INT_MAX)%Z -> (Z.of_nat j' <= INT_MAX)%Z -> IntPairToInt64 i j = IntPairToInt64 i' j' -> i = i' /\ j = j'.
Proof. unfold IntPairToInt64, INT_MAX. change (2 ^ 32)%Z with 4294967296%Z. intros. lia. Qed.
Lemma find_flat l i j v : (forall e w, In (e, w) l -> (Z.of_nat (snd e) <= INT_MAX)%Z) -> (Z.of_nat j <= INT_MAX)%Z -> NoDup (map fst l) -> In (i, j, v) l ->
  find_layout (map (fun e => (IntPairToInt64 (fst (fst e)) (snd (fst e)), snd e)) l) (IntPairToInt64 i j) = Some v.
Proof.
  unfold find_layout. intros B Bj N H. induction l as [|[[a b] w] l IH]; [destruct H|]. cbn [map fst snd find]. inversion N as [|? ? N1 N2]. subst.
  destruct (Z.eqb_spec (IntPairToInt64 a b) (IntPairToInt64 i j)) as [E|E].
  - apply key_injective in E as [-> ->]; [|exact (B _ _ (or_introl eq_refl))|exact Bj]. cbn. destruct H as [H|H]; [inversion H; reflexivity|].
    exfalso. apply N1. apply (in_map fst) in H. exact H.
  - destruct H as [H|H]; [inversion H; subst; congruence|]. apply IH; auto. intros e w' He. exact (B e w' (or_intror He)).
Qed.
Lemma find_flat_none l i j : (forall e w, In (e, w) l -> (Z.of_nat (snd e) <= INT_MAX)%Z) -> (Z.of_nat j <= INT_MAX)%Z -> ~ In (i, j) (map fst l) ->
  find_layout (map (fun e => (IntPairToInt64 (fst (fst e)) (snd (fst e)), snd e)) l) (IntPairToInt64 i j) = None.
Proof.
  unfold find_layout. intros B Bj H. induction l as [|[[a b] w] l IH]; [reflexivity|]. cbn [map fst snd find].
  destruct (Z.eqb_spec (IntPairToInt64 a b) (IntPairToInt64 i j)) as [E|E].
  - apply key_injective in E as [-> ->]; [|exact (B _ _ (or_introl eq_refl))|exact Bj]. exfalso. apply H. left. reflexivity.
  - apply IH; [intros e w' He; exact (B e w' (or_intror He))|]. intros Q. apply H. right. exact Q.
Qed.
