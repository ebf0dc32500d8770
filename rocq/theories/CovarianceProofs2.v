(* C65: what the object holds after the sparsity pattern was computed; reading a block *)
From Coq Require Import Reals ZArith List Arith Bool Lia Permutation Sorted.
From Verif Require Import SchurModel CGModel CGSpec SparseModel SparseSpec SparseProofs CovarianceModel ImplicitSchurSpec CovarianceSpec CovarianceProofs.
Import ListNotations.
Open Scope nat_scope.

Lemma mem_spec a l : mem a l = true <-> In a l.
Proof. unfold mem. rewrite existsb_exists. split; [intros [x [X E]]; apply Nat.eqb_eq in E; now subst|intros X; exists a; split; [auto|apply Nat.eqb_refl]]. Qed.
Lemma varies_spec p b : In b (p_blocks p) -> (varies p b = true <-> varying p b).
Proof.
  intros I. unfold varies, varying, in_use. rewrite andb_true_iff, negb_true_iff, orb_false_iff, Nat.eqb_neq, existsb_exists. split.
  - intros [[A B] [u [U M]]]. apply mem_spec in M. split; [auto|]. split; [auto|]. split; [lia|]. exists u. auto.
  - intros [_ [A [B [u [U M]]]]]. split; [split; [auto|lia]|]. exists u. split; [auto|]. now apply mem_spec.
Qed.
Lemma find_unique (bl : list PBlock) b : NoDup (map pointer bl) -> In b bl -> find (fun c => pointer c =? pointer b) bl = Some b.
Proof.
  induction bl as [|c bl IH]; intros N I; [destruct I|]. inversion N; subst. cbn. destruct (Nat.eqb_spec (pointer c) (pointer b)) as [E|E].
  - destruct I as [->|I]; [auto|]. exfalso. apply H1. rewrite E. now apply in_map.
  - destruct I as [->|I]; [congruence|auto].
Qed.
Lemma find_block_spec p b : proper p -> In b (p_blocks p) -> find_block p (pointer b) = Some b.
Proof. intros [N _] I. now apply find_unique. Qed.
Lemma find_block_in p a b : find_block p a = Some b -> In b (p_blocks p) /\ pointer b = a.
Proof. intros E. apply find_some in E. destruct E as [I E]. apply Nat.eqb_eq in E. auto. Qed.
Lemma tangent_spec p b : proper p -> In b (p_blocks p) -> tangent_of p (pointer b) = p_tangent b.
Proof. intros P I. unfold tangent_of. now rewrite find_block_spec. Qed.
Lemma active_in p a : In a (active_blocks p) <-> exists b, varying p b /\ pointer b = a.
Proof.
  unfold active_blocks. split.
  - intros I. apply (Permutation_in _ (sort_perm _)) in I. apply in_map_iff in I. destruct I as [b [E F]]. apply filter_In in F. exists b. split; [|auto]. now apply varies_spec.
  - intros [b [V E]]. apply (Permutation_in _ (Permutation_sym (sort_perm _))). apply in_map_iff. exists b. split; [auto|]. apply filter_In. split; [apply V|]. apply varies_spec; [apply V|auto].
Qed.
Lemma constant_in p a : In a (constant_blocks p) <-> exists b, In b (p_blocks p) /\ ~ varying p b /\ pointer b = a.
Proof.
  unfold constant_blocks. rewrite in_map_iff. split.
  - intros [b [E F]]. apply filter_In in F. destruct F as [I F]. apply negb_true_iff in F. exists b. split; [auto|]. split; [|auto]. intros V. apply varies_spec in V; [congruence|auto].
  - intros [b [I [V E]]]. exists b. split; [auto|]. apply filter_In. split; [auto|]. apply negb_true_iff. destruct (varies p b) eqn:W; [|auto]. apply varies_spec in W; tauto.
Qed.
Lemma nodup_filter_map p : NoDup (map pointer (p_blocks p)) -> NoDup (map pointer (filter (varies p) (p_blocks p))).
Proof.
  generalize (p_blocks p). intros bl. induction bl as [|b bl IH]; intros N; cbn; [constructor|]. inversion N; subst. destruct (varies p b); cbn; [|auto].
  constructor; [|auto]. intros X. apply H1. apply in_map_iff in X. destruct X as [c [E F]]. apply filter_In in F. rewrite <- E. apply in_map. tauto.
Qed.
Lemma active_strict p : proper p -> StronglySorted Peano.lt (active_blocks p).
Proof. intros [N _]. apply sort_strict. now apply nodup_filter_map. Qed.
Lemma not_both p a : proper p -> In a (active_blocks p) -> ~ In a (constant_blocks p).
Proof.
  intros P A C. apply active_in in A. apply constant_in in C. destruct A as [b [V E]], C as [c [I [W F]]].
  assert (find_block p a = Some b) by (rewrite <- E; apply find_block_spec; [auto|apply V]). assert (find_block p a = Some c) by (rewrite <- F; now apply find_block_spec). congruence.
Qed.
Lemma nth_sorted l : (forall i j a b, nth_error l i = Some a -> nth_error l j = Some b -> i < j -> a < b) -> StronglySorted Peano.lt l.
Proof.
  induction l as [|a l IH]; intros H; constructor.
  - apply IH. intros i j x y X Y L. apply (H (S i) (S j) x y X Y). lia.
  - rewrite Forall_forall. intros x X. apply In_nth_error in X. destruct X as [j X]. apply (H 0 (S j) a x); [auto|auto|lia].
Qed.
Lemma listing_active p l : proper p -> listing p l -> map pointer l = active_blocks p.
Proof.
  intros P [A B]. apply strict_unique.
  - apply nth_sorted. intros i j x y X Y L. rewrite nth_error_map in X, Y. destruct (nth_error l i) eqn:E; [|discriminate]. destruct (nth_error l j) eqn:F; [|discriminate]. cbn in *. injection X as <-. injection Y as <-. now apply (B i j).
  - now apply active_strict.
  - intros x. rewrite active_in, in_map_iff. split; intros [b [E F]]; exists b; [split; [now apply A|auto]|split; [auto|now apply A]].
Qed.
Lemma first_column_sum p l : proper p -> (forall b, In b l -> In b (p_blocks p)) -> forall i, first_column l i = list_sum (map (tangent_of p) (firstn i (map pointer l))).
Proof.
  intros P. induction l as [|b l IH]; intros I [|i]; auto. cbn [first_column map firstn]. rewrite IH by (intros c C; apply I; right; auto).
  change (list_sum (tangent_of p (pointer b) :: map (tangent_of p) (firstn i (map pointer l)))) with (tangent_of p (pointer b) + list_sum (map (tangent_of p) (firstn i (map pointer l)))).
  rewrite tangent_spec; auto. apply I. left; auto.
Qed.

(* ---- the order of the blocks and of their columns ---- *)
Section Order.
Variable w : nat -> nat.
Variable l : list nat.
Definition start (i : nat) : nat := list_sum (map w (firstn i l)).
Lemma start_S i a : nth_error l i = Some a -> start (S i) = start i + w a.
Proof.
  unfold start. revert i. induction l as [|b l' IH]; intros [|i] E; try discriminate; cbn [nth_error firstn map] in *.
  - injection E as ->. unfold list_sum. cbn. lia.
  - specialize (IH _ E). cbn [firstn] in IH. change (list_sum (w b :: map w (match l' with [] => [] | a0 :: l0 => a0 :: firstn i l0 end))) with (w b + list_sum (map w (match l' with [] => [] | a0 :: l0 => a0 :: firstn i l0 end))). change (list_sum (w b :: map w (firstn i l'))) with (w b + list_sum (map w (firstn i l'))). rewrite IH. lia.
Qed.
Lemma start_mono i j : i <= j -> start i <= start j.
Proof.
  intros H. unfold start. replace j with (i + (j - i)) by lia. generalize (j - i). intros k. clear. revert i. induction l as [|a l' IH]; intros i.
  - rewrite !firstn_nil. auto.
  - destruct i; cbn [firstn map]; [cbn; lia|]. cbn [Nat.add firstn map]. specialize (IH i). unfold list_sum in *. cbn [fold_right]. lia.
Qed.
Lemma start_before i j a : nth_error l i = Some a -> i < j -> start i + w a <= start j.
Proof. intros E H. rewrite <- (start_S i a E). now apply start_mono. Qed.
Lemma start_last : start (length l) = list_sum (map w l).
Proof. unfold start. now rewrite firstn_all. Qed.
End Order.
Lemma strict_nth l i j a b : StronglySorted Peano.lt l -> nth_error l i = Some a -> nth_error l j = Some b -> i < j -> a < b.
Proof.
  intros S. revert i j. induction S as [|c l S IH F]; intros i j A B L; [destruct i; discriminate|]. destruct j; [lia|]. destruct i; cbn in *.
  - injection A as ->. rewrite Forall_forall in F. apply F. eapply nth_error_In; eauto.
  - apply (IH i j); auto. lia.
Qed.
Lemma strict_index l i j a b : StronglySorted Peano.lt l -> nth_error l i = Some a -> nth_error l j = Some b -> (i < j <-> a < b).
Proof.
  intros S A B. split; [now apply (strict_nth l i j)|]. intros H. destruct (Nat.lt_trichotomy i j) as [|[->|C]]; [auto|rewrite A in B; injection B as ->; lia|].
  assert (b < a) by (apply (strict_nth l j i); auto). lia.
Qed.

(* ---- the pairs ---- *)
Lemma CovarianceBlocks_spec p pairs : proper p -> forall bs nnz,
  let act := active_blocks p in let ri := RowIndex p 0 act in
  CovarianceBlocks p ri (constant_blocks p) pairs = Some (bs, nnz) ->
  (forall x, In x bs -> In (fst x) act /\ In (snd x) act /\ fst x <= snd x /\ requested pairs (fst x) (snd x)) /\
  (forall a b, In a act -> In b act -> a <= b -> requested pairs a b -> In (a, b) bs) /\
  nnz = list_sum (map (fun x => tangent_of p (fst x) * tangent_of p (snd x)) bs).
Proof.
  intros P. set (act := active_blocks p). set (ri := RowIndex p 0 act). assert (ST : StronglySorted Peano.lt act) by now apply active_strict.
  induction pairs as [|[a b] pairs IH]; intros bs nnz; cbn zeta; cbn [CovarianceBlocks].
  - intros E. injection E as <- <-. split; [intros ? []|]. split; [intros ? ? ? ? ? [[]|[]]|reflexivity].
  - assert (RQ : forall x y, requested pairs x y -> requested ((a, b) :: pairs) x y) by (intros x y [H|H]; [left|right]; right; auto).
    cbn zeta in IH. fold ri in IH. destruct (mem a (constant_blocks p) || mem b (constant_blocks p)) eqn:M.
    + intros E. destruct (IH _ _ E) as [A [B C]]. split; [intros x X; destruct (A x X) as [? [? [? ?]]]; auto|]. split; [|auto].
      assert (NB : ~ (In a act /\ In b act)). { apply orb_true_iff in M. rewrite !mem_spec in M. intros [Ha Hb]. destruct M as [M|M]; [apply (not_both p a P Ha M)|apply (not_both p b P Hb M)]. }
      intros x y X Y L [[H|H]|[H|H]]; [injection H as -> ->; tauto|apply B; auto; left; auto|injection H as -> ->; tauto|apply B; auto; right; auto].
    + fold ri. destruct (lookup ri a) as [i|] eqn:La; [|discriminate]. destruct (lookup ri b) as [j|] eqn:Lb; [|discriminate].
      destruct (CovarianceBlocks p ri (constant_blocks p) pairs) as [[bs' n']|] eqn:E; [|discriminate]. intros H. injection H as <- <-. destruct (IH _ _ eq_refl) as [A [B C]].
      assert (Ia : In a act). { destruct (in_dec Nat.eq_dec a act); [auto|]. unfold ri in La. rewrite lookup_out in La by auto. discriminate. }
      assert (Ib : In b act). { destruct (in_dec Nat.eq_dec b act); [auto|]. unfold ri in Lb. rewrite lookup_out in Lb by auto. discriminate. }
      destruct (In_nth_error _ _ Ia) as [ia Na]. destruct (In_nth_error _ _ Ib) as [ib Nb].
      assert (ND : NoDup act) by now apply strict_nodup.
      unfold ri in La, Lb. rewrite (lookup_row p act ND 0 ia a Na) in La. rewrite (lookup_row p act ND 0 ib b Nb) in Lb. injection La as <-. injection Lb as <-. cbn [Nat.add].
      assert (pos : forall c, In c act -> 0 < tangent_of p c). { intros c Hc. apply active_in in Hc. destruct Hc as [d [V <-]]. rewrite tangent_spec; [apply V|auto|apply V]. }
      assert (ORD : (list_sum (map (tangent_of p) (firstn ib act)) <? list_sum (map (tangent_of p) (firstn ia act))) = (b <? a)).
      { fold (start (tangent_of p) act ib). fold (start (tangent_of p) act ia). destruct (Nat.ltb_spec b a) as [H|H].
        - apply Nat.ltb_lt. apply (strict_index act ib ia b a ST Nb Na) in H. generalize (start_before (tangent_of p) act ib ia b Nb H). specialize (pos b Ib). lia.
        - apply Nat.ltb_ge. apply start_mono. apply Nat.nlt_ge. intros K. apply (strict_index act ib ia b a ST Nb Na) in K. lia. }
      rewrite ORD. split; [|split].
      * intros x [X|X].
        -- destruct (Nat.ltb_spec b a); subst x; cbn; (split; [auto|]); (split; [auto|]); (split; [lia|]); [right|left]; left; auto.
        -- destruct (A x X) as [? [? [? ?]]]. auto.
      * intros x y X Y L [[H|H]|[H|H]].
        -- injection H as -> ->. left. rewrite (proj2 (Nat.ltb_ge _ _)) by lia. auto.
        -- right. apply B; auto. left; auto.
        -- injection H as -> ->. left. destruct (Nat.ltb_spec x y); [auto|]. assert (x = y) by lia. now subst.
        -- right. apply B; auto. right; auto.
      * cbn [map]. assert (LS : forall n t, list_sum (n :: t) = n + list_sum t) by reflexivity. rewrite LS, C. f_equal. destruct (b <? a); cbn; lia.
Qed.
Lemma CovarianceBlocks_total p pairs : proper p ->
  (CovarianceBlocks p (RowIndex p 0 (active_blocks p)) (constant_blocks p) pairs = None <->
   exists a b, In (a, b) pairs /\ ~ In a (constant_blocks p) /\ ~ In b (constant_blocks p) /\ (find_block p a = None \/ find_block p b = None)).
Proof.
  intros P. set (act := active_blocks p). set (ri := RowIndex p 0 act). assert (ND : NoDup act) by (apply strict_nodup; now apply active_strict).
  assert (LK : forall a, ~ In a (constant_blocks p) -> (lookup ri a = None <-> find_block p a = None)).
  { intros a Ha. split; intros H.
    - destruct (find_block p a) as [b|] eqn:E; [|auto]. exfalso. apply find_block_in in E. destruct E as [I E]. destruct (varies p b) eqn:V.
      + assert (In a act). { apply active_in. exists b. split; [now apply varies_spec|auto]. } destruct (In_nth_error _ _ H0) as [i Hi]. unfold ri in H. rewrite (lookup_row p act ND 0 i a Hi) in H. discriminate.
      + apply Ha. apply constant_in. exists b. split; [auto|]. split; [|auto]. intros W. apply varies_spec in W; [congruence|auto].
    - apply lookup_out. intros I. apply active_in in I. destruct I as [b [V E]]. rewrite <- E, find_block_spec in H; [discriminate|auto|apply V]. }
  induction pairs as [|[a b] pairs IH]; cbn [CovarianceBlocks].
  - split; [discriminate|]. intros [a [b [[] _]]].
  - destruct (mem a (constant_blocks p) || mem b (constant_blocks p)) eqn:M.
    + rewrite IH. split; intros [x [y [I H]]]; [exists x, y; split; [right; auto|auto]|]. destruct I as [I|I]; [|exists x, y; auto].
      injection I as -> ->. apply orb_true_iff in M. rewrite !mem_spec in M. tauto.
    + apply orb_false_iff in M. destruct M as [Ma Mb]. assert (Ha : ~ In a (constant_blocks p)) by (rewrite <- mem_spec; congruence). assert (Hb : ~ In b (constant_blocks p)) by (rewrite <- mem_spec; congruence).
      generalize (LK a Ha) (LK b Hb). intros Ka Kb. destruct (lookup ri a) as [i|].
      * destruct (lookup ri b) as [j|].
        -- transitivity (CovarianceBlocks p ri (constant_blocks p) pairs = None).
           ++ destruct (CovarianceBlocks p ri (constant_blocks p) pairs) as [[bs n]|]; split; congruence.
           ++ rewrite IH. split; intros [x [y [I H]]]; [exists x, y; split; [right; auto|auto]|]. destruct I as [I|I]; [|exists x, y; auto]. injection I as -> ->. destruct H as [_ [_ [H|H]]]; [apply Ka in H|apply Kb in H]; discriminate.
        -- split; [|auto]. intros _. exists a, b. split; [left; auto|]. split; [auto|]. split; [auto|]. right. now apply Kb.
      * split; [|auto]. intros _. exists a, b. split; [left; auto|]. split; [auto|]. split; [auto|]. left. now apply Ka.
Qed.

(* ---- the matrix ---- *)
Record pattern (p : CProblem) (L : list (nat * nat)) (m : crs) : Prop := mkpattern {
  pt_rows : m_num_rows m = num_rows_of p (active_blocks p);
  pt_cols : m_num_cols m = num_rows_of p (active_blocks p);
  pt_at : forall k, k <= num_rows_of p (active_blocks p) -> row_at m k = length (concat (firstn k (rowlists p (RowIndex p 0 (active_blocks p)) L (active_blocks p))));
  pt_columns : m_cols m = concat (rowlists p (RowIndex p 0 (active_blocks p)) L (active_blocks p));
  pt_values : length (m_values m) = length (m_cols m)
}.
Lemma Sparsity_spec p pairs : proper p -> forall ri cs m, Sparsity p pairs = Some (ri, cs, m) ->
  ri = RowIndex p 0 (active_blocks p) /\ cs = constant_blocks p /\
  match m with
  | None => forall a b, In a (active_blocks p) -> In b (active_blocks p) -> ~ requested pairs a b
  | Some m => exists L, sorted_first L /\
      (forall x, In x L -> In (fst x) (active_blocks p) /\ In (snd x) (active_blocks p) /\ fst x <= snd x /\ requested pairs (fst x) (snd x)) /\
      (forall a b, In a (active_blocks p) -> In b (active_blocks p) -> a <= b -> requested pairs a b -> In (a, b) L) /\
      pattern p L m
  end.
Proof.
  intros P ri cs m. unfold Sparsity. set (act := active_blocks p). set (ri0 := RowIndex p 0 act).
  destruct (CovarianceBlocks p ri0 (constant_blocks p) pairs) as [[bs nnz]|] eqn:E; [|discriminate]. destruct (CovarianceBlocks_spec p pairs P bs nnz E) as [A [B C]]. fold act in A, B.
  destruct bs as [|x0 bs].
  - intros H. injection H as <- <- <-. split; [auto|]. split; [auto|]. intros a b Ia Ib R. destruct (Nat.le_ge_cases a b) as [H|H].
    + apply (B a b Ia Ib H R).
    + apply (B b a Ib Ia H). destruct R; [right|left]; auto.
  - remember (x0 :: bs) as bl eqn:Hbl. clear x0 bs Hbl E. assert (ST : StronglySorted Peano.lt act) by now apply active_strict.
    set (L := sort_pairs bl) in *. set (n := num_rows_of p act) in *. assert (NS : n = list_sum (map (tangent_of p) act)) by apply num_rows_sum.
    assert (IL : forall x, In x L -> In x bl) by (intros x; apply Permutation_in, sort_pairs_perm).
    generalize (Fill_spec p ri0 act ST 0 L (repeat 0 (S n)) [] (sorted_pairs_first bl) (fun x X => proj1 (A x (IL x X)))). rewrite repeat_length.
    change (Fill p ri0 ri0) with (Fill p ri0 (RowIndex p 0 act)). destruct (Fill p ri0 (RowIndex p 0 act) L (repeat 0 (S n)) []) as [rows cols]. intros F. destruct F as [F1 [F2 [F3 F4]]]; [lia|]. cbn [length app Nat.add] in *.
    intros H. injection H as <- <- <-. split; [auto|]. split; [auto|]. exists L. split; [apply sorted_pairs_first|]. split; [intros x X; now apply A, IL|]. split.
    + intros a b Ia Ib H R. apply (Permutation_in _ (Permutation_sym (sort_pairs_perm bl))). now apply B.
    + constructor; cbn; [reflexivity|reflexivity| |now rewrite F1|].
      * fold act ri0 n. intros k K. unfold row_at. cbn [m_rows]. destruct (Nat.eq_dec k n) as [->|D].
        -- rewrite set_nth_same by lia. rewrite F1. f_equal. f_equal. symmetry. apply firstn_all2. rewrite rowlists_length. lia.
        -- rewrite set_nth_other by lia. rewrite F3 by lia. auto.
      * rewrite repeat_length, F1, C. rewrite rowlists_total; [|now apply strict_nodup|intros x X; now apply A, IL].
        clear - L. assert (H : forall (f : nat * nat -> nat) l1 l2, Permutation l1 l2 -> list_sum (map f l1) = list_sum (map f l2)). { intros f l1 l2. induction 1; cbn; unfold list_sum in *; cbn; lia. }
        apply H. apply Permutation_sym, sort_pairs_perm.
Qed.
