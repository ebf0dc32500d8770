(* C66: sorting, stores, the scratch area *)
From Coq Require Import Reals ZArith List Arith Bool Lia Permutation Sorted.
From Verif Require Import SchurModel SparseModel SparseSpec SparseProofs SparseProofs2 BlockSparseModel BlockSparseSpec JacobianModel JacobianSpec.
Import ListNotations.
Open Scope R_scope.

(* ---------------------------------------------------------- sorting *)
Lemma insert_key_perm a l : Permutation (insert_key a l) (a :: l).
Proof. induction l as [|b l IH]; cbn; [auto|]. destruct (fst a <=? fst b)%nat; [auto|]. rewrite IH. apply perm_swap. Qed.
Lemma sort_keys_perm l : Permutation (sort_keys l) l.
Proof. induction l as [|a l IH]; cbn; [auto|]. rewrite insert_key_perm. now constructor. Qed.
Lemma insert_key_sorted a l : ~ In (fst a) (map fst l) -> StronglySorted Peano.lt (map fst l) -> StronglySorted Peano.lt (map fst (insert_key a l)).
Proof.
  intros N H. induction l as [|b l IH]; cbn [insert_key]; [repeat constructor|]. cbn [map] in *. inversion H as [|? ? H1 H2]; subst. destruct (Nat.leb_spec (fst a) (fst b)) as [L|L]; cbn [map].
  - assert (fst a < fst b)%nat by (cbn in N; lia). constructor; [auto|]. constructor; [auto|]. rewrite Forall_forall in *. intros x X. specialize (H2 x X). lia.
  - constructor; [apply IH; [cbn in N; tauto|auto]|]. rewrite Forall_forall in *. intros x X. apply (Permutation_in _ (Permutation_map fst (insert_key_perm a l))) in X. destruct X as [<-|X]; [auto|auto].
Qed.
Lemma sort_keys_sorted l : NoDup (map fst l) -> StronglySorted Peano.lt (map fst (sort_keys l)).
Proof.
  induction l as [|a l IH]; cbn [sort_keys fold_right map]; intros N; [constructor|]. inversion N; subst. apply insert_key_sorted; [|auto].
  intros X. apply (Permutation_in _ (Permutation_map fst (sort_keys_perm l))) in X. tauto.
Qed.
Lemma adjacent_sorted l : StronglySorted Peano.lt (map fst l) -> adjacent_keys l = false.
Proof.
  induction l as [|a l IH]; [auto|]. intros H. cbn [map] in H. inversion H as [|? ? H1 H2]; subst. destruct l as [|b l]; [auto|]. change (adjacent_keys (a :: b :: l)) with ((fst a =? fst b)%nat || adjacent_keys (b :: l)). rewrite (IH H1). apply orb_false_iff. split; [|auto]. apply Nat.eqb_neq. inversion H2. lia.
Qed.
Lemma active_keys j l : map fst (active j l) = indices l.
Proof. revert j. induction l as [|[t|v] l IH]; intros j; cbn; auto. now rewrite IH. Qed.
Lemma active_in j l v i : In (v, i) (active j l) <-> (j <= i)%nat /\ nth_error l (i - j) = Some (Varying v).
Proof.
  revert j. induction l as [|a l IH]; intros j.
  - cbn. split; [tauto|]. intros [_ H]. destruct (i - j)%nat; discriminate.
  - assert (ST : forall i, (S j <= i)%nat -> nth_error (a :: l) (i - j) = nth_error l (i - S j)) by (intros i' I; replace (i' - j)%nat with (S (i' - S j)) by lia; reflexivity).
    destruct a as [t|w]; cbn [active].
    + rewrite IH. split; intros [A B].
      * split; [lia|]. rewrite ST by lia. auto.
      * destruct (Nat.eq_dec i j) as [->|N]; [rewrite Nat.sub_diag in B; discriminate|]. split; [lia|]. rewrite <- ST by lia. auto.
    + cbn [In]. rewrite IH. split.
      * intros [E|[A B]]; [injection E as <- <-; split; [lia|]; rewrite Nat.sub_diag; auto|]. split; [lia|]. rewrite ST by lia. auto.
      * intros [A B]. destruct (Nat.eq_dec i j) as [->|N]; [left; rewrite Nat.sub_diag in B; cbn in B; injection B as ->; auto|]. right. split; [lia|]. rewrite <- ST by lia. auto.
Qed.
Lemma ordered_in b v j : In (v, j) (Ordered b) <-> nth_error (r_args b) j = Some (Varying v).
Proof.
  unfold Ordered. split; intros H.
  - apply (Permutation_in _ (sort_keys_perm _)) in H. apply active_in in H. now rewrite Nat.sub_0_r in H.
  - apply (Permutation_in _ (Permutation_sym (sort_keys_perm _))). apply active_in. rewrite Nat.sub_0_r. split; [lia|auto].
Qed.
Lemma ordered_keys b : Permutation (map fst (Ordered b)) (indices (r_args b)).
Proof. rewrite <- (active_keys 0). apply Permutation_map, sort_keys_perm. Qed.
Lemma ordered_sorted b : NoDup (indices (r_args b)) -> StronglySorted Peano.lt (map fst (Ordered b)).
Proof. intros N. apply sort_keys_sorted. now rewrite active_keys. Qed.
Lemma indices_in l v : In v (indices l) <-> exists j, nth_error l j = Some (Varying v).
Proof.
  rewrite <- (active_keys 0), in_map_iff. split.
  - intros [[w j] [<- H]]. apply active_in in H. exists (j - 0)%nat. apply H.
  - intros [j H]. exists (v, j). split; [auto|]. apply active_in. rewrite Nat.sub_0_r. split; [lia|auto].
Qed.

(* ---------------------------------------------------------- stores *)
Definition functional {A} (l : list (nat * A)) : Prop := forall i x y, In (i, x) l -> In (i, y) l -> x = y.
Lemma functional_cons {A} (s : nat * A) l : functional (s :: l) -> functional l.
Proof. intros F i x y X Y. apply (F i); right; auto. Qed.
Lemma set_all_length {A} (l : list (nat * A)) : forall v, length (set_all l v) = length v.
Proof. induction l as [|s l IH]; intros v; [auto|]. unfold set_all in *. cbn [fold_left]. rewrite IH. apply set_nth_length. Qed.
Lemma set_all_other {A} (l : list (nat * A)) i d : (forall x, ~ In (i, x) l) -> forall v, nth i (set_all l v) d = nth i v d.
Proof.
  unfold set_all. induction l as [|[k y] l IH]; intros N v; [auto|]. cbn [fold_left fst snd]. rewrite IH by (intros x X; apply (N x); right; auto).
  apply set_nth_other. intros ->. apply (N y). left. auto.
Qed.
Lemma set_all_in {A} (l : list (nat * A)) i x d : functional l -> In (i, x) l -> forall v, (i < length v)%nat -> nth i (set_all l v) d = x.
Proof.
  unfold set_all. induction l as [|[k y] l IH]; intros F H v L; [destruct H|]. cbn [fold_left fst snd].
  assert (D : In (i, x) l \/ (forall z, ~ In (i, z) l) /\ (k, y) = (i, x)).
  { destruct (in_dec Nat.eq_dec i (map fst l)) as [I|I].
    - left. apply in_map_iff in I. destruct I as [[i' z] [E I]]. cbn in E. subst i'. rewrite (F i x z) by (auto; right; auto). auto.
    - destruct H as [H|H]; [right|auto]. split; [|auto]. intros z Z. apply I. apply in_map_iff. exists (i, z). auto. }
  destruct D as [D|[N E]].
  - apply IH; [eapply functional_cons; eauto|auto|]. now rewrite set_nth_length.
  - injection E as -> ->. fold (set_all l (set_nth v i x)). rewrite set_all_other by auto. now apply set_nth_same.
Qed.
Lemma puts_other l a : (forall x, ~ In (a, x) l) -> forall m, puts l m a = m a.
Proof.
  unfold puts. induction l as [|[k y] l IH]; intros N m; [auto|]. cbn [fold_left]. rewrite IH by (intros x X; apply (N x); right; auto).
  unfold put. cbn [fst snd]. destruct (Nat.eqb_spec a k) as [->|]; [|auto]. exfalso. apply (N y). left. auto.
Qed.
Lemma puts_in l a x : functional l -> In (a, x) l -> forall m, puts l m a = x.
Proof.
  unfold puts. induction l as [|[k y] l IH]; intros F H m; [destruct H|]. cbn [fold_left].
  assert (D : In (a, x) l \/ (forall z, ~ In (a, z) l) /\ (k, y) = (a, x)).
  { destruct (in_dec Nat.eq_dec a (map fst l)) as [I|I].
    - left. apply in_map_iff in I. destruct I as [[i' z] [E I]]. cbn in E. subst i'. rewrite (F a x z) by (auto; right; auto). auto.
    - destruct H as [H|H]; [right|auto]. split; [|auto]. intros z Z. apply I. apply in_map_iff. exists (a, z). auto. }
  destruct D as [D|[N E]].
  - apply IH; [eapply functional_cons; eauto|auto].
  - injection E as -> ->. fold (puts l (put m (a, x))). rewrite puts_other by auto. unfold put. cbn. now rewrite Nat.eqb_refl.
Qed.
Lemma functional_nodup {A} (l : list (nat * A)) : NoDup (map fst l) -> functional l.
Proof.
  intros N i x y X Y. induction l as [|[k z] l IH]; [destruct X|]. cbn [map fst] in N. inversion N as [|? ? N1 N2]; subst.
  assert (O : forall w, In (i, w) l -> i <> k) by (intros w W ->; apply N1; apply in_map_iff; exists (k, w); auto).
  destruct X as [X|X], Y as [Y|Y]; [congruence| | |auto].
  - injection X as -> ->. now apply O in Y.
  - injection Y as -> ->. now apply O in X.
Qed.
Lemma functional_perm {A} (l l' : list (nat * A)) : Permutation l l' -> functional l -> functional l'.
Proof. intros P F i x y X Y. apply (F i); eapply Permutation_in; try (apply Permutation_sym; eassumption); auto. Qed.

(* ---------------------------------------------------------- the scratch area *)
Lemma evaluate_in p num args ptrs jac : forall j a x, In (a, x) (EvaluateStores p num j args ptrs jac) <->
  exists k arg pos t, nth_error args k = Some arg /\ nth_error ptrs k = Some (Some pos) /\ (t < num * arg_tangent p arg)%nat /\ a = (pos + t)%nat /\ x = jac (j + k)%nat t.
Proof.
  revert ptrs. induction args as [|arg args IH]; intros [|ptr ptrs] j a x; cbn [EvaluateStores].
  - split; [intros []|]. intros [[|k] [? [? [? [? _]]]]]; discriminate.
  - split; [intros []|]. intros [[|k] [? [? [? [? _]]]]]; discriminate.
  - split; [intros []|]. intros [[|k] [? [? [? [_ [? _]]]]]]; discriminate.
  - rewrite in_app_iff, IH. split.
    + intros [H|[k [arg' [pos [t [A [B [C [D E]]]]]]]]].
      * destruct ptr as [pos|]; [|destruct H]. apply in_map_iff in H. destruct H as [t [E T]]. apply in_seq in T. injection E as <- <-. exists 0%nat, arg, pos, t. cbn. rewrite Nat.add_0_r. repeat split; auto. lia.
      * exists (S k), arg', pos, t. cbn. rewrite Nat.add_succ_r. auto.
    + intros [[|k] [arg' [pos [t [A [B [C [D E]]]]]]]].
      * left. cbn in A, B. injection A as ->. injection B as ->. apply in_map_iff. exists t. rewrite Nat.add_0_r in E. split; [congruence|]. apply in_seq. lia.
      * right. exists k, arg', pos, t. cbn in A, B. rewrite Nat.add_succ_r in E. auto.
Qed.
(* the addresses increase *)
Lemma scratch_pos p num args : forall cursor k arg, nth_error args k = Some arg ->
  nth_error (ScratchPrepare p num cursor args) k = Some (match arg with Constant _ => None | Varying v => Some (cursor + list_sum (map (fun v => num * tangent p v) (indices (firstn k args))))%nat end).
Proof.
  induction args as [|a args IH]; intros cursor [|k] arg H; try discriminate.
  - cbn in H. injection H as ->. destruct arg; cbn; [auto|]. now rewrite Nat.add_0_r.
  - cbn [nth_error] in H. destruct a as [t|v]; cbn [ScratchPrepare nth_error firstn indices]; rewrite (IH _ _ _ H); [auto|]. destruct arg; [auto|]. do 2 f_equal. cbn [map]. change (list_sum (num * tangent p v :: map (fun v => num * tangent p v) (indices (firstn k args)))%nat) with (num * tangent p v + list_sum (map (fun v => num * tangent p v) (indices (firstn k args))))%nat. lia.
Qed.
Lemma scratch_mono p num args k k' v : (k < k')%nat -> nth_error args k = Some (Varying v) ->
  (list_sum (map (fun v => num * tangent p v) (indices (firstn k args))) + num * tangent p v <= list_sum (map (fun v => num * tangent p v) (indices (firstn k' args))))%nat.
Proof.
  revert k k'. induction args as [|a args IH]; intros [|k] [|k'] L H; try lia; try discriminate.
  - cbn [nth_error] in H. injection H as ->. cbn [firstn indices map]. change (list_sum (num * tangent p v :: map (fun v => num * tangent p v) (indices (firstn k' args)))%nat) with (num * tangent p v + list_sum (map (fun v => num * tangent p v) (indices (firstn k' args))))%nat. cbn. lia.
  - cbn [nth_error] in H. specialize (IH k k' ltac:(lia) H). destruct a as [t|w]; cbn [firstn indices map]; [auto|].
    change (list_sum (num * tangent p w :: map (fun v => num * tangent p v) (indices (firstn k args)))%nat) with (num * tangent p w + list_sum (map (fun v => num * tangent p v) (indices (firstn k args))))%nat.
    change (list_sum (num * tangent p w :: map (fun v => num * tangent p v) (indices (firstn k' args)))%nat) with (num * tangent p w + list_sum (map (fun v => num * tangent p v) (indices (firstn k' args))))%nat. lia.
Qed.
Lemma scratch_functional p num args jac : functional (EvaluateStores p num 0 args (ScratchPrepare p num 0 args) jac).
Proof.
  intros a x y X Y. apply evaluate_in in X. apply evaluate_in in Y. destruct X as [k [arg [pos [t [A [B [C [D E]]]]]]]]. destruct Y as [k' [arg' [pos' [t' [A' [B' [C' [D' E']]]]]]]].
  rewrite (scratch_pos _ _ _ _ _ _ A) in B. rewrite (scratch_pos _ _ _ _ _ _ A') in B'. destruct arg as [|v]; [discriminate|]. destruct arg' as [|v']; [discriminate|]. injection B as B. injection B' as B'. cbn [arg_tangent] in C, C'.
  destruct (Nat.lt_trichotomy k k') as [K|[->|K]].
  - generalize (scratch_mono p num args k k' v K A). lia.
  - rewrite E, E'. f_equal. lia.
  - generalize (scratch_mono p num args k' k v' K A'). lia.
Qed.
Lemma scratch_value p b jac junk j v t : nth_error (r_args b) j = Some (Varying v) -> (t < r_num b * tangent p v)%nat ->
  exists pos, nth j (ScratchPrepare p (r_num b) 0 (r_args b)) None = Some pos /\ Scratch p b jac junk (pos + t)%nat = jac j t.
Proof.
  intros H T. generalize (scratch_pos p (r_num b) (r_args b) 0 j _ H). intros S. eexists. split; [apply nth_error_nth; exact S|].
  unfold Scratch. apply puts_in; [apply scratch_functional|]. apply evaluate_in. eexists j, _, _, t. split; [exact H|]. split; [exact S|]. split; [exact T|]. auto.
Qed.
(* nothing is stored behind the end *)
Lemma scratch_bound p b jac : In b (p_blocks p) -> NoDup (map fst (EvaluateStores p (r_num b) 0 (r_args b) (ScratchPrepare p (r_num b) 0 (r_args b)) jac)) /\
  forall s, In s (EvaluateStores p (r_num b) 0 (r_args b) (ScratchPrepare p (r_num b) 0 (r_args b)) jac) -> (fst s < MaxDerivatives p)%nat.
Proof.
  intros B. split.
  - generalize 0%nat at 2 as cursor. intros cursor. assert (G : forall args cursor j, NoDup (map fst (EvaluateStores p (r_num b) j args (ScratchPrepare p (r_num b) cursor args) jac)) /\
      forall s, In s (EvaluateStores p (r_num b) j args (ScratchPrepare p (r_num b) cursor args) jac) -> (cursor <= fst s)%nat).
    { clear. induction args as [|[t|v] args IH]; intros cursor j; cbn [ScratchPrepare EvaluateStores arg_tangent]; [split; [constructor|intros s []]|apply IH|].
      destruct (IH (cursor + r_num b * tangent p v)%nat (S j)) as [I1 I2]. split.
      - rewrite map_app, map_map. cbn [fst]. apply NoDup_app_intro; [|auto|].
        + apply FinFun.Injective_map_NoDup; [intros x y; lia|apply seq_NoDup].
        + intros x X Y. apply in_map_iff in X. destruct X as [t [<- T]]. apply in_seq in T. apply in_map_iff in Y. destruct Y as [s [E Y]]. apply I2 in Y. lia.
      - intros s S. apply in_app_or in S. destruct S as [S|S]; [apply in_map_iff in S; destruct S as [t [<- _]]; cbn; lia|]. apply I2 in S. lia. }
    apply G.
  - intros [a x] S. apply evaluate_in in S. destruct S as [k [arg [pos [t [A [Q [C [D E]]]]]]]]. rewrite (scratch_pos _ _ _ _ _ _ A) in Q. destruct arg as [|v]; [discriminate|]. injection Q as Q. cbn [arg_tangent] in C. cbn [fst].
    assert (L : forall l k v, nth_error l k = Some (Varying v) -> (list_sum (map (fun v => r_num b * tangent p v) (indices (firstn k l))) + r_num b * tangent p v <= list_sum (map (fun a => r_num b * arg_tangent p a) l))%nat).
    { clear. induction l as [|a l IH]; intros [|k] v H; try discriminate; cbn [nth_error] in H.
      - injection H as ->. cbn. lia.
      - specialize (IH k v H). destruct a as [t|w]; cbn [firstn indices map arg_tangent].
        + change (list_sum (r_num b * t :: map (fun a => r_num b * arg_tangent p a) l))%nat with (r_num b * t + list_sum (map (fun a => r_num b * arg_tangent p a) l))%nat. lia.
        + change (list_sum (r_num b * tangent p w :: map (fun a => r_num b * arg_tangent p a) l))%nat with (r_num b * tangent p w + list_sum (map (fun a => r_num b * arg_tangent p a) l))%nat.
          change (list_sum (r_num b * tangent p w :: map (fun v => r_num b * tangent p v) (indices (firstn k l))))%nat with (r_num b * tangent p w + list_sum (map (fun v => r_num b * tangent p v) (indices (firstn k l))))%nat. lia. }
    specialize (L _ _ _ A). enough (list_sum (map (fun a => r_num b * arg_tangent p a) (r_args b)) <= MaxDerivatives p)%nat by lia.
    assert (FS : forall l d, fold_left (fun d a => (d + r_num b * arg_tangent p a)%nat) l d = (d + list_sum (map (fun a => r_num b * arg_tangent p a) l))%nat).
    { clear. induction l as [|a l IH]; intros d; cbn [fold_left map]; [cbn; lia|]. rewrite IH. change (list_sum (r_num b * arg_tangent p a :: map (fun a => r_num b * arg_tangent p a) l))%nat with (r_num b * arg_tangent p a + list_sum (map (fun a => r_num b * arg_tangent p a) l))%nat. lia. }
    unfold MaxDerivatives. set (g := fun n b' => Nat.max n (fold_left (fun d a => (d + r_num b' * arg_tangent p a)%nat) (r_args b') 0%nat)).
    assert (GE : forall l n, (n <= fold_left g l n)%nat). { induction l as [|y l IH]; intros n; cbn [fold_left]; [lia|]. specialize (IH (g n y)). unfold g in IH at 1. lia. }
    assert (GM : forall l n, In b l -> (list_sum (map (fun a => r_num b * arg_tangent p a) (r_args b)) <= fold_left g l n)%nat).
    { induction l as [|y l IH]; intros n I; [destruct I|]; destruct I as [->|I]; cbn [fold_left]; [|now apply IH]. specialize (GE l (g n b)). unfold g in GE at 1. rewrite FS in GE. lia. }
    now apply GM.
Qed.
