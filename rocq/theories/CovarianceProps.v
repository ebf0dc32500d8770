(* C65: covariance estimation. *)
From Coq Require Import Reals ZArith List Arith Bool Lia Lra Permutation Sorted.
From Verif Require Import SchurModel SchurProofs CGModel CGSpec PartitionModel SparseModel SparseSpec SparseProofs CovarianceModel ImplicitSchurSpec CovarianceSpec CovarianceProofs CovarianceProofs2 CovarianceProofs3 CovarianceProofs4 CovarianceProofs5 CovarianceProofs6 CovarianceProofs7 CovarianceProofs8.
From Verif Require SparseProofs2 SparseProofs4.
Import ListNotations.
Open Scope R_scope.

(* Compute dies exactly when a pair is given twice, or when a pair without a constant block
   names a block that is not in the problem.  Earlier calls have no influence. *)
Theorem compute_dies qr svd o p evaluate order s pairs : proper p ->
  (Compute qr svd o p evaluate order s pairs = Died <->
   ~ NoDup pairs \/ exists a b, In (a, b) pairs /\ (forall c, In c (p_blocks p) -> pointer c = a \/ pointer c = b -> varying p c) /\
     ((forall c, In c (p_blocks p) -> pointer c <> a) \/ (forall c, In c (p_blocks p) -> pointer c <> b))) /\
  forall s', Compute qr svd o p evaluate order s' pairs = Compute qr svd o p evaluate order s pairs.
Proof.
  intros P. split; [|reflexivity]. unfold Compute. destruct (adjacent pair_eqb (sort_pairs pairs)) eqn:AD.
  - split; [|auto]. intros _. left. intros N. apply pairs_checked in N. congruence.
  - apply pairs_checked in AD. unfold Sparsity. set (cb := CovarianceBlocks p (RowIndex p 0 (active_blocks p)) (constant_blocks p) pairs).
    assert (CV : forall a, ~ In a (constant_blocks p) <-> forall c, In c (p_blocks p) -> pointer c = a -> varying p c).
    { intros a. rewrite constant_in. split.
      - intros H c C E. destruct (varies p c) eqn:V; [now apply varies_spec|]. exfalso. apply H. exists c. split; [auto|]. split; [|auto]. intros W. apply varies_spec in W; [congruence|auto].
      - intros H [c [C [W E]]]. apply W. now apply H. }
    assert (FB : forall a, find_block p a = None <-> forall c, In c (p_blocks p) -> pointer c <> a).
    { intros a. unfold find_block. split.
      - intros H c C E. apply (find_none _ _ H) in C. apply Nat.eqb_neq in C. auto.
      - intros H. destruct (find _ _) as [c|] eqn:F; [|auto]. apply find_some in F. destruct F as [F1 F2]. apply Nat.eqb_eq in F2. exfalso. now apply (H c). }
    transitivity (cb = None).
    + destruct cb as [[[|x bs] nnz]|]; [|destruct (Fill _ _ _ _ _ _)|split; auto]; (split; [|discriminate]); unfold ComputeValues.
      * destruct (algorithm o); discriminate.
      * destruct (algorithm o); [|destruct (ValuesQR _ _ _ _ _); discriminate|destruct (ValuesQR _ _ _ _ _); discriminate|discriminate].
        unfold ValuesSVD. destruct (singular_values _); [discriminate|]. destruct (InverseSquares _ _ _ _ _ _); discriminate.
    + unfold cb. rewrite (CovarianceBlocks_total p pairs P). split.
      * intros [a [b [I [A [B F]]]]]. right. exists a, b. split; [auto|]. rewrite CV in A, B. split; [intros c C [E|E]; auto|]. rewrite !FB in F. auto.
      * intros [N|[a [b [I [V F]]]]]; [tauto|]. exists a, b. split; [auto|]. rewrite !CV, !FB. split; [intros c C E; apply V; auto|]. split; [intros c C E; apply V; auto|auto].
Qed.
Print Assumptions compute_dies.

(* Compute for a list of blocks asks for all pairs of them. *)
Theorem compute_blocks qr svd o p evaluate order s l :
  (~ NoDup l -> ComputeBlocks qr svd o p evaluate order s l = Died) /\
  (NoDup l -> ComputeBlocks qr svd o p evaluate order s l = Compute qr svd o p evaluate order s (all_pairs l) /\ NoDup (all_pairs l)) /\
  forall a b, requested (all_pairs l) a b <-> In a l /\ In b l.
Proof.
  unfold ComputeBlocks. assert (IN : forall l x, In x (all_pairs l) -> In (fst x) l /\ In (snd x) l).
  { clear. induction l as [|c l IH]; intros x X; cbn [all_pairs] in X; [destruct X|]. apply in_app_or in X. destruct X as [X|X].
    - apply in_map_iff in X. destruct X as [y [<- Y]]. cbn. auto.
    - apply IH in X. cbn. tauto. }
  split; [|split].
  - intros N. destruct (adjacent Nat.eqb (sort l)) eqn:E; [auto|]. apply blocks_checked in E. tauto.
  - intros N. rewrite (proj2 (blocks_checked l) N). split; [auto|]. clear - N IN. induction N as [|c l C N IHl]; cbn [all_pairs]; [constructor|].
    apply SparseProofs2.NoDup_app_intro; [|auto|].
    + apply FinFun.Injective_map_NoDup; [intros x y E; congruence|now constructor].
    + intros x X Y. apply in_map_iff in X. destruct X as [y [<- _]]. apply IN in Y. cbn in Y. tauto.
  - intros a b. split.
    + intros [H|H]; apply IN in H; cbn in H; tauto.
    + intros [A B]. revert A B. induction l as [|c l IH]; intros A B; [destruct A|]. unfold requested in *. cbn [all_pairs]. rewrite !in_app_iff.
      destruct A as [->|A].
      * left. left. now apply in_map.
      * destruct B as [->|B]; [right; left; apply in_map; right; auto|]. destruct (IH A B); auto.
Qed.
Print Assumptions compute_blocks.

(* Sparse QR: Compute succeeds exactly when the factorisation says that all columns are
   independent (or nothing needs to be computed).  Then all blocks that were asked for are
   those of the inverse of J'J, whatever the order of the parallel loop. *)
Theorem covariance_qr qr svd o p l evaluate order s pairs j : proper p -> listing p l -> askable p pairs -> sparse_qr (algorithm o) ->
  evaluate (map pointer l) = Some j -> m_valid j -> m_num_cols j = columns l ->
  let passed := match algorithm o with SUITE_SPARSE_QR => transpose j | _ => j end in
  let q := qr (algorithm o) passed in
  factors (m_num_rows j) (columns l) (handed (algorithm o) passed) q -> Permutation order (seq 0 (columns l)) ->
  exists ok s', Compute qr svd o p evaluate order s pairs = Done (ok, s') /\
    (ok = true <-> nothing_asked p pairs \/ (q_ok q = true /\ (columns l <= q_rank q)%nat)) /\
    (ok = true -> zero_answers p s' /\ (forall C, inverse_of (columns l) (information (m_num_rows j) (m_matrix j)) C -> answers p l pairs C s') /\
       (~ nothing_asked p pairs -> (exists C, inverse_of (columns l) (information (m_num_rows j) (m_matrix j)) C) /\ misses p pairs s')) /\
    (ok = false -> forall a b lift, GetBlock p s' a b lift = Died).
Proof.
  intros P LI [ND KN] SQ EV VJ CJ. cbn zeta. intros FA OR. unfold Compute. rewrite (proj2 (pairs_checked pairs) ND). rewrite <- (listing_active p l P LI), EV.
  destruct (Sparsity p pairs) as [[[ri cs] m]|] eqn:SP.
  2:{ exfalso. unfold Sparsity in SP. destruct (CovarianceBlocks _ _ _ pairs) as [[[|x bs] nnz]|] eqn:CB; [discriminate|destruct (Fill _ _ _ _ _ _); discriminate|].
      apply (CovarianceBlocks_total p pairs P) in CB. destruct CB as [a [b [I [_ [_ F]]]]]. destruct (KN a b I) as [[c [C <-]] [d [D <-]]]. rewrite !find_block_spec in F by auto. destruct F; discriminate. }
  unfold ComputeValues. destruct m as [m|].
  - set (A := match algorithm o with SUITE_SPARSE_QR => transpose j | _ => j end) in *.
    assert (EA : match algorithm o with DENSE_SVD => ValuesSVD svd o j m | _ => Done (ValuesQR qr (algorithm o) j order m) end = Done (ValuesQR qr (algorithm o) j order m)) by (destruct SQ as [-> | ->]; auto).
    assert (SOME : ~ nothing_asked p pairs).
    { intros NA. unfold Sparsity in SP. destruct (CovarianceBlocks _ _ _ pairs) as [[[|x bs] nnz]|] eqn:CB; [discriminate| |discriminate]. destruct (CovarianceBlocks_spec p pairs P _ _ CB) as [H _]. destruct (H x (or_introl eq_refl)) as [H1 [H2 [_ H3]]]. apply (NA (fst x) (snd x)); [now apply active_in|now apply active_in|auto]. }
    assert (VQ : ValuesQR qr (algorithm o) j order m = if negb (q_ok (qr (algorithm o) A)) then None else if (q_rank (qr (algorithm o) A) <? m_num_cols j)%nat then None else
       Some (Assign m (fun r c => SolveRTR (m_num_cols j) (q_R (qr (algorithm o) A)) (nth r (InversePermutation (m_num_cols j) (q_permutation (qr (algorithm o) A))) 0%nat) (nth c (InversePermutation (m_num_cols j) (q_permutation (qr (algorithm o) A))) 0%nat)) (filter (fun r => negb (row_at m (S r) =? row_at m r)%nat) order))) by (unfold ValuesQR, A; destruct SQ as [-> | ->]; auto).
    assert (RES : exists ok s', match (match algorithm o with DENSE_SVD => ValuesSVD svd o j m | _ => Done (ValuesQR qr (algorithm o) j order m) end) with Died => Died | Undefined => Undefined | Done (Some m'') => Done (true, mkCovariance true true ri cs (Some m'')) | Done None => Done (false, mkCovariance true false ri cs (Some m)) end = Done (ok, s') /\ ((ok = true <-> nothing_asked p pairs \/ (q_ok (qr (algorithm o) A) = true /\ (columns l <= q_rank (qr (algorithm o) A))%nat)) /\
    (ok = true -> zero_answers p s' /\ (forall C, inverse_of (columns l) (information (m_num_rows j) (m_matrix j)) C -> answers p l pairs C s') /\
       (~ nothing_asked p pairs -> (exists C, inverse_of (columns l) (information (m_num_rows j) (m_matrix j)) C) /\ misses p pairs s')) /\
    (ok = false -> forall a b lift, GetBlock p s' a b lift = Died))).
    { rewrite EA, VQ. set (q := qr (algorithm o) A) in *. rewrite CJ. destruct (q_ok q) eqn:OK; cbn [negb].
      2:{ do 2 eexists. split; [reflexivity|]. split; [split; [discriminate|intros [|[X _]]; [tauto|discriminate]]|]. split; [discriminate|]. intros _ a b lift. reflexivity. }
      destruct (Nat.ltb_spec (q_rank q) (columns l)) as [RK|RK].
      { do 2 eexists. split; [reflexivity|]. split; [split; [discriminate|intros [|[_ X]]; [tauto|lia]]|]. split; [discriminate|]. intros _ a b lift. reflexivity. }
      do 2 eexists. split; [reflexivity|]. split; [split; [auto|auto]|]. split; [|discriminate]. intros _.
      destruct (qr_inverse (m_num_rows j) (columns l) (handed (algorithm o) A) q OK RK FA) as [SF IF]. cbn zeta in SF, IF.
      set (f := fun r c => SolveRTR (columns l) (q_R q) (nth r (InversePermutation (columns l) (q_permutation q)) 0%nat) (nth c (InversePermutation (columns l) (q_permutation q)) 0%nat)) in *.
      assert (HA : forall r c, handed (algorithm o) A r c = m_matrix j r c). { intros r c. unfold A, handed. destruct SQ as [-> | ->]; [auto|]. unfold transposed. now apply SparseProofs4.transpose_matrix. }
      assert (IJ : inverse_of (columns l) (information (m_num_rows j) (m_matrix j)) f). { intros a b Ia Ib. destruct (IF a b Ia Ib) as [I1 I2]. split; [rewrite <- I1|rewrite <- I2]; apply sumn_ext; intros k _; f_equal; unfold information; apply sumn_ext; intros; now rewrite !HA. }
      assert (CN := columns_num p l P LI).
      destruct (state_some p l pairs P LI ri cs m f (filter (fun r => negb (row_at m (S r) =? row_at m r)%nat) order) SP) as [Z [AN MS]].
      - rewrite <- CN. exact SF.
      - intros r R. apply filter_In in R. destruct R as [R _]. apply (Permutation_in _ OR) in R. apply in_seq in R. rewrite <- CN. lia.
      - intros r R NE. apply filter_In. split; [apply (Permutation_in _ (Permutation_sym OR)); apply in_seq; lia|]. apply negb_true_iff, Nat.eqb_neq. auto.
      - split; [exact Z|]. split; [|intros _; split; [exists f; auto|exact MS]]. intros C IC. apply (answers_ext p l pairs f C); [|exact AN]. now apply (inverse_unique (columns l) _ f C IJ). }
    destruct RES as [ok [s' [E R]]]. exists ok, s'. split; [|exact R]. rewrite <- E. destruct (ValuesQR qr (algorithm o) j order m) as [m'|] eqn:V; destruct SQ as [Q|Q]; rewrite Q in V |- *; rewrite V; reflexivity.
  - destruct (state_none p l pairs P LI ri cs SP) as [NA [Z [AN _]]]. exists true, (mkCovariance true true ri cs None). split; [destruct SQ as [-> | ->]; auto|].
    split; [split; auto|]. split; [|discriminate]. intros _. split; [exact Z|]. split; [intros C _; apply AN|]. intros X. exfalso. apply X. exact NA.
Qed.
Print Assumptions covariance_qr.

(* DENSE_SVD: with null_space_rank < 0 Compute always succeeds, otherwise exactly when all but
   null_space_rank of the singular values are large enough (or nothing needs to be computed).
   The blocks are those of the pseudo inverse of what is left of J'J without the singular values
   that are dropped, and of the inverse of J'J when there are as many as columns and none is
   dropped. *)
Theorem covariance_svd qr svd o p l evaluate order s pairs j : proper p -> listing p l -> askable p pairs -> algorithm o = DENSE_SVD ->
  evaluate (map pointer l) = Some j -> m_valid j -> no_duplicates (m_entries j) -> m_num_cols j = columns l ->
  let d := svd (to_dense j) (m_num_rows j) (m_num_cols j) in
  let n := length (singular_values d) in
  let rank := null_space_rank o in
  decomposes (m_num_rows j) (columns l) (m_matrix j) d -> 0 < nth 0 (singular_values d) 0 -> 0 < min_reciprocal_condition_number o ->
  exists ok s', Compute qr svd o p evaluate order s pairs = Done (ok, s') /\
    (ok = true <-> nothing_asked p pairs \/ (rank < 0)%Z \/ forall k, (Z.of_nat k + rank < Z.of_nat n)%Z -> large_enough o d k) /\
    (ok = true -> zero_answers p s' /\ (nothing_asked p pairs \/ exists C, answers p l pairs C s' /\ misses p pairs s' /\
       (forall kept, (forall k, (k < n)%nat -> kept k = true <-> large_enough o d k /\ (Z.of_nat k + Z.max 0 rank < Z.of_nat n)%Z) -> pseudo_inverse (columns l) (truncated d kept) C) /\
       (n = columns l -> (rank <= 0)%Z -> (forall k, (k < n)%nat -> large_enough o d k) -> inverse_of (columns l) (information (m_num_rows j) (m_matrix j)) C))) /\
    (ok = false -> forall a b lift, GetBlock p s' a b lift = Died).
Proof.
  intros P LI [ND KN] AL EV VJ NDJ CJ. cbn zeta. set (d := svd (to_dense j) (m_num_rows j) (m_num_cols j)). set (n := length (singular_values d)). intros DE S0 MR. unfold Compute. rewrite (proj2 (pairs_checked pairs) ND). rewrite <- (listing_active p l P LI), EV.
  destruct (Sparsity p pairs) as [[[ri cs] m]|] eqn:SP.
  2:{ exfalso. unfold Sparsity in SP. destruct (CovarianceBlocks _ _ _ pairs) as [[[|x bs] nnz]|] eqn:CB; [discriminate|destruct (Fill _ _ _ _ _ _); discriminate|].
      apply (CovarianceBlocks_total p pairs P) in CB. destruct CB as [a [b [I [_ [_ F]]]]]. destruct (KN a b I) as [[c [C <-]] [e [D <-]]]. rewrite !find_block_spec in F by auto. destruct F; discriminate. }
  unfold ComputeValues. rewrite AL. destruct m as [m|].
  - assert (SOME : ~ nothing_asked p pairs).
    { intros NA. unfold Sparsity in SP. destruct (CovarianceBlocks _ _ _ pairs) as [[[|x bs] nnz]|] eqn:CB; [discriminate| |discriminate]. destruct (CovarianceBlocks_spec p pairs P _ _ CB) as [H _]. destruct (H x (or_introl eq_refl)) as [H1 [H2 [_ H3]]]. apply (NA (fst x) (snd x)); [now apply active_in|now apply active_in|auto]. }
    assert (VS : exists max, max = nth 0 (singular_values d) 0 /\ ValuesSVD svd o j m = match InverseSquares (MaxRank o n) 0 (singular_values d) max (sqrt (min_reciprocal_condition_number o)) (null_space_rank o <? 0)%Z with
       | None => Done None | Some inv => Done (Some (Assign m (written d inv) (seq 0 (m_num_rows m)))) end).
    { unfold ValuesSVD. fold d. unfold n. assert (X : singular_values d <> []) by (intros X; rewrite X in S0; cbn in S0; lra). unfold written. destruct (singular_values d) as [|max ss]; [congruence|]. exists max. auto. }
    destruct VS as [max [EM VS]]. rewrite VS. generalize (squares_spec (singular_values d) max (sqrt (min_reciprocal_condition_number o)) (null_space_rank o <? 0)%Z (MaxRank o n) 0).
    assert (MX : forall k, (k < MaxRank o n)%nat <-> (k < n)%nat /\ (Z.of_nat k + Z.max 0 (null_space_rank o) < Z.of_nat n)%Z) by (intros k; unfold MaxRank; lia).
    assert (DEC := DE). destruct DEC as [_ [_ [DECR _]]]. fold n in DECR.
    assert (LE : forall k k', (k <= k' < n)%nat -> nth k (singular_values d) 0 / max < sqrt (min_reciprocal_condition_number o) -> nth k' (singular_values d) 0 / max < sqrt (min_reciprocal_condition_number o)).
    { intros k k' K X. eapply Rle_lt_trans; [|exact X]. unfold Rdiv. apply Rmult_le_compat_r; [|now apply DECR]. left. apply Rinv_0_lt_compat. now rewrite EM. }
    destruct (InverseSquares _ _ _ _ _ _) as [inv|].
    + intros [L1 [L2 L3]]. do 2 eexists. split; [reflexivity|]. split; [split; [|auto]; intros _; right|split; [|discriminate]; intros _].
      * destruct (Z.ltb_spec (null_space_rank o) 0) as [N|N]; [auto|]. right. intros k K. destruct L3 as [L3|[L3 _]]; [|discriminate]. unfold large_enough. rewrite <- EM. apply L2. rewrite L3. apply MX. lia.
      * assert (CN := columns_num p l P LI). destruct (sparsity_sizes p pairs ri cs m SP) as [SR SC].
        destruct (state_some p l pairs P LI ri cs m (written d inv) (seq 0 (m_num_rows m)) SP) as [Z [AN MS]].
        -- intros r c R C. exact (written_symmetric d inv _ r c R C).
        -- intros r R. apply in_seq in R. lia.
        -- intros r R _. apply in_seq. lia.
        -- split; [exact Z|]. right. exists (written d inv). split; [exact AN|]. split; [exact MS|]. split.
           ++ intros kept K. apply (written_pseudo (m_num_rows j) (columns l) (m_matrix j) o d inv kept DE S0 MR). fold n. intros k KN'. specialize (K k KN').
              destruct (Nat.lt_ge_cases k (length inv)) as [KI|KI].
              ** destruct (L2 k KI) as [E1 E2]. cbn [Nat.add] in E1, E2. assert (KT : kept k = true). { apply K. split; [unfold large_enough; rewrite <- EM; exact E2|]. apply MX. lia. } rewrite KT. split; [unfold large_enough; rewrite <- EM; exact E2|exact E1].
              ** destruct (kept k) eqn:KK; [exfalso|now apply nth_overflow]. destruct (proj1 K eq_refl) as [K1 K2]. destruct L3 as [L3|[_ L3]].
                 --- assert (k < MaxRank o n)%nat by (apply MX; lia). lia.
                 --- cbn [Nat.add] in L3. apply (LE _ k) in L3; [|lia]. unfold large_enough in K1. rewrite <- EM in K1. lra.
           ++ intros NC RK LA. apply (written_inverse (m_num_rows j) (columns l) (m_matrix j) o d inv DE NC S0 MR). intros k K. split; [apply LA; lia|].
              assert (IN : (length inv = MaxRank o n)). { destruct L3 as [L3|[_ L3]]; [auto|]. destruct (Nat.eq_dec (length inv) (MaxRank o n)) as [|NE]; [auto|exfalso]. cbn [Nat.add] in L3.
                assert (IL : (length inv < n)%nat) by (apply MX; lia). specialize (LA _ IL). unfold large_enough in LA. rewrite <- EM in LA. lra. }
              apply (L2 k). rewrite IN. apply MX. lia.
    + intros [AU [k [K X]]]. do 2 eexists. split; [reflexivity|]. split; [split; [discriminate|]|split; [discriminate|intros _ a b lift; reflexivity]].
      intros [H|[H|H]]; [tauto| |]; exfalso.
      * apply Z.ltb_nlt in AU. tauto.
      * assert (K2 : (k < MaxRank o n)%nat) by lia. apply MX in K2. specialize (H k ltac:(lia)). unfold large_enough in H. rewrite <- EM in H. lra.
  - destruct (state_none p l pairs P LI ri cs SP) as [NA [Z _]]. do 2 eexists. split; [reflexivity|].
    split; [split; auto|]. split; [|discriminate]. intros _. split; [exact Z|]. left. exact NA.
Qed.
Print Assumptions covariance_svd.

Lemma sandwich_swap n1 n2 j1 c j2 x y : sandwich n1 n2 j1 c j2 y x = sandwich n2 n1 j2 (transposed_matrix c) j1 x y.
Proof.
  unfold sandwich, transposed_matrix. rewrite (sumn_ext n2 _ (fun l => sumn n1 (fun q => j1 y q * c q l * j2 x l))) by (intros l _; now rewrite sumn_scal_r).
  rewrite sumn_swap. apply sumn_ext. intros q _. rewrite <- sumn_scal_r. apply sumn_ext. intros. ring.
Qed.
(* Exchanging two different blocks transposes the answer. *)
Theorem exchange p s a b lift M : a <> b -> GetBlock p s a b lift = Done (Some M) ->
  exists M', GetBlock p s b a lift = Done (Some M') /\ forall x y, M' y x = M x y.
Proof.
  unfold GetBlock. intros N. destruct (is_computed s); [cbn [negb]|discriminate]. destruct (is_valid s); [cbn [negb]|discriminate]. rewrite (orb_comm (mem b _)).
  destruct (mem a (constants s) || mem b (constants s)).
  - destruct (find_block p a), (find_block p b); try discriminate. intros E. injection E as <-. eexists. split; [reflexivity|]. auto.
  - destruct (Nat.ltb_spec b a) as [BA|BA]; destruct (Nat.ltb_spec a b) as [AB|AB]; try lia.
    + destruct (lookup (row_index s) b); [|discriminate]. destruct (lookup (row_index s) a); [|discriminate]. destruct (covariance_matrix s) as [m|]; [|discriminate]. cbn zeta.
      destruct (Walk _ _ _ _ _ _) as [off|]; [|discriminate]. destruct (_ =? _)%nat; [discriminate|]. destruct (find_block p b) as [k1|]; [|discriminate]. destruct (find_block p a) as [k2|]; [|discriminate].
      destruct (p_plus k1), (p_plus k2), lift; intros E; injection E as <-; (eexists; split; [reflexivity|]; intros x y; try reflexivity; first [apply sandwich_swap | symmetry; apply sandwich_swap]).
    + destruct (lookup (row_index s) a); [|discriminate]. destruct (lookup (row_index s) b); [|discriminate]. destruct (covariance_matrix s) as [m|]; [|discriminate]. cbn zeta.
      destruct (Walk _ _ _ _ _ _) as [off|]; [|discriminate]. destruct (_ =? _)%nat; [discriminate|]. destruct (find_block p a) as [k1|]; [|discriminate]. destruct (find_block p b) as [k2|]; [|discriminate].
      destruct (p_plus k1), (p_plus k2), lift; intros E; injection E as <-; (eexists; split; [reflexivity|]; intros x y; try reflexivity; first [apply sandwich_swap | symmetry; apply sandwich_swap]).
Qed.
Print Assumptions exchange.

(* GetCovarianceMatrix: true exactly when all blocks are found; then the entries of the block for
   the i-th and j-th of the given blocks stand where these begin, whatever the order of the parallel
   loop. *)
Definition width (lift : bool) (b : PBlock) : nat := if lift then p_size b else p_tangent b.
Fixpoint offset (lift : bool) (ps : list PBlock) (i : nat) : nat := match ps, i with b :: ps', S i' => (width lift b + offset lift ps' i')%nat | _, _ => 0%nat end.
Theorem get_matrix p s ps lift order junk m : proper p -> is_computed s = true -> is_valid s = true -> ps <> [] -> (forall b, In b ps -> In b (p_blocks p)) ->
  Permutation order (seq 0 (length ps * (length ps + 1) / 2)) ->
  forall G, (forall i j b c, (i <= j)%nat -> nth_error ps i = Some b -> nth_error ps j = Some c -> GetBlock p s (pointer b) (pointer c) lift = Done (G i j)) ->
  exists ok M, GetMatrix p s (map pointer ps) lift order junk m = Done (ok, M) /\
    (ok = true <-> forall i j, (i <= j < length ps)%nat -> G i j <> None) /\
    forall i j b c B, (i <= j)%nat -> nth_error ps i = Some b -> nth_error ps j = Some c -> G i j = Some B ->
      forall x y, (x < width lift b)%nat -> (y < width lift c)%nat ->
        M (offset lift ps i + x)%nat (offset lift ps j + y)%nat = B x y /\ (i <> j -> M (offset lift ps j + y)%nat (offset lift ps i + x)%nat = B x y).
Proof.
  intros P IC IV NE INP OR G HG. unfold GetMatrix. rewrite IC, IV. cbn [negb].
  rewrite (find_sizes_spec p lift ps) by (intros b B; apply find_block_spec; auto). fold (width lift).
  set (sizes := map (width lift) ps). assert (LS : length sizes = length (map pointer ps)) by (unfold sizes; now rewrite !map_length). assert (LP : length (map pointer ps) = length ps) by apply map_length.
  assert (NTH : forall i, (i < length ps)%nat -> exists b, nth_error ps i = Some b /\ nth i (map pointer ps) 0%nat = pointer b /\ nth i sizes 0%nat = width lift b).
  { intros i I. destruct (nth_error ps i) as [b|] eqn:E; [|apply nth_error_None in E; lia]. exists b. split; [auto|]. split; apply nth_error_nth; unfold sizes; rewrite nth_error_map, E; auto. }
  assert (OFF : forall i, (i <= length ps)%nat -> nth i (partial_sums 0 sizes) 0%nat = offset lift ps i).
  { intros i I. rewrite (sums_nth (map pointer ps) sizes LS) by lia. unfold sizes. clear - I. revert i I. induction ps as [|b ps IH]; intros [|i] I; cbn [map firstn offset] in *; try reflexivity. change (list_sum (width lift b :: firstn i (map (width lift) ps))) with (width lift b + list_sum (firstn i (map (width lift) ps)))%nat. cbn [length] in I. specialize (IH i ltac:(lia)). lia. }
  assert (HG' : forall i j, (i <= j < length (map pointer ps))%nat -> GetBlock p s (nth i (map pointer ps) 0%nat) (nth j (map pointer ps) 0%nat) lift = Done (G i j)).
  { intros i j H. rewrite LP in H. destruct (NTH i ltac:(lia)) as [b [B1 [B2 _]]]. destruct (NTH j ltac:(lia)) as [c [C1 [C2 _]]]. rewrite B2, C2. apply (HG i j b c); auto; lia. }
  destruct (loop_spec p s (map pointer ps) sizes lift junk LS G HG' order) with (ok := true) (M := m) as [M [EM HM]].
  { intros k K. apply (Permutation_in _ OR) in K. apply in_seq in K. unfold count. rewrite LP. lia. }
  exists (true && forallb (fun k => match G (fst (pos (map pointer ps) k)) (snd (pos (map pointer ps) k)) with Some _ => true | None => false end) order), M. split; [|split].
  - destruct ps as [|b0 ps']; [congruence|]. exact EM.
  - cbn [andb]. rewrite forallb_forall. split.
    + intros H i j I E. destruct (pos_onto (map pointer ps) sizes LS i j ltac:(lia)) as [k [K1 K2]]. specialize (H k). rewrite K2 in H. cbn [fst snd] in H. rewrite E in H. discriminate H. apply (Permutation_in _ (Permutation_sym OR)), in_seq. unfold count in K1. rewrite LP in K1. lia.
    + intros H k K. apply (Permutation_in _ OR), in_seq in K. generalize (pos_in (map pointer ps) sizes LS k). unfold count. rewrite LP. intros X. specialize (X ltac:(lia)). specialize (H _ _ X). destruct (G _ _); auto.
  - intros i j b c B IJ Hb Hc E x y X Y. assert (I : (i < length ps)%nat) by (apply nth_error_Some; congruence). assert (J : (j < length ps)%nat) by (apply nth_error_Some; congruence).
    destruct (NTH i I) as [b' [B1 [_ B3]]]. destruct (NTH j J) as [c' [C1 [_ C3]]]. rewrite B1 in Hb. rewrite C1 in Hc. injection Hb as <-. injection Hc as <-.
    rewrite <- !OFF by lia. apply (HM i j B x y); [lia|auto|lia|lia|]. destruct (pos_onto (map pointer ps) sizes LS i j ltac:(lia)) as [k [K1 K2]]. exists k. split; [|auto]. apply (Permutation_in _ (Permutation_sym OR)), in_seq. unfold count in K1. rewrite LP in K1. lia.
Qed.
Print Assumptions get_matrix.

(* Concrete cases.  y: two numbers at address 3 on a curve, x: one number at address 8, z: constant. *)
Definition yy : PBlock := mkPBlock 3 2 1 false (Some (fun i _ => if (i =? 0)%nat then 3 else 4)).
Definition bx : PBlock := mkPBlock 8 1 1 false None.
Definition bz : PBlock := mkPBlock 5 1 1 true None.
Definition pr : CProblem := mkCProblem [bx; yy; bz] [[8; 3; 5]]%nat.
(* 1 2 / 1 0 *)
Definition jac : crs := mkcrs 2 2 [0; 2; 3]%nat [0; 1; 0]%nat [1; 2; 1] Unsymmetric [] [].
(* R = 2 1 / 0 1 by columns, for the columns exchanged *)
Definition rr : crs := mkcrs 2 2 [0; 1; 3]%nat [0; 0; 1]%nat [2; 1; 1] Unsymmetric [] [].
Definition qq : QRResult := mkQR true 2 rr (Some [1; 0]%nat).
Definition opts : COptions := mkCOptions EIGEN_SPARSE_QR 1 0.

Lemma pr_proper : proper pr.
Proof.
  split; [repeat constructor; cbn; lia|]. intros b [<-|[<-|[<-|[]]]]; cbn; auto; discriminate.
Qed.
Lemma pr_listing : listing pr [yy; bx].
Proof.
  split.
  - intros b. unfold varying. cbn [p_blocks p_uses pr]. split.
    + intros [<-|[<-|[]]]; cbn; (split; [auto|]; split; [auto|]; split; [lia|]); exists [8; 3; 5]%nat; cbn; auto.
    + intros [[<-|[<-|[<-|[]]]] [C _]]; cbn in *; auto; discriminate.
  - intros [|[|i]] [|[|j]] b c; cbn; try lia; intros E F; try (destruct i; discriminate); try (destruct j; discriminate); injection E as <-; injection F as <-; cbn; lia.
Qed.
Lemma jac_valid : m_valid jac.
Proof. constructor; try reflexivity; try (cbn; lia); [intros [|[|r]]|intros [|[|[|r]]]]; cbn; lia. Qed.
Lemma rr_valid : m_valid rr.
Proof. constructor; try reflexivity; try (cbn; lia); [intros [|[|r]]|intros [|[|[|r]]]]; cbn; lia. Qed.
Lemma qq_factors : factors 2 2 (m_matrix jac) qq.
Proof.
  intros _ _. split; [|split].
  - split; [exact rr_valid|]. split; [auto|]. split; [auto|]. intros [|[|c]] C; [| |lia].
    + exists [], 2. cbn. split; [auto|]. split; [lra|]. intros e [].
    + exists [(0%nat, 1)], 1. cbn. split; [auto|]. split; [lra|]. intros e [<-|[]]. cbn. lia.
  - intros l E. injection E as <-. apply perm_swap.
  - intros [|[|i]] [|[|j]] I J; try lia; cbn; lra.
Qed.
Lemma ex_askable : askable pr [(8, 3); (3, 3); (5, 8)]%nat.
Proof.
  split; [repeat constructor; cbn; intuition congruence|]. intros a b H. cbn in H. split;
  (destruct H as [E|[E|[E|[]]]]; injection E as <- <-; [first [exists bx; cbn; auto; fail|exists yy; cbn; auto; fail|exists bz; cbn; auto; fail]..]).
Qed.
Lemma ex_asked : ~ nothing_asked pr [(8, 3); (3, 3); (5, 8)]%nat.
Proof.
  intros H. apply (H 3%nat 3%nat); [| |left; cbn; auto]; exists yy; (split; [|auto]); apply pr_listing; cbn; auto.
Qed.
Definition inv2 : matrix := fun i j => match i, j with 0%nat, 0%nat => 1 | 1%nat, 1%nat => 1 / 2 | _, _ => - (1 / 2) end.
Lemma inv2_inverse : inverse_of 2 (information 2 (m_matrix jac)) inv2.
Proof. intros [|[|i]] [|[|j]] I J; try lia; cbn; lra. Qed.
Example ex_qr : exists s', Compute (fun _ _ => qq) (fun _ _ _ => mkSVD [] (fun _ _ => 0)) opts pr (fun l => if list_eq_dec Nat.eq_dec l [3; 8]%nat then Some jac else None) [1; 0]%nat (mkCovariance false false [] [] None) [(8, 3); (3, 3); (5, 8)]%nat = Done (true, s') /\
  (exists M, GetBlock pr s' 8 3 false = Done (Some M) /\ M 0%nat 0%nat = - (1 / 2)) /\
  (exists M, GetBlock pr s' 3 3 true = Done (Some M) /\ M 0%nat 1%nat = 12) /\
  (exists M, GetBlock pr s' 8 5 true = Done (Some M) /\ M 0%nat 0%nat = 0) /\
  (GetBlock pr s' 8 8 false = Done None \/ GetBlock pr s' 8 8 false = Undefined).
Proof.
  destruct (covariance_qr (fun _ _ => qq) (fun _ _ _ => mkSVD [] (fun _ _ => 0)) opts pr [yy; bx] (fun l => if list_eq_dec Nat.eq_dec l [3; 8]%nat then Some jac else None) [1; 0]%nat (mkCovariance false false [] [] None) [(8, 3); (3, 3); (5, 8)]%nat jac
    pr_proper pr_listing ex_askable (or_introl eq_refl) eq_refl jac_valid eq_refl qq_factors (perm_swap _ _ _)) as [ok [s' [E [OK [A _]]]]].
  assert (T : ok = true) by (apply OK; right; cbn; auto). destruct (A T) as [Z [AN MI]]. destruct (MI ex_asked) as [_ MS]. specialize (AN inv2 inv2_inverse). exists s'. rewrite T in E. split; [exact E|]. split; [|split; [|split]].
  - destruct (AN 1%nat 0%nat bx yy eq_refl eq_refl (or_introl (or_introl eq_refl))) as [[M [G H]] _]. exists M. split; [exact G|]. rewrite H by (cbn; lia). cbn. lra.
  - destruct (AN 0%nat 0%nat yy yy eq_refl eq_refl (or_introl (or_intror (or_introl eq_refl)))) as [_ [M [G H]]]. exists M. split; [exact G|]. rewrite H by (cbn; lia). cbn. lra.
  - destruct (Z bx bz true) as [M [G H]]; [cbn; auto|cbn; auto|right; intros [_ [C _]]; discriminate|]. exists M. split; [exact G|auto].
  - apply (MS 8%nat 8%nat false); [exists bx; split; [apply pr_listing; cbn; auto|auto]|exists bx; split; [apply pr_listing; cbn; auto|auto]|]. intros [H|H]; cbn in H; intuition congruence.
Qed.

(* 2 0 / 0 1 *)
Definition jac2 : crs := mkcrs 2 2 [0; 1; 2]%nat [0; 1]%nat [2; 1] Unsymmetric [] [].
Definition svd2 : SVDResult := mkSVD [2; 1] (fun i j => if (i =? j)%nat then 1 else 0).
Lemma jac2_valid : m_valid jac2.
Proof. constructor; try reflexivity; try (cbn; lia); [intros [|[|r]]|intros [|[|[|r]]]]; cbn; lia. Qed.
Lemma svd2_decomposes : decomposes 2 2 (m_matrix jac2) svd2.
Proof.
  split; [auto|]. split; [intros [|[|i]] I; cbn in *; try lia; lra|]. split; [intros [|[|i]] [|[|j]] I; cbn in *; try lia; lra|].
  split; intros [|[|i]] [|[|j]] I J; cbn in *; try lia; lra.
Qed.
(* the threshold 1/16: the second singular value is half of the first *)
Example ex_svd : exists s', Compute (fun _ _ => qq) (fun _ _ _ => svd2) (mkCOptions DENSE_SVD (1 / 16) 0) pr (fun _ => Some jac2) [] (mkCovariance false false [] [] None) [(8, 3); (3, 3); (5, 8)]%nat = Done (true, s') /\
  exists M, GetBlock pr s' 3 3 false = Done (Some M) /\ M 0%nat 0%nat = 1 / 4.
Proof.
  assert (SQ : sqrt (1 / 16) = 1 / 4) by (replace (1 / 16) with ((1 / 4) * (1 / 4)) by lra; apply sqrt_square; lra).
  destruct (covariance_svd (fun _ _ => qq) (fun _ _ _ => svd2) (mkCOptions DENSE_SVD (1 / 16) 0) pr [yy; bx] (fun _ => Some jac2) [] (mkCovariance false false [] [] None) [(8, 3); (3, 3); (5, 8)]%nat jac2
    pr_proper pr_listing ex_askable eq_refl eq_refl jac2_valid ltac:(repeat constructor; cbn; intuition congruence) eq_refl svd2_decomposes ltac:(cbn; lra) ltac:(cbn; lra)) as [ok [s' [E [OK [A _]]]]].
  assert (L : forall k, (k < 2)%nat -> large_enough (mkCOptions DENSE_SVD (1 / 16) 0) svd2 k) by (intros [|[|k]] K; [| |lia]; unfold large_enough; cbn [min_reciprocal_condition_number singular_values svd2 nth]; rewrite SQ; lra).
  assert (T : ok = true). { apply OK. right. right. intros k K. apply L. cbn [null_space_rank length singular_values svd2] in K. lia. }
  destruct (A T) as [_ [NA|[C [AN [_ [_ IV]]]]]]; [now apply ex_asked in NA|]. exists s'. rewrite T in E. split; [exact E|].
  destruct (AN 0%nat 0%nat yy yy eq_refl eq_refl (or_introl (or_intror (or_introl eq_refl)))) as [[M [G H]] _]. exists M. split; [exact G|]. rewrite H by (cbn; lia).
  specialize (IV eq_refl ltac:(cbn; lia) L). destruct (IV 0%nat 0%nat ltac:(cbn; lia) ltac:(cbn; lia)) as [I1 _]. cbn in I1. cbn. lra.
Qed.
Example ex_dies : Compute (fun _ _ => qq) (fun _ _ _ => svd2) opts pr (fun _ => Some jac) [] (mkCovariance false false [] [] None) [(8, 3); (3, 3); (8, 3)]%nat = Died /\
  Compute (fun _ _ => qq) (fun _ _ _ => svd2) opts pr (fun _ => Some jac) [] (mkCovariance false false [] [] None) [(8, 3); (9, 3)]%nat = Died.
Proof. split; apply (compute_dies _ _ _ _ _ _ _ _ pr_proper); [left|right].
  - intros H. inversion H as [|? ? N _]. apply N. cbn. auto.
  - exists 9%nat, 3%nat. split; [cbn; auto|]. split; [|left; intros c [<-|[<-|[<-|[]]]]; cbn; lia]. intros c [<-|[<-|[<-|[]]]] [H|H]; cbn in H; try lia. apply pr_listing. cbn. auto.
Qed.
Definition s22 : Covariance := mkCovariance true true [(3, 0); (8, 1)]%nat [5%nat] (Some (mkcrs 2 2 [0; 2; 3]%nat [0; 1; 1]%nat [1; 2; 3] Unsymmetric [] [])).
Example ex_matrix : exists M, GetMatrix pr s22 [8; 3]%nat true [2; 0; 1]%nat (fun _ _ _ => 7) (fun _ _ => 9) = Done (true, M) /\
  M 0%nat 0%nat = 3 /\ M 0%nat 2%nat = 8 /\ M 2%nat 0%nat = 8 /\ M 1%nat 2%nat = 12.
Proof.
  set (G := fun i j => match GetBlock pr s22 (nth i [8; 3]%nat 0%nat) (nth j [8; 3]%nat 0%nat) true with Done m => m | _ => None end).
  destruct (get_matrix pr s22 [bx; yy] true [2; 0; 1]%nat (fun _ _ _ => 7) (fun _ _ => 9) pr_proper eq_refl eq_refl ltac:(discriminate)) with (G := G) as [ok [M [E [OK H]]]].
  - intros b [<-|[<-|[]]]; cbn; auto.
  - change (Permutation [2; 0; 1]%nat [0; 1; 2]%nat). transitivity [0; 2; 1]%nat; [apply perm_swap|]. apply perm_skip, perm_swap.
  - intros [|[|i]] [|[|j]] b c IJ Hb Hc; try lia; try (destruct i; discriminate); try (destruct j; discriminate); injection Hb as <-; injection Hc as <-; reflexivity.
  - assert (T : ok = true). { apply OK. intros [|[|i]] [|[|j]] IJ; cbn [length] in IJ; try lia; discriminate. }
    exists M. rewrite T in E. split; [exact E|].
    destruct (H 0%nat 0%nat bx bx _ (le_n _) eq_refl eq_refl eq_refl 0%nat 0%nat ltac:(cbn; lia) ltac:(cbn; lia)) as [H1 _].
    destruct (H 0%nat 1%nat bx yy _ (le_S _ _ (le_n _)) eq_refl eq_refl eq_refl 0%nat 1%nat ltac:(cbn; lia) ltac:(cbn; lia)) as [H2 H3].
    destruct (H 1%nat 1%nat yy yy _ (le_n _) eq_refl eq_refl eq_refl 0%nat 1%nat ltac:(cbn; lia) ltac:(cbn; lia)) as [H4 _].
    cbn in H1, H2, H3, H4. split; [rewrite H1; lra|]. split; [rewrite H2; lra|]. split; [rewrite H3 by lia; lra|]. rewrite H4. lra.
Qed.

(* What is said about failures does not hold.  The Jacobian is taken from Problem::Evaluate
   without looking at what that returns: when it fails, a 0 x 0 matrix is used, and Compute
   returns true with a covariance of zero (sparse QR) or reads the first of no singular values
   (DENSE_SVD). *)
Theorem failed_evaluation_refuted :
  (forall qr svd s, q_ok (qr EIGEN_SPARSE_QR no_jacobian) = true -> exists s', Compute qr svd opts pr (fun _ => None) [] s [(8, 8)]%nat = Done (true, s') /\
     exists M, GetBlock pr s' 8 8 false = Done (Some M) /\ M 0%nat 0%nat = 0) /\
  (forall qr svd s, singular_values (svd (to_dense no_jacobian) 0%nat 0%nat) = [] -> Compute qr svd (mkCOptions DENSE_SVD 1 0) pr (fun _ => None) [] s [(8, 8)]%nat = Undefined).
Proof.
  split; intros qr svd s H.
  - unfold Compute, ComputeValues. cbn [adjacent sort_pairs fold_right insert_pair algorithm opts]. unfold ValuesQR. rewrite H. do 2 eexists; [reflexivity|]. eexists. split; reflexivity.
  - unfold Compute, ComputeValues. cbn [adjacent sort_pairs fold_right insert_pair algorithm]. unfold ValuesSVD. change (m_num_rows no_jacobian) with 0%nat. change (m_num_cols no_jacobian) with 0%nat. rewrite H. reflexivity.
Qed.
Print Assumptions failed_evaluation_refuted.

(* GetCovarianceBlock of a pair that was not asked for need not return false: after (y, y) alone
   (x, x) reads behind the end of the column numbers; after a constant pair alone it goes through
   a null pointer. *)
Theorem not_requested_refuted qr svd s : qr EIGEN_SPARSE_QR jac = qq ->
  (exists s', Compute qr svd opts pr (fun _ => Some jac) [0; 1]%nat s [(3, 3)]%nat = Done (true, s') /\ GetBlock pr s' 8 8 false = Undefined) /\
  (exists s', Compute qr svd opts pr (fun _ => Some jac) [0; 1]%nat s [(5, 8)]%nat = Done (true, s') /\ GetBlock pr s' 8 8 false = Undefined).
Proof.
  intros H. split.
  - unfold Compute, ComputeValues. cbn [adjacent sort_pairs fold_right insert_pair algorithm opts]. unfold ValuesQR. rewrite H. eexists. split; reflexivity.
  - eexists. split; reflexivity.
Qed.
Print Assumptions not_requested_refuted.

(* DENSE_SVD computes only as many singular values as there are rows: with fewer rows than columns
   the rank deficiency is not noticed, and null_space_rank = 1 drops the one that is not zero. *)
Definition jac1 : crs := mkcrs 1 2 [0; 1]%nat [0]%nat [1] Unsymmetric [] [].
Definition svd1 : SVDResult := mkSVD [1] (fun i j => if (i =? j)%nat then 1 else 0).
Theorem thin_refuted svd qr s : svd (to_dense jac1) 1%nat 2%nat = svd1 ->
  decomposes 1 2 (m_matrix jac1) svd1 /\ (~ exists C, inverse_of 2 (information 1 (m_matrix jac1)) C) /\
  (exists s', Compute qr svd (mkCOptions DENSE_SVD (1 / 16) 0) pr (fun _ => Some jac1) [] s [(3, 3)]%nat = Done (true, s')) /\
  (exists s' M, Compute qr svd (mkCOptions DENSE_SVD (1 / 16) 1) pr (fun _ => Some jac1) [] s [(3, 3)]%nat = Done (true, s') /\ GetBlock pr s' 3 3 false = Done (Some M) /\ M 0%nat 0%nat = 0) /\
  (forall C, pseudo_inverse 2 (information 1 (m_matrix jac1)) C -> C 0%nat 0%nat = 1).
Proof.
  intros H. split; [|split; [|split; [|split]]].
  - split; [auto|]. split; [intros [|i] I; cbn in *; try lia; lra|]. split; [intros [|i] [|j] I; cbn in *; try lia; lra|].
    split; [intros [|i] [|j] I J; cbn in *; try lia; lra|]. intros [|[|i]] [|[|j]] I J; cbn in *; try lia; lra.
  - intros [C I]. destruct (I 1%nat 1%nat ltac:(lia) ltac:(lia)) as [I1 _]. cbn in I1. lra.
  - assert (SQ : sqrt (1 / 16) = 1 / 4) by (replace (1 / 16) with ((1 / 4) * (1 / 4)) by lra; apply sqrt_square; lra).
    unfold Compute, ComputeValues. cbn [adjacent sort_pairs fold_right insert_pair algorithm]. unfold ValuesSVD. change (m_num_rows jac1) with 1%nat. change (m_num_cols jac1) with 2%nat. rewrite H.
    cbn [singular_values svd1 length MaxRank null_space_rank min_reciprocal_condition_number]. change (MaxRank _ 1) with 1%nat. cbn [InverseSquares nth]. rewrite SQ. rewrite (proj2 (lt_false (1 / 1) (1 / 4))) by lra. eexists. reflexivity.
  - unfold Compute, ComputeValues. cbn [adjacent sort_pairs fold_right insert_pair algorithm]. unfold ValuesSVD. change (m_num_rows jac1) with 1%nat. change (m_num_cols jac1) with 2%nat. rewrite H.
    cbn [singular_values svd1 length null_space_rank min_reciprocal_condition_number]. change (MaxRank _ 1) with 0%nat. cbn [InverseSquares]. do 2 eexists. split; [reflexivity|]. split; [reflexivity|]. cbn. lra.
  - intros C P. destruct (P 0%nat 0%nat ltac:(lia) ltac:(lia)) as [P1 _]. unfold mul in P1. cbn in P1. lra.
Qed.
Print Assumptions thin_refuted.
