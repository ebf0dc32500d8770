(* C80: block random access matrices. *)
From Coq Require Import Reals List Arith ZArith Bool Lia Lra Permutation.
From Verif Require Import SchurModel SchurSpec SchurProofs13 SchurProps BraModel BraSpec BraProofs BraProofs2 BraProofs3 BraProofs4 BraProofs5.
Import ListNotations.
Close Scope R_scope.
Open Scope nat_scope.

(* Construction succeeds exactly if the numbers of entries are in the range of int. *)
Theorem bra_construct junk k bl : laid_out 0 bl -> ((exists m, build junk k bl = Some m) <-> representable k bl /\ pairs_in_range k bl).
Proof. exact (build_iff junk k bl). Qed.
Print Assumptions bra_construct.

(* The windows.  After any history of operations: for a stored pair of blocks GetCell gives a
   window of at least the blocks' shape, whose addresses are in the values and belong to no
   other entry of this or another window, and whose lock belongs to no other pair; for other
   pairs it gives null. *)
Theorem bra_cells junk k bl m0 os m : laid_out 0 bl -> build junk k bl = Some m0 -> (forall o, In o os -> valid_op bl o) -> run m0 os = Some m ->
  (forall i j, i < length bl -> j < length bl ->
    if stored_in k i j then exists w, GetCell m i j = Some (Some w) /\ row_in w + block_size bl i <= row_stride w /\ col_in w + block_size bl j <= col_stride w
    else GetCell m i j = Some None) /\
  (forall i j w r c, i < length bl -> j < length bl -> GetCell m i j = Some (Some w) -> r < block_size bl i -> c < block_size bl j -> address w r c < length (values m)) /\
  (forall i j w r c i' j' w' r' c', i < length bl -> j < length bl -> i' < length bl -> j' < length bl ->
    GetCell m i j = Some (Some w) -> GetCell m i' j' = Some (Some w') ->
    r < block_size bl i -> c < block_size bl j -> r' < block_size bl i' -> c' < block_size bl j' ->
    address w r c = address w' r' c' -> i = i' /\ j = j' /\ r = r' /\ c = c') /\
  (forall i j w i' j' w', i < length bl -> j < length bl -> i' < length bl -> j' < length bl ->
    GetCell m i j = Some (Some w) -> GetCell m i' j' = Some (Some w') -> lock w = lock w' -> i = i' /\ j = j').
Proof.
  intros L B V R. pose proof (build_good junk k bl m0 L B) as G0. destruct (holds_some k bl m0 G0) as [a Ha]. destruct (run_spec k bl os m0 a G0 Ha V) as [m' [R' [G _]]].
  rewrite R in R'. inversion R'. subst m'. split; [|split; [exact (g_bound _ _ _ G)|split; [exact (g_apart _ _ _ G)|exact (g_locks _ _ _ G)]]].
  intros i j Hi Hj. destruct (stored_in k i j) eqn:S; [exact (g_window _ _ _ G i j Hi Hj S)|exact (g_none _ _ _ G i j Hi Hj S)].
Qed.
Print Assumptions bra_cells.

(* Histories: whatever the blocks held before (a), after any list of operations on existing
   blocks every stored block holds what the operations on it made of it. *)
Theorem bra_history junk k bl m0 os : laid_out 0 bl -> build junk k bl = Some m0 -> (forall o, In o os -> valid_op bl o) ->
  exists a m, holds k bl m0 a /\ run m0 os = Some m /\ holds k bl m (ideal_run k a os).
Proof.
  intros L B V. pose proof (build_good junk k bl m0 L B) as G0. destruct (holds_some k bl m0 G0) as [a Ha]. destruct (run_spec k bl os m0 a G0 Ha V) as [m [R [_ [_ H]]]]. eauto.
Qed.
Print Assumptions bra_history.
(* the same from any later state *)
Theorem bra_history_later junk k bl m0 os m a os' : laid_out 0 bl -> build junk k bl = Some m0 -> (forall o, In o os -> valid_op bl o) -> run m0 os = Some m -> holds k bl m a ->
  (forall o, In o os' -> valid_op bl o) -> exists m', run m os' = Some m' /\ holds k bl m' (ideal_run k a os').
Proof.
  intros L B V R H V'. pose proof (build_good junk k bl m0 L B) as G0. destruct (holds_some k bl m0 G0) as [a0 Ha]. destruct (run_spec k bl os m0 a0 G0 Ha V) as [m1 [R' [G _]]].
  rewrite R in R'. inversion R'. subst m1. destruct (run_spec k bl os' m a G H V') as [m' [R1 [_ [_ H1]]]]. eauto.
Qed.
Print Assumptions bra_history_later.

(* Tail: the last n blocks, laid out from 0. *)
Theorem bra_tail bl n t : Tail bl n = Some t -> n <= length bl /\ laid_out 0 t /\ map size t = map size (skipn (length bl - n) bl).
Proof. exact (tail_spec bl n t). Qed.
Print Assumptions bra_tail.

(* Schur elimination into any of the three classes, under every interleaving of the threads'
   updates, from whatever the matrix held before: the stored blocks on and above the diagonal
   are those of the Schur complement. *)
Theorem bra_eliminate junk k invert nelim full bs vals st b D want us bl m0 : inverts invert -> well_formed nelim bs -> Init nelim full bs = Some st -> (want = true -> b <> None) ->
  updates_of invert st bs vals b D want us -> Tail (cols bs) (num_cols bs - nelim) = Some bl -> build junk k bl = Some m0 ->
  exists m, run m0 (lhs_ops us) = Some m /\
    forall f1 f2 r c, f1 <= f2 -> f2 < length bl -> r < block_size bl f1 -> c < block_size bl f2 -> stored_in k f1 f2 = true ->
      cell_entry m f1 f2 r c = Some (schur invert full nelim bs vals D (nelim + f1) r (nelim + f2) c).
Proof.
  intros Inv W E Hw U T B. pose proof (wf_nelim _ _ W) as Wn. pose proof (tail_f_blocks nelim bs bl ltac:(lia) T) as F.
  destruct (eliminate_storage junk k invert nelim full bs vals st b D want us bl m0 Inv W E Hw U F B) as [m [R1 [_ [_ [H1 H2]]]]].
  exists m. split; [exact R1|]. intros f1 f2 r c H12 Hf Hr Hc S. rewrite (H1 f1 f2 r c ltac:(lia) Hf Hr Hc S). f_equal. apply H2; assumption.
Qed.
Print Assumptions bra_eliminate.

(* SymmetricRightMultiplyAndAccumulate: y + S x for the symmetric S whose blocks on and above
   the diagonal are stored; nothing else of y changes. *)
Theorem bra_symmetric_multiply junk bl ps m0 os m a x y : laid_out 0 bl -> NewSparse junk bl ps = Some m0 -> (forall i j, In (i, j) ps -> i <= j) ->
  (forall o, In o os -> valid_op bl o) -> run m0 os = Some m -> holds (KSparse ps) bl m a ->
  exists y', SymmetricRightMultiplyAndAccumulate m x y = Some y' /\
    (forall i r, i < length bl -> r < block_size bl i ->
      y' (block_position bl i + r) = (y (block_position bl i + r)%nat + block_product bl (symmetric_entry (KSparse ps) a) x i r)%R) /\
    (forall p, (forall i, i < length bl -> p < block_position bl i \/ block_position bl i + block_size bl i <= p) -> y' p = y p).
Proof.
  intros L B U V R H. pose proof (build_good junk (KSparse ps) bl m0 L B) as G0. destruct (holds_some (KSparse ps) bl m0 G0) as [a0 Ha]. destruct (run_spec _ bl os m0 a0 G0 Ha V) as [m1 [R' [G [Es _]]]].
  rewrite R in R'. inversion R'. subst m1. destruct (symmetric_multiply bl ps m a x y L G (sparse_of_storage _ _ _ _ (sparse_of_new _ _ _ _ B) Es) H U) as [y' [Y1 [Y2 Y3]]].
  exists y'. split; [exact Y1|]. split; [exact Y2|]. intros p Hp. apply Y3. destruct (le_lt_dec (total bl) p) as [X|X]; [exact X|]. exfalso.
  assert (Q : forall bl' s, laid_out s bl' -> s <= p < s + total bl' -> exists i, i < length bl' /\ position (nth i bl' (mkBlock 0 0)) <= p < position (nth i bl' (mkBlock 0 0)) + size (nth i bl' (mkBlock 0 0))).
  { clear. induction bl' as [|b bl' IH]; intros s L Hp; [unfold total in Hp; cbn in Hp; lia|]. destruct L as [L1 L2]. destruct (le_lt_dec (s + size b) p) as [Y|Y].
    - destruct (IH (s + size b) L2) as [i [Hi Z]]; [unfold total in *; cbn in Hp; lia|]. exists (S i). cbn. split; [lia|exact Z].
    - exists 0. cbn. rewrite L1. lia. }
  destruct (Q bl 0 L ltac:(lia)) as [i [Hi Z]]. specialize (Hp i Hi). unfold block_position, block_size in Hp. lia.
Qed.
Print Assumptions bra_symmetric_multiply.

(* Invert and RightMultiplyAndAccumulate, each in any order of the blocks: what is added to y
   solves with every diagonal block that is positive definite (as given by its upper
   triangle). *)
Theorem bra_invert_multiply llt bl m0 os m a order order' x y : cholesky llt -> laid_out 0 bl -> NewDiagonal bl = Some m0 ->
  (forall o, In o os -> valid_op bl o) -> run m0 os = Some m -> holds KDiagonal bl m a ->
  Permutation order (seq 0 (length bl)) -> Permutation order' (seq 0 (length bl)) ->
  exists m' y', Invert llt m order = Some m' /\ RightMultiplyAndAccumulate m' order' x y = Some y' /\
    forall i, i < length bl -> definite (block_size bl i) (from_upper (a i i)) ->
      forall r, r < block_size bl i -> sumn (block_size bl i) (fun c => from_upper (a i i) r c * (y' (block_position bl i + c)%nat - y (block_position bl i + c)%nat))%R = x (block_position bl i + r).
Proof.
  intros Ch L B V R H P P'. pose proof (build_good (fun _ => 0%R) KDiagonal bl m0 L B) as G0. destruct (holds_some KDiagonal bl m0 G0) as [a0 Ha]. destruct (run_spec _ bl os m0 a0 G0 Ha V) as [m1 [R' [G [Es _]]]].
  rewrite R in R'. inversion R'. subst m1.
  assert (Dg : diagonal_of m) by (destruct (diagonal_of_new _ _ B) as [ra [ca [lay X]]]; exists ra, ca, lay; congruence).
  destruct (invert_multiply llt bl m a order order' x y Ch L G Dg H P P') as [m' [y' [A [C [_ D]]]]]. exists m', y'. auto.
Qed.
Print Assumptions bra_invert_multiply.

(* SCHUR_JACOBI: eliminate into a block diagonal matrix, invert, multiply. *)
Theorem bra_schur_jacobi invert llt nelim full bs vals st b D want us pre0 order order' x y : inverts invert -> cholesky llt -> well_formed nelim bs -> Init nelim full bs = Some st ->
  (full = true -> full_rank bs vals D nelim) -> (want = true -> b <> None) -> updates_of invert st bs vals b D want us ->
  NewSchurJacobi nelim bs = Some pre0 ->
  let bl := blocks pre0 in let block i := fun r c => schur invert full nelim bs vals D (nelim + i) r (nelim + i) c in
  Permutation order (seq 0 (length bl)) -> Permutation order' (seq 0 (length bl)) ->
  f_blocks nelim bs bl /\
  exists m m' y', run pre0 (lhs_ops us) = Some m /\ Invert llt m order = Some m' /\ RightMultiplyAndAccumulate m' order' x y = Some y' /\
    forall i, i < length bl -> definite (block_size bl i) (block i) ->
      forall r, r < block_size bl i -> sumn (block_size bl i) (fun c => block i r c * (y' (block_position bl i + c)%nat - y (block_position bl i + c)%nat))%R = x (block_position bl i + r).
Proof.
  intros Inv Ch W E FR Hw U N bl block P P'. unfold NewSchurJacobi in N. destruct (_ && _) in N; [|discriminate].
  assert (Eb : bl = rebase 0 (skipn nelim (cols bs))) by (destruct (diagonal_shape _ _ N) as [n [_ Em]]; unfold bl; rewrite Em; reflexivity).
  assert (F : f_blocks nelim bs bl) by (rewrite Eb; split; [apply rebase_laid|apply rebase_sizes]). split; [exact F|].
  rewrite <- Eb in N. exact (schur_jacobi invert llt nelim full bs vals st b D want us bl Inv Ch W E FR Hw U F pre0 order order' x y N P P').
Qed.
Print Assumptions bra_schur_jacobi.

(* ITERATIVE_SCHUR with an explicit Schur complement: what SparseSchurComplementSolver stores
   multiplies by the whole Schur complement, and the preconditioner taken from its diagonal
   blocks solves with them. *)
Theorem bra_explicit_schur junk invert llt nelim full bs vals st b D want us bl ps sc0 pre0 : inverts invert -> cholesky llt -> well_formed nelim bs -> Init nelim full bs = Some st ->
  (full = true -> full_rank bs vals D nelim) -> (want = true -> b <> None) -> updates_of invert st bs vals b D want us ->
  Tail (cols bs) (num_cols bs - nelim) = Some bl -> block_pairs nelim bs = Some ps -> NewSparse junk bl ps = Some sc0 -> NewDiagonal bl = Some pre0 ->
  let complement i r j c := schur invert full nelim bs vals D (nelim + i) r (nelim + j) c in
  exists sc pre, run sc0 (lhs_ops us) = Some sc /\ extract_diagonal sc pre0 bl 0 = Some pre /\
    (forall x y, exists y', SymmetricRightMultiplyAndAccumulate sc x y = Some y' /\
      forall i r, i < length bl -> r < block_size bl i -> y' (block_position bl i + r) = (y (block_position bl i + r)%nat + block_product bl complement x i r)%R) /\
    forall order order' x y, Permutation order (seq 0 (length bl)) -> Permutation order' (seq 0 (length bl)) ->
      exists m' y', Invert llt pre order = Some m' /\ RightMultiplyAndAccumulate m' order' x y = Some y' /\
        forall i, i < length bl -> definite (block_size bl i) (fun r c => complement i r i c) ->
          forall r, r < block_size bl i -> sumn (block_size bl i) (fun c => complement i r i c * (y' (block_position bl i + c)%nat - y (block_position bl i + c)%nat))%R = x (block_position bl i + r).
Proof.
  intros Inv Ch W E FR Hw U T Ep Ns Nd complement. pose proof (wf_nelim _ _ W) as Wn.
  exact (explicit_schur invert llt nelim full bs vals st b D want us bl Inv Ch W E FR Hw U (tail_f_blocks nelim bs bl ltac:(lia) T) junk ps sc0 pre0 Ep Ns Nd).
Qed.
Print Assumptions bra_explicit_schur.

(* The hypotheses on the factorisation can be met. *)
Theorem bra_cholesky_exists : cholesky ginv.
Proof. exact cholesky_exists. Qed.
Print Assumptions bra_cholesky_exists.

(* A dense matrix of 46341 rows, which is a legal size, is not constructed: num_rows_ *
   num_rows_ is not in the range of int (undefined behaviour). *)
Theorem bra_overflow_refuted : exists bl, laid_out 0 bl /\ Z.of_nat (NumScalarEntries bl) = 46341%Z /\ NewDense bl = None.
Proof.
  exists [mkBlock (Z.to_nat 46341) 0]. split; [cbn; auto|]. assert (E : Z.of_nat (NumScalarEntries [mkBlock (Z.to_nat 46341) 0]) = 46341%Z).
  { unfold NumScalarEntries. cbn [rev app position size]. rewrite Nat.add_0_l. apply Z2Nat.id. lia. }
  split; [exact E|]. unfold NewDense. rewrite E. reflexivity.
Qed.
Print Assumptions bra_overflow_refuted.

(* ------------------------------------------------------------------ examples *)
Definition ex_blocks : list Block := [mkBlock 1 0; mkBlock 2 1; mkBlock 1 3].
Definition ex_pairs : list (nat * nat) := [(2, 2); (0, 1); (0, 0); (1, 1); (0, 1)].
Definition ex_history : list op :=
  [Clear; Add 0 1 1 2 (fun _ c => INR c); Add 1 2 2 1 (fun _ _ => 7%R); Assign 1 1 2 2 (fun r c => if r =? c then 2%R else 0%R); Add 0 1 1 2 (fun _ _ => 1%R)].
Example bra_instance :
  laid_out 0 ex_blocks /\ (forall o, In o ex_history -> valid_op ex_blocks o) /\
  exists m0 m, NewSparse (fun _ => 5%R) ex_blocks ex_pairs = Some m0 /\ run m0 ex_history = Some m /\
    length (values m) = 8 /\ GetCell m 1 2 = Some None /\ GetCell m 0 1 = Some (Some (mkWindow 1 1 0 0 1 2)) /\
    cell_entry m 0 1 0 1 = Some (0 + INR 1 + 1)%R /\ cell_entry m 1 1 1 1 = Some 2%R /\ cell_entry m 2 2 0 0 = Some 0%R.
Proof.
  split; [cbn; auto|]. split; [intros o H; cbn in H; decompose [or] H; subst; cbn; try exact I; try lia; contradiction|].
  eexists. eexists. split; [reflexivity|]. split; [reflexivity|]. repeat (split; [reflexivity|]). reflexivity.
Qed.
Example bra_dense_instance : exists m, NewDense ex_blocks = Some m /\ length (values m) = 16 /\
  GetCell m 1 2 = Some (Some (mkWindow 5 0 1 3 4 4)) /\ address (mkWindow 5 0 1 3 4 4) 1 0 = 11.
Proof. eexists. split; [reflexivity|]. auto. Qed.
Example bra_schur_instance : exists st us bl ps sc0 pre0,
  inverts (fun _ => ginv) /\ well_formed 2 ex_bs /\ full_rank ex_bs ex_values None 2 /\ Init 2 true ex_bs = Some st /\
  updates_of (fun _ => ginv) st ex_bs ex_values (Some ex_b) None true us /\ Tail (cols ex_bs) (num_cols ex_bs - 2) = Some bl /\
  block_pairs 2 ex_bs = Some ps /\ NewSparse (fun _ => 5%R) bl ps = Some sc0 /\ NewDiagonal bl = Some pre0 /\ NewSchurJacobi 2 ex_bs = Some pre0 /\ bl = [mkBlock 1 0].
Proof.
  destruct (updates_exist (fun _ => ginv) (fun _ _ => true) 2 true ex_bs ex_values None (Some ex_b) true schur_inverse_exists ex_well_formed ltac:(discriminate)) as [st [us [E [U _]]]].
  exists st, us. do 4 eexists. split; [exact schur_inverse_exists|]. split; [exact ex_well_formed|]. split; [exact ex_full_rank|]. split; [exact E|]. split; [exact U|].
  split; [reflexivity|]. split; [vm_compute; reflexivity|]. split; [vm_compute; reflexivity|]. split; [reflexivity|]. split; reflexivity.
Qed.
