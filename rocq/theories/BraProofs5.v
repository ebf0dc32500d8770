(* C80: the Schur complement in its storage; Tail; the Cholesky oracle exists *)
From Coq Require Import Reals List Arith ZArith Bool Lia Lra Permutation.
From Verif Require Import SchurModel SchurSpec SchurProofs SchurProofs6 SchurProofs9 SchurProofs13 SchurProps BraModel BraSpec BraProofs BraProofs2 BraProofs3 BraProofs4.
Import ListNotations.
Close Scope R_scope.
Open Scope nat_scope.

Lemma rebase_laid bl : forall p, laid_out p (rebase p bl).
Proof. induction bl as [|b bl IH]; intros p; cbn; auto. Qed.
Lemma rebase_sizes bl : forall p, map size (rebase p bl) = map size bl.
Proof. induction bl as [|b bl IH]; intros p; cbn; [reflexivity|]. rewrite IH. reflexivity. Qed.
Lemma tail_spec bl n t : Tail bl n = Some t -> n <= length bl /\ laid_out 0 t /\ map size t = map size (skipn (length bl - n) bl).
Proof. unfold Tail. destruct (n <=? length bl) eqn:E; [|discriminate]. intros H. inversion H. apply Nat.leb_le in E. split; [exact E|]. split; [apply rebase_laid|apply rebase_sizes]. Qed.
Lemma tail_f_blocks nelim bs bl : nelim <= num_cols bs -> Tail (cols bs) (num_cols bs - nelim) = Some bl -> f_blocks nelim bs bl.
Proof. intros Hn H. apply tail_spec in H as [_ [L M]]. split; [exact L|]. rewrite M. f_equal. f_equal. unfold num_cols in *. lia. Qed.

(* ------------------------------------------------------------------ a Cholesky solver exists *)
Lemma form_zero n m v : (forall i, i < n -> sumn n (fun j => m i j * v j)%R = 0%R) -> form n m v = 0%R.
Proof.
  intros H. unfold form. apply sumn_zero. intros i Hi. rewrite (sumn_ext n _ (fun j => v i * (m i j * v j))%R) by (intros; ring).
  rewrite sumn_scal, (H i Hi). ring.
Qed.
Theorem cholesky_exists : cholesky ginv.
Proof.
  constructor; [intros n A B H r c Hr Hc; exact (ginv_ext n A B H r c Hr Hc)|].
  intros n A Sy De r c Hr Hc.
  assert (Se : semidefinite n A).
  { intros v. destruct (Req_dec (form n A v) 0) as [E|E]; [lra|].
    assert (X : exists i, i < n /\ v i <> 0%R); [|left; exact (De v X)].
    assert (Y : forall k, (exists i, i < k /\ v i <> 0%R) \/ forall i, i < k -> v i = 0%R).
    { induction k as [|k [[i [Hi N]]|Z]]; [right; intros; lia|left; exists i; split; [lia|exact N]|].
      destruct (Req_dec (v k) 0) as [Ek|Ek]; [right; intros i Hi; destruct (Nat.eq_dec i k) as [->|]; [exact Ek|apply Z; lia]|left; exists k; split; [lia|exact Ek]]. }
    destruct (Y n) as [X|X]; [exact X|]. exfalso. apply E. apply form_zero. intros i Hi. apply sumn_zero. intros j Hj. rewrite (X j Hj). ring. }
  pose proof (ginv_inverse n A Sy Se) as G. pose proof (ginv_sym n A Sy) as Gs.
  (* the column r of W A - I *)
  pose (v := fun k => (sumn n (fun c => ginv n A k c * A c r) - (if k =? r then 1 else 0))%R).
  assert (Z : forall i, i < n -> sumn n (fun k => A i k * v k)%R = 0%R).
  { intros i Hi. unfold v. rewrite (sumn_ext n _ (fun k => sumn n (fun c => A i k * ginv n A k c * A c r) + -1 * (A i k * (if k =? r then 1 else 0)))%R).
    - rewrite sumn_plus, (G i r Hi Hr), sumn_scal, (sumn_single n _ r Hr); [rewrite Nat.eqb_refl; ring|]. intros k _ Hk. replace (k =? r) with false by (symmetry; apply Nat.eqb_neq; congruence). ring.
    - intros k _. replace (sumn n (fun c0 => A i k * ginv n A k c0 * A c0 r)%R) with (A i k * sumn n (fun c0 => ginv n A k c0 * A c0 r))%R; [ring|].
      rewrite <- sumn_scal. apply sumn_ext. intros; ring. }
  assert (V : v c = 0%R).
  { destruct (Req_dec (v c) 0) as [E|E]; [exact E|]. exfalso. pose proof (De v (ex_intro _ c (conj Hc E))) as P. rewrite (form_zero n A v Z) in P. lra. }
  unfold v in V. rewrite (sumn_ext n _ (fun k => ginv n A c k * A k r)%R).
  - rewrite (Nat.eqb_sym r c). lra.
  - intros k Hk. rewrite (Gs k c Hk Hc), (Sy r k Hr Hk). ring.
Qed.

(* ------------------------------------------------------------------ the solver's use *)
Lemma definite_ext n A B : (forall i j, i < n -> j < n -> A i j = B i j) -> definite n A -> definite n B.
Proof.
  intros H D v X. replace (form n B v) with (form n A v); [exact (D v X)|]. unfold form. apply sumn_ext. intros i Hi. apply sumn_ext. intros j Hj. rewrite H by assumption. reflexivity.
Qed.
Lemma holds_ext k bl m a a' : holds k bl m a ->
  (forall i j r c, i < length bl -> j < length bl -> r < block_size bl i -> c < block_size bl j -> stored_in k i j = true -> a i j r c = a' i j r c) -> holds k bl m a'.
Proof. intros H E i j r c Hi Hj Hr Hc S. rewrite (H i j r c Hi Hj Hr Hc S), (E i j r c Hi Hj Hr Hc S). reflexivity. Qed.
Lemma updates_exist invert stored nelim full bs vals D b want : inverts invert -> well_formed nelim bs -> (want = true -> b <> None) ->
  exists st us, Init nelim full bs = Some st /\ updates_of invert st bs vals b D want us /\
    Eliminate invert stored st bs vals b D want (apply_all stored us (mkSystem (fun _ _ _ _ => 0%R) (fun _ => 0%R))).
Proof.
  intros Inv W Hw. destruct (schur_complement_exact invert nelim full bs vals D stored b want Inv W Hw) as [st [E [[res El] _]]].
  exists st. destruct El as [pc [order [tl' [E1 [Ho [E2 _]]]]]]. exists (AddDiagonal st bs D ++ order ++ tl'). split; [exact E|]. split; exists pc, order, tl'; auto.
Qed.
Lemma sym_from_upper n (A : matrix) : symmetric n A -> forall r c, r < n -> c < n -> from_upper A r c = A r c.
Proof. intros H r c Hr Hc. unfold from_upper. destruct (r <=? c); [reflexivity|apply H; assumption]. Qed.

Section Solver.
Variables (invert : bool -> nat -> matrix -> matrix) (llt : nat -> matrix -> matrix) (nelim : nat) (full : bool) (bs : Structure) (vals : nat -> R)
  (st : Eliminator) (b D : option (nat -> R)) (want : bool) (us : list Update) (bl : list Block).
Hypothesis Inv : inverts invert.
Hypothesis Ch : cholesky llt.
Hypothesis W : well_formed nelim bs.
Hypothesis E : Init nelim full bs = Some st.
Hypothesis FR : full = true -> full_rank bs vals D nelim.
Hypothesis Hw : want = true -> b <> None.
Hypothesis U : updates_of invert st bs vals b D want us.
Hypothesis F : f_blocks nelim bs bl.
Let SC (i r j c : nat) : R := schur invert full nelim bs vals D (nelim + i) r (nelim + j) c.
Let SCd (i : nat) : matrix := fun r c => SC i r i c.

Lemma sc_sym i r j c : SC i r j c = SC j c i r.
Proof.
  destruct (init_unique nelim full bs st W E) as [gs [tail [z Ini]]]. pose proof (wf_nelim _ _ W).
  exact (schur_sym invert nelim full bs vals (fun _ => 0%R) D st gs tail z Inv ltac:(lia) Ini FR i r j c).
Qed.
Lemma solves_with_diagonal m order order' x y : good KDiagonal bl m -> diagonal_of m -> holds KDiagonal bl m (fun i j r c => SC i r j c) ->
  Permutation order (seq 0 (length bl)) -> Permutation order' (seq 0 (length bl)) ->
  exists m' y', Invert llt m order = Some m' /\ RightMultiplyAndAccumulate m' order' x y = Some y' /\
    forall i, i < length bl -> definite (block_size bl i) (SCd i) ->
      forall r, r < block_size bl i -> sumn (block_size bl i) (fun c => SCd i r c * (y' (block_position bl i + c)%nat - y (block_position bl i + c)%nat))%R = x (block_position bl i + r).
Proof.
  intros G Dg H P P'. destruct (invert_multiply llt bl m _ order order' x y Ch (proj1 F) G Dg H P P') as [m' [y' [A [B [_ C]]]]]. exists m', y'. split; [exact A|]. split; [exact B|].
  intros i Hi De r Hr. assert (Sy : symmetric (block_size bl i) (SCd i)) by (intros r' c' _ _; apply sc_sym).
  rewrite <- (C i Hi (definite_ext _ _ _ (fun r' c' Hr' Hc' => eq_sym (sym_from_upper _ _ Sy r' c' Hr' Hc')) De) r Hr).
  apply sumn_ext. intros c Hc. rewrite <- (sym_from_upper _ _ Sy r c Hr Hc). reflexivity.
Qed.
Lemma eliminated junk k m0 : build junk k bl = Some m0 -> (forall i j, stored_in k i j = true -> i <= j) ->
  exists m, run m0 (lhs_ops us) = Some m /\ good k bl m /\ storage m = storage m0 /\ holds k bl m (fun i j r c => SC i r j c).
Proof.
  intros B Up. destruct (eliminate_storage junk k invert nelim full bs vals st b D want us bl m0 Inv W E Hw U F B) as [m [R1 [G [Es [H1 H2]]]]].
  exists m. split; [exact R1|]. split; [exact G|]. split; [exact Es|]. apply (holds_ext _ _ _ _ _ H1). intros i j r c Hi Hj Hr Hc S. exact (H2 i j r c (Up i j S) Hj Hr Hc S).
Qed.
Theorem schur_jacobi pre0 order order' x y : NewDiagonal bl = Some pre0 ->
  Permutation order (seq 0 (length bl)) -> Permutation order' (seq 0 (length bl)) ->
  exists m m' y', run pre0 (lhs_ops us) = Some m /\ Invert llt m order = Some m' /\ RightMultiplyAndAccumulate m' order' x y = Some y' /\
    forall i, i < length bl -> definite (block_size bl i) (SCd i) ->
      forall r, r < block_size bl i -> sumn (block_size bl i) (fun c => SCd i r c * (y' (block_position bl i + c)%nat - y (block_position bl i + c)%nat))%R = x (block_position bl i + r).
Proof.
  intros N P P'. destruct (eliminated (fun _ => 0%R) KDiagonal pre0 N ltac:(intros i j S; cbn in S; apply Nat.eqb_eq in S; lia)) as [m [R1 [G [Es H]]]].
  assert (Dg : diagonal_of m) by (destruct (diagonal_of_new _ _ N) as [ra [ca [lay X]]]; exists ra, ca, lay; congruence).
  destruct (solves_with_diagonal m order order' x y G Dg H P P') as [m' [y' X]]. exists m, m', y'. split; [exact R1|]. exact X.
Qed.
Theorem explicit_schur junk ps sc0 pre0 : block_pairs nelim bs = Some ps -> NewSparse junk bl ps = Some sc0 -> NewDiagonal bl = Some pre0 ->
  exists sc pre, run sc0 (lhs_ops us) = Some sc /\ extract_diagonal sc pre0 bl 0 = Some pre /\
    (forall x y, exists y', SymmetricRightMultiplyAndAccumulate sc x y = Some y' /\
      forall i r, i < length bl -> r < block_size bl i -> y' (block_position bl i + r) = (y (block_position bl i + r)%nat + block_product bl SC x i r)%R) /\
    forall order order' x y, Permutation order (seq 0 (length bl)) -> Permutation order' (seq 0 (length bl)) ->
      exists m' y', Invert llt pre order = Some m' /\ RightMultiplyAndAccumulate m' order' x y = Some y' /\
        forall i, i < length bl -> definite (block_size bl i) (SCd i) ->
          forall r, r < block_size bl i -> sumn (block_size bl i) (fun c => SCd i r c * (y' (block_position bl i + c)%nat - y (block_position bl i + c)%nat))%R = x (block_position bl i + r).
Proof.
  intros Ep Ns Nd. destruct (schur_sparse_storage nelim bs W) as [ps' [Ep' [Up Zero]]]. rewrite Ep in Ep'. inversion Ep'. subst ps'.
  pose proof (wf_nelim _ _ W) as Wn. destruct (f_blocks_spec nelim bs bl ltac:(lia) F) as [Le Bs].
  destruct (eliminated junk (KSparse ps) sc0 Ns) as [sc [R1 [G [Es H]]]]. { intros i j S. apply stored_in_iff in S. exact (proj1 (Up i j S)). }
  pose proof (build_good (fun _ => 0%R) KDiagonal bl pre0 (proj1 F) Nd) as Gp. destruct (holds_some KDiagonal bl pre0 Gp) as [a' Ha'].
  assert (Di : forall i, i < length bl -> stored_in (KSparse ps) i i = true).
  { intros i Hi. apply stored_in_iff. unfold block_pairs in Ep. destruct (all_pairs _ _ _) as [ps0|]; [|discriminate]. inversion Ep. apply in_or_app. left. apply in_map_iff. exists i. split; [reflexivity|]. apply in_seq. unfold num_cols in *. lia. }
  destruct (extract_spec (KSparse ps) bl sc _ bl 0 pre0 a' G H Di Gp Ha' eq_refl) as [pre [X1 [X2 [X3 X4]]]].
  exists sc, pre. split; [exact R1|]. split; [exact X1|]. split.
  - intros x y. pose proof (sparse_of_storage bl ps sc0 sc (sparse_of_new _ _ _ _ Ns) Es) as Sp.
    destruct (symmetric_multiply bl ps sc _ x y (proj1 F) G Sp H (fun i j I => proj1 (Up i j I))) as [y' [Y1 [Y2 _]]]. exists y'. split; [exact Y1|].
    intros i r Hi Hr. rewrite (Y2 i r Hi Hr). f_equal. unfold block_product. apply sumn_ext. intros j Hj. apply sumn_ext. intros c Hc. f_equal. unfold symmetric_entry.
    destruct (Nat.leb_spec i j) as [Hij|Hij].
    + destruct (stored_in (KSparse ps) i j) eqn:S; [reflexivity|]. symmetry. apply (Zero invert full vals D i j Hij ltac:(lia) S).
    + destruct (stored_in (KSparse ps) j i) eqn:S; [symmetry; apply sc_sym|]. rewrite sc_sym. symmetry. apply (Zero invert full vals D j i ltac:(lia) ltac:(lia) S).
  - intros order order' x y P P'. apply solves_with_diagonal; [exact X2| |exact X4|exact P|exact P'].
    destruct (diagonal_of_new _ _ Nd) as [ra [ca [lay X]]]; exists ra, ca, lay; congruence.
Qed.
End Solver.
