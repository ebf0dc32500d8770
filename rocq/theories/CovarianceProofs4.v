(* C65: GetCovarianceBlock *)
From Coq Require Import Reals ZArith List Arith Bool Lia Lra Permutation Sorted.
From Verif Require Import SchurModel SchurProofs CGModel CGSpec SparseModel SparseSpec SparseProofs CovarianceModel ImplicitSchurSpec CovarianceSpec CovarianceProofs CovarianceProofs2 CovarianceProofs3.
Import ListNotations.
Open Scope R_scope.

Lemma plus_is b : match p_plus b with Some j => j | None => identity_matrix end = plus_jacobian b.
Proof. unfold plus_jacobian, identity_matrix. destruct (p_plus b); auto. Qed.
Lemma sandwich_lift n1 n2 (A C B : matrix) x y : sandwich n1 n2 A C B x y = sumn n1 (fun u => sumn n2 (fun v => A x u * C u v * B y v)).
Proof. unfold sandwich. rewrite sumn_swap. apply sumn_ext. intros l _. rewrite sumn_scal_r. auto. Qed.
Lemma identity_lift n1 n2 C b c x y : p_plus b = None -> p_plus c = None -> (x < n1)%nat -> (y < n2)%nat ->
  sumn n1 (fun u => sumn n2 (fun v => plus_jacobian b x u * C u v * plus_jacobian c y v)) = C x y.
Proof.
  intros Eb Ec X Y. unfold plus_jacobian. rewrite Eb, Ec. rewrite (sumn_single n1 _ x X).
  - rewrite (sumn_single n2 _ y Y); [rewrite !Nat.eqb_refl; ring|]. intros j _ D. rewrite (proj2 (Nat.eqb_neq y j)) by auto. ring.
  - intros j _ D. apply sumn_zero. intros. rewrite (proj2 (Nat.eqb_neq x j)) by auto. ring.
Qed.

Section Get.
Variables (p : CProblem) (pairs : list (nat * nat)) (L : list (nat * nat)) (m : crs).
Hypothesis P : proper p.
Notation act := (active_blocks p).
Notation ri := (RowIndex p 0 act).
Notation N := (num_rows_of p act).
Notation tan := (tangent_of p).
Hypothesis L1 : forall x, In x L -> In (fst x) act /\ In (snd x) act /\ (fst x <= snd x)%nat /\ requested pairs (fst x) (snd x).
Hypothesis L2 : forall a b, In a act -> In b act -> (a <= b)%nat -> requested pairs a b -> In (a, b) L.
Hypothesis PT : pattern p L m.
Variables (f : matrix) (order : list nat).
Hypothesis F1 : forall r, In r order -> (r < N)%nat.
Hypothesis F2 : forall r, (r < N)%nat -> row_at m (S r) <> row_at m r -> In r order.
Notation st := (after p m f order).
Notation stor := (stored p L m f order).

(* the result for a <= c *)
Definition lifted (lift : bool) (b1 b2 : PBlock) (C : matrix) : matrix :=
  match p_plus b1, p_plus b2, lift with
  | None, None, _ | _, _, false => C
  | _, _, true => sandwich (p_tangent b1) (p_tangent b2) (plus_jacobian b1) C (plus_jacobian b2)
  end.
Lemma row_size i a : nth_error act i = Some a -> (row_at (Assign m f order) (S (start tan act i)) - row_at (Assign m f order) (start tan act i))%nat = length (of_row p ri L a).
Proof.
  intros H. generalize (start_bound p i a H) (act_pos p P a (nth_error_In _ _ H)). intros B T. change (row_at (Assign m f order)) with (row_at m).
  rewrite !(pt_at p L m PT) by lia. rewrite concat_firstn_S by (rewrite rl_length; lia). generalize (row_of p L i a 0 H T). rewrite Nat.add_0_r. intros ->. lia.
Qed.
Lemma same_plus (b1 b2 : PBlock) : find_block p (pointer b1) = Some b1 -> find_block p (pointer b2) = Some b2 -> (if (pointer b1 =? pointer b2)%nat then plus_jacobian b1 else plus_jacobian b2) = plus_jacobian b2.
Proof. intros A B. destruct (Nat.eqb_spec (pointer b1) (pointer b2)) as [E|]; [|auto]. rewrite E in A. congruence. Qed.
Lemma get_ordered i j b1 b2 lift : In b1 (p_blocks p) -> In b2 (p_blocks p) -> nth_error act i = Some (pointer b1) -> nth_error act j = Some (pointer b2) -> (pointer b1 <= pointer b2)%nat -> requested pairs (pointer b1) (pointer b2) ->
  GetBlock p st (pointer b1) (pointer b2) lift = Done (Some (lifted lift b1 b2 (stor i j (pointer b1) (pointer b2)))).
Proof.
  intros I1 I2 H1 H2 O R. unfold GetBlock. cbn [is_computed is_valid constants row_index covariance_matrix after negb].
  rewrite (not_constant p P i _ H1), (not_constant p P j _ H2). cbn [orb]. rewrite (proj2 (Nat.ltb_ge _ _)) by lia. cbn zeta.
  rewrite (proj1 (index_start p P i _ H1)), (proj1 (index_start p P j _ H2)). rewrite (walk_read p L m P PT f order i _ _ H1), (row_size i _ H1).
  destruct (stored_block p pairs L m P L1 L2 PT f order F1 F2 i j _ _ H1 H2 O R) as [Q _]. unfold offset_of in Q. rewrite (proj2 (index_start p P j _ H2)) in Q.
  rewrite (proj2 (Nat.ltb_lt _ _) Q). rewrite (proj2 (Nat.eqb_neq _ _)) by lia. rewrite !find_block_spec by auto.
  unfold lifted, stored, offset_of. rewrite (proj2 (index_start p P j _ H2)), !plus_is, same_plus by (now apply find_block_spec).
  destruct (p_plus b1), (p_plus b2), lift; reflexivity.
Qed.
Lemma get_flipped i j b1 b2 lift : In b1 (p_blocks p) -> In b2 (p_blocks p) -> nth_error act i = Some (pointer b1) -> nth_error act j = Some (pointer b2) -> (pointer b1 < pointer b2)%nat -> requested pairs (pointer b1) (pointer b2) ->
  GetBlock p st (pointer b2) (pointer b1) lift = Done (Some (lifted lift b2 b1 (transposed_matrix (stor i j (pointer b1) (pointer b2))))).
Proof.
  intros I1 I2 H1 H2 O R. unfold GetBlock. cbn [is_computed is_valid constants row_index covariance_matrix after negb].
  rewrite (not_constant p P i _ H1), (not_constant p P j _ H2). cbn [orb]. rewrite (proj2 (Nat.ltb_lt _ _) O). cbn zeta.
  rewrite (proj1 (index_start p P i _ H1)), (proj1 (index_start p P j _ H2)). rewrite (walk_read p L m P PT f order i _ _ H1), (row_size i _ H1).
  destruct (stored_block p pairs L m P L1 L2 PT f order F1 F2 i j _ _ H1 H2) as [Q _]; [lia|auto|]. unfold offset_of in Q. rewrite (proj2 (index_start p P j _ H2)) in Q.
  rewrite (proj2 (Nat.ltb_lt _ _) Q). rewrite (proj2 (Nat.eqb_neq _ _)) by lia. rewrite !find_block_spec by auto.
  unfold lifted, stored, offset_of. rewrite (proj2 (index_start p P j _ H2)), !plus_is, same_plus by (now apply find_block_spec).
  destruct (p_plus b1), (p_plus b2), lift; reflexivity.
Qed.
(* a pair that was not asked for *)
Lemma get_absent i j a c lift : nth_error act i = Some a -> nth_error act j = Some c -> (a <= c)%nat -> ~ requested pairs a c ->
  let last := nth_error (m_cols m) (row_at m (start tan act i) + length (of_row p ri L a)) in
  (GetBlock p st a c lift = match last with None => Undefined | Some _ => Done None end) /\
  (GetBlock p st c a lift = match last with None => Undefined | Some _ => Done None end).
Proof.
  intros H1 H2 O R. cbn zeta. generalize (absent p pairs L P L1 i j a c H1 H2 O R). rewrite (proj2 (index_start p P j _ H2)). intros AB.
  split; unfold GetBlock; cbn [is_computed is_valid constants row_index covariance_matrix after negb]; rewrite (not_constant p P i _ H1), (not_constant p P j _ H2); cbn [orb]; cbn zeta.
  - rewrite (proj2 (Nat.ltb_ge _ _)) by lia. rewrite (proj1 (index_start p P i _ H1)), (proj1 (index_start p P j _ H2)). rewrite (walk_read p L m P PT f order i _ _ H1), (row_size i _ H1), AB.
    destruct (nth_error (m_cols m) _); [|auto]. now rewrite Nat.eqb_refl.
  - destruct (Nat.ltb_spec a c) as [D|D].
    + rewrite (proj1 (index_start p P i _ H1)), (proj1 (index_start p P j _ H2)). rewrite (walk_read p L m P PT f order i _ _ H1), (row_size i _ H1), AB.
      destruct (nth_error (m_cols m) _); [|auto]. now rewrite Nat.eqb_refl.
    + assert (a = c) by lia. subst c. assert (i = j) by (apply (NoDup_nth_error act) ; [apply (act_nodup p P)|apply nth_error_Some; congruence|congruence]). subst j.
      rewrite (proj1 (index_start p P i _ H1)). rewrite (walk_read p L m P PT f order i _ _ H1), (row_size i _ H1), AB.
      destruct (nth_error (m_cols m) _); [|auto]. now rewrite Nat.eqb_refl.
Qed.
(* there is an entry behind the row when something further down was asked for *)
Lemma entry_behind i a c d : nth_error act i = Some a -> In c act -> In d act -> (a < c)%nat -> (c <= d)%nat -> requested pairs c d ->
  nth_error (m_cols m) (row_at m (start tan act i) + length (of_row p ri L a)) <> None.
Proof.
  intros H Ic Id AC CD R. destruct (In_nth_error _ _ Ic) as [k Hk]. destruct (In_nth_error _ _ Id) as [j Hj].
  assert (IK : (i < k)%nat) by (apply (strict_index act i k a c (active_strict p P) H Hk); auto).
  destruct (stored_block p pairs L m P L1 L2 PT f order F1 F2 k j c d Hk Hj CD R) as [Q _].
  apply nth_error_Some. generalize (start_bound p k c Hk) (act_pos p P c Ic) (start_before tan act i k a H IK) (act_pos p P a (nth_error_In _ _ H)) (start_bound p i a H). intros B T U V W.
  rewrite (pt_columns p L m PT). generalize (concat_bound (rowlists p ri L act) (S (start tan act k))). rewrite concat_firstn_S by (rewrite rl_length; lia).
  generalize (row_of p L k c 0 Hk T). rewrite Nat.add_0_r. intros ->. intros Z.
  assert (ROW : (row_at m (start tan act i) + length (of_row p ri L a) <= length (concat (firstn (start tan act k) (rowlists p ri L act))))%nat).
  { rewrite (pt_at p L m PT) by lia. generalize (row_of p L i a 0 H V). rewrite Nat.add_0_r. intros <-. rewrite <- concat_firstn_S by (rewrite rl_length; lia). apply concat_firstn_mono. lia. }
  lia.
Qed.

Hypothesis SY : forall r c, (r < N)%nat -> (c < N)%nat -> f r c = f c r.
Lemma answers_after l : listing p l -> answers p l pairs f st.
Proof.
  intros LI i j b c Hb Hc R. assert (AE := listing_active p l P LI). assert (VB : varying p b) by (apply LI; eapply nth_error_In; eauto). assert (VC : varying p c) by (apply LI; eapply nth_error_In; eauto).
  assert (IB : In b (p_blocks p)) by apply VB. assert (IC : In c (p_blocks p)) by apply VC.
  assert (Ab : nth_error act i = Some (pointer b)) by (rewrite <- AE, nth_error_map, Hb; auto). assert (Ac : nth_error act j = Some (pointer c)) by (rewrite <- AE, nth_error_map, Hc; auto).
  assert (FC : forall k, first_column l k = start tan act k) by (intros k; rewrite (first_column_sum p l P) by (intros d D; apply LI in D; apply D); now rewrite AE).
  assert (Tb := tangent_spec p b P IB). assert (Tc := tangent_spec p c P IC).
  assert (BB := start_bound p i _ Ab). assert (BC := start_bound p j _ Ac). rewrite Tb in BB. rewrite Tc in BC. rewrite !FC.
  assert (GET : exists C, (forall lift, GetBlock p st (pointer b) (pointer c) lift = Done (Some (lifted lift b c C))) /\ forall x y, (x < p_tangent b)%nat -> (y < p_tangent c)%nat -> C x y = f (start tan act i + x)%nat (start tan act j + y)%nat).
  { destruct (Nat.lt_ge_cases (pointer c) (pointer b)) as [O|O].
    - assert (R' : requested pairs (pointer c) (pointer b)) by (destruct R; [right|left]; auto).
      exists (transposed_matrix (stor j i (pointer c) (pointer b))). split; [intros; now apply get_flipped|]. intros x y X Y. unfold transposed_matrix.
      destruct (stored_block p pairs L m P L1 L2 PT f order F1 F2 j i _ _ Ac Ab) as [_ Q]; [lia|auto|]. rewrite Q by lia. apply SY; lia.
    - exists (stor i j (pointer b) (pointer c)). split; [intros; now apply get_ordered|]. intros x y X Y.
      destruct (stored_block p pairs L m P L1 L2 PT f order F1 F2 i j _ _ Ab Ac O R) as [_ Q]. apply Q; lia. }
  destruct GET as [C [G1 G2]]. split.
  - exists C. split; [|intros x y X Y; now apply G2]. rewrite G1. unfold lifted. destruct (p_plus b), (p_plus c); auto.
  - eexists. split; [apply G1|]. intros x y X Y. unfold lifted.
    assert (SP : forall M, (forall x y, M x y = sumn (p_tangent b) (fun u => sumn (p_tangent c) (fun v => plus_jacobian b x u * C u v * plus_jacobian c y v))) -> M x y = sumn (p_tangent b) (fun u => sumn (p_tangent c) (fun v => plus_jacobian b x u * f (start tan act i + u)%nat (start tan act j + v)%nat * plus_jacobian c y v))).
    { intros M E. rewrite E. apply sumn_ext. intros u U. apply sumn_ext. intros v V. now rewrite G2. }
    destruct (p_plus b) eqn:Eb; [apply SP; intros; apply sandwich_lift|]. destruct (p_plus c) eqn:Ec; [apply SP; intros; apply sandwich_lift|].
    rewrite <- (proj2 P b IB Eb) in X. rewrite <- (proj2 P c IC Ec) in Y.
    rewrite (identity_lift _ _ (fun u v => f (start tan act i + u)%nat (start tan act j + v)%nat)) by auto. now apply G2.
Qed.
End Get.
Lemma zero_after p s : proper p -> is_computed s = true -> is_valid s = true -> constants s = constant_blocks p -> zero_answers p s.
Proof.
  intros P A B C b c lift Ib Ic V. unfold GetBlock. rewrite A, B, C. cbn [negb].
  assert (M : mem (pointer b) (constant_blocks p) || mem (pointer c) (constant_blocks p) = true).
  { apply orb_true_iff. rewrite !mem_spec, !constant_in. destruct V as [V|V]; [left; exists b; auto|right; exists c; auto]. }
  rewrite M, !find_block_spec by auto. eexists. split; [reflexivity|auto].
Qed.
