(* Theorems for C85: the SUBSET preconditioner. *)
From Coq Require Import Reals List Arith Bool Lia Lra Psatz.
From Verif Require Import SchurModel BlockSparseModel BlockSparseSpec BlockSparseProofs5 BlockSparseProofs4 BlockSparseProps GramModel GramSpec LsqModel LsqSpec LsqProofs LsqProofs3 LsqProofs4 LsqProps SubModel SubSpec SubProofs2.
Import ListNotations.
Open Scope R_scope.

(* any sequence of updates with one preconditioner and one matrix object, all with or all without a
   diagonal: after a successful one, applying the preconditioner to x gives the only y with
   (Q'Q + D'D) y = x; an update succeeds if that matrix is positive definite; the matrix object is as
   before the update *)
Theorem subset_updates c start lower g A l : good A -> ordered_cells (structure A) -> exact_cholesky c -> (start <= length (rows (structure A)))%nat ->
  (forall u, In u l -> present (u_D u) = g) ->
  exists r, Updates c start lower (NewState c) A l = Some r /\
    Forall2 (fun u o => let '(ok, A', st) := o in
      let n := num_columns A in let M := part (num_rows A) (first_row (structure A) start) (dense (structure A) (u_values u)) (u_D u) in
      (ok = true -> forall x y, same n (row_times n M (RightMultiplyAndAccumulate n st x y)) x /\
        forall z, same n (row_times n M z) x -> same n z (RightMultiplyAndAccumulate n st x y)) /\
      (complete_cholesky c -> positive_definite n M -> ok = true) /\
      good A' /\ structure A' = structure A /\ transposed A' = transposed A /\ nnz A' = nnz A /\ num_rows A' = num_rows A /\ num_columns A' = num_columns A /\
      forall i, (i < nnz A)%nat -> values A' i = u_values u i) l r.
Proof.
  intros G O E Hs H. destruct l as [|u0 l0] eqn:El; [exists []; split; [reflexivity|constructor]|]. rewrite <- El in *.
  destruct (updates_outcome c start lower g A G O Hs l A (u_D u0) (NewState c) G eq_refl eq_refl eq_refl eq_refl eq_refl (H u0 ltac:(rewrite El; left; reflexivity)) H I) as [r [Er F]].
  exists r. split; [exact Er|]. clear Er El. induction F as [|u [[ok A'] st] us r' Ho F IH]; [constructor|]. constructor; [|apply IH; intros; apply H; right; assumption].
  cbn [updated] in Ho. destruct Ho as [Sv R]. cbv zeta. set (n := num_columns A) in *. set (M := part _ _ _ _) in *. split; [|split; [|exact R]].
  - intros Ht x y. assert (symmetric_matrix n M) as SM by apply part_symmetric. pose proof (factored_solves c n M ok st E SM Sv Ht) as Hsolve.
    split; [apply Hsolve|]. intros z Hz.
    assert (same n (fun i => z i - RightMultiplyAndAccumulate n st x y i) (fun _ => 0)) as D0.
    { apply (solvable_injective n M (fun rhs => RightMultiplyAndAccumulate n st rhs y) SM); [intro rhs; apply Hsolve|]. intros q Hq. rewrite row_times_minus, (Hz q Hq), (Hsolve x y q Hq). ring. }
    intros q Hq. pose proof (D0 q Hq) as Dq. cbv beta in Dq. lra.
  - intros C P. exact (factored_complete c n M ok st C P Sv).
Qed.
Print Assumptions subset_updates.

(* when that matrix is positive definite: the chosen rows together with the diagonal have full column
   rank; in particular if no entry of the diagonal is zero *)
Theorem subset_definite m n r0 A D : (r0 <= m)%nat -> full_rank (m - r0) n (fun k => A (r0 + k)%nat) D -> positive_definite n (part m r0 A D).
Proof.
  intros Hr F. apply part_positive. intros v H1 H2. apply F; [|exact H2]. intros p Hp. rewrite <- (H1 (r0 + p)%nat ltac:(lia)). unfold row_times, masked. destruct (Nat.leb_spec r0 (r0 + p)); [reflexivity|lia].
Qed.
Theorem subset_damped m n r0 A d : (forall q, (q < n)%nat -> d q <> 0) -> positive_definite n (part m r0 A (Some d)).
Proof.
  intro H. apply part_positive. intros v _ H2 q Hq. pose proof (H2 q Hq) as E. cbn [weight] in E. apply Rmult_integral in E. destruct E as [E|E]; [exfalso; exact (H q Hq E)|exact E].
Qed.
(* the matrix is that of the rows from r0 on: with none of them it is the diagonal, with all of them
   that of the normal equations *)
Theorem subset_extremes m A D i j : part m m A D i j = (if (i =? j)%nat then weight D i * weight D i else 0) /\
  part m 0 A D i j = sumn m (fun k => A k i * A k j) + (if (i =? j)%nat then weight D i * weight D i else 0).
Proof.
  unfold part. split.
  - rewrite sn_zero; [ring|]. intros k Hk. destruct (Nat.leb_spec m k); [lia|reflexivity].
  - f_equal.
Qed.
Print Assumptions subset_definite.
Print Assumptions subset_damped.
Print Assumptions subset_extremes.

(* in spite of its name the call does not add to y: with a factor what y held is of no effect, so it
   differs from y plus the result for some y, whatever the matrix *)
Theorem subset_accumulate_refuted c n (st : State c) x : (0 < n)%nat -> factor st <> None ->
  (forall y y', RightMultiplyAndAccumulate n st x y = RightMultiplyAndAccumulate n st x y') /\
  exists y, ~ same n (RightMultiplyAndAccumulate n st x y) (fun i => y i + RightMultiplyAndAccumulate n st x (fun _ => 0) i).
Proof.
  intros Hn Hf. unfold RightMultiplyAndAccumulate. destruct (factor st) as [f|]; [|congruence]. split; [reflexivity|]. exists (fun _ => 1). intro H. specialize (H 0%nat Hn). cbv beta in H. lra.
Qed.
Print Assumptions subset_accumulate_refuted.

(* ------------------------------------------------------------------ with and without a diagonal *)
(* one preconditioner updated first without and then with a diagonal: the range of row blocks stays as
   in the first update, so that the diagonal is left out, although both updates succeed *)
Definition single : Structure := mkStructure [mkBlock 1 0] [mkRow (mkBlock 1 0) [mkCell 0 0]].
Definition single_A : BlockSparse := Construct single (fun _ => 1).
Definition mixed : list Update := [mkUpdate (fun _ => 1) None (fun _ => 0) (fun _ => 0); mkUpdate (fun _ => 1) (Some (fun _ => 1)) (fun _ => 0) (fun _ => 0)].
(* the matrix factored in the second update *)
Lemma mixed_run c : exists A1 A2 M1 M2 k1 k2, Updates c 0 true (NewState c) single_A mixed =
  Some [(match factorize c 1 M1 with Some _ => true | None => false end, A1, mkState k1 (factorize c 1 M1));
        (match factorize c 1 M2 with Some _ => true | None => false end, A2, mkState k2 (factorize c 1 M2))] /\ M1 0%nat 0%nat = 1 /\ M2 0%nat 0%nat = 1.
Proof.
  do 6 eexists. split; [|split].
  - unfold mixed, single_A. cbn [Updates u_values u_D u_junk u_junk'].
    set (X := UpdateImpl c 0 true (NewState c) _ _ _ _). lazy in X. subst X. cbv iota beta.
    set (X := UpdateImpl c 0 true _ _ _ _ _). lazy in X. subst X. cbv iota beta. reflexivity.
  - lazy. lra.
  - lazy. lra.
Qed.
Lemma one_symmetric M : symmetric_matrix 1 M.
Proof. intros i j Hi Hj. replace i with 0%nat by lia. replace j with 0%nat by lia. reflexivity. Qed.
Lemma one_positive M : M 0%nat 0%nat = 1 -> positive_definite 1 M.
Proof.
  intro H. split; [apply one_symmetric|]. intros v [i [Hi Hv]]. replace i with 0%nat in Hv by lia. unfold row_times. cbn [sumn]. rewrite H. set (p := v 0%nat) in *. assert (0 < p * p) by nra. lra.
Qed.
Theorem subset_mixed_refuted c : exact_cholesky c -> complete_cholesky c ->
  exists A1 s1 A2 s2, Updates c 0 true (NewState c) single_A mixed = Some [(true, A1, s1); (true, A2, s2)] /\ good single_A /\ ordered_cells single /\
    ~ same 1 (row_times 1 (part 1 0 (dense single (fun _ => 1)) (Some (fun _ => 1))) (RightMultiplyAndAccumulate 1 s2 (fun _ => 2) (fun _ => 0))) (fun _ => 2).
Proof.
  intros Ex Co. destruct (mixed_run c) as [A1 [A2 [M1 [M2 [k1 [k2 [E [E1 E2]]]]]]]].
  destruct (Co 1%nat M1 (one_positive M1 E1)) as [f1 F1]. destruct (Co 1%nat M2 (one_positive M2 E2)) as [f2 F2]. rewrite F1, F2 in E.
  do 4 eexists. split; [exact E|]. split; [|split].
  - apply construct_good; [|apply packed_disjoint; cbn; auto|apply packed_contained; cbn; auto].
    constructor; [cbn; auto|cbn; auto|]. intros row [<-|[]]. split; [cbn; repeat constructor; intros []|]. intros cl [<-|[]]. cbn. lia.
  - split; [intros row [<-|[]]; cbn; repeat constructor|]. intros b Hb. destruct b as [|b]; [cbn; lia|cbn in Hb; lia].
  - intro H. specialize (H 0%nat ltac:(lia)). unfold RightMultiplyAndAccumulate in H. cbn [factor] in H.
    destruct (Ex 1%nat M2 f2 (one_symmetric M2) F2) as [Sv _]. specialize (Sv (fun _ => 2) 0%nat ltac:(lia)). unfold row_times in *. cbn [sumn] in *. rewrite E2 in Sv.
    assert (part 1 0 (dense single (fun _ => 1)) (Some (fun _ => 1)) 0%nat 0%nat = 2) as P by (lazy; lra). rewrite P in H. lra.
Qed.
Print Assumptions subset_mixed_refuted.

(* two updates with the matrix of LsqProps.v, from its second row block on, with a diagonal *)
Example sample_updates : exists A1 s1 A2 s2,
  Updates (reference false) 1 true (NewState _) sample_A [mkUpdate INR ones INR INR; mkUpdate (fun i => INR (i * i)) ones INR INR] = Some [(true, A1, s1); (true, A2, s2)] /\
  same 3 (row_times 3 (part 3 (first_row sample 1) (dense sample (fun i => INR (i * i))) ones) (RightMultiplyAndAccumulate 3 s2 (fun _ => 7) (fun _ => 5))) (fun _ => 7) /\
  (0 < first_row sample 1 < 3)%nat /\ values A2 5%nat = 25.
Proof.
  destruct (subset_updates (reference false) 1 true true sample_A [mkUpdate INR ones INR INR; mkUpdate (fun i => INR (i * i)) ones INR INR]
    (sample_good _) sample_ordered (reference_exact false)) as [l [E F]]; [cbn; lia|intros u [<-|[<-|[]]]; reflexivity|].
  inversion F as [|u1 o1 l1 l1' H1 F' e1 e1']. subst. inversion F' as [|u2 o2 l2 l2' H2 F'' e2 e2']. subst. inversion F''. subst. clear F F' F''.
  destruct o1 as [[ok1 A1] s1], o2 as [[ok2 A2] s2]. cbv zeta in H1, H2. cbn [u_values u_D] in H1, H2.
  assert (forall q, (q < 3)%nat -> (fun _ : nat => 1) q <> 0) as One by (intros; lra).
  destruct H1 as [_ [C1 _]]. destruct H2 as [M2 [C2 [_ [_ [_ [_ [_ [_ V2]]]]]]]].
  pose proof (C1 (reference_complete false) (subset_damped _ 3 _ _ _ One)) as T1. pose proof (C2 (reference_complete false) (subset_damped _ 3 _ _ _ One)) as T2. subst ok1 ok2.
  exists A1, s1, A2, s2. split; [exact E|]. split; [exact (proj1 (M2 eq_refl (fun _ => 7) (fun _ => 5)))|]. split; [cbn; lia|]. rewrite V2 by (cbn; lia). cbn. lra.
Qed.
(* and with such a state the call does not accumulate *)
Example sample_overwrites : exists st : State (reference false), factor st <> None /\ exists y, ~ same 3 (RightMultiplyAndAccumulate 3 st (fun _ => 7) y) (fun i => y i + RightMultiplyAndAccumulate 3 st (fun _ => 7) (fun _ => 0) i).
Proof.
  destruct (reference_complete false 3%nat (part 3 0 (fun _ _ => 0) (Some (fun _ => 1)))) as [f _]; [apply subset_damped; intros; lra|].
  exists (mkState None (Some f)). split; [discriminate|]. apply subset_accumulate_refuted; [lia|discriminate].
Qed.
(* four rows of which the last two are chosen *)
Example sample_part : part 4 2 (fun k i => INR (k + i)) (Some (fun _ => 3)) 0 0 = 22 /\ part 4 2 (fun k i => INR (k + i)) (Some (fun _ => 3)) 0 1 = 18.
Proof. unfold part. cbn. split; lra. Qed.
