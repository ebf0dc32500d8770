(* C73: the direct linear solvers return the regularized least squares solution.
   Stated for m x n matrices A, m-vectors b and an optional diagonal D, with LsqSpec's objective
   |A x - b|^2 + |D x|^2.  The hypotheses on the factorizations are met by reference,
   reference_qr and sloppy (LsqProofs4 and below). *)
From Coq Require Import Reals List Arith Bool Lia Lra Psatz.
From Verif Require Import SparseModel SchurModel BlockSparseModel BlockSparseSpec BlockSparseProps GramModel GramSpec LsqModel LsqSpec LsqProofs LsqProofs2 LsqProofs3 LsqProofs4.
Import ListNotations.
Open Scope R_scope.

(* ------------------------------------------------------------------ the minimizer is unique *)
Theorem least_squares_unique m n A b D x y : full_rank m n A D -> minimizes m n A b D x -> minimizes m n A b D y -> same n x y.
Proof. exact (minimizer_unique m n A b D x y). Qed.
Print Assumptions least_squares_unique.

(* ------------------------------------------------------------------ DENSE_NORMAL_CHOLESKY *)
Theorem dense_normal_cholesky c m n A b D x : exact_cholesky c ->
  (forall x', DenseNormalCholesky c 0 m n A b D x = (SUCCESS, x') -> minimizes m n A b D x') /\
  (complete_cholesky c -> full_rank m n A D -> exists x', DenseNormalCholesky c 0 m n A b D x = (SUCCESS, x')) /\
  (forall t x', DenseNormalCholesky c 0 m n A b D x = (t, x') -> t = SUCCESS \/ t = FAILURE /\ x' = x).
Proof.
  intro E. split; [|split].
  - intros x' H. apply normal_minimizes. exact (dense_exact c m n A b D x x' E H).
  - intros C F. exact (dense_succeeds c 0 m n A b D x C F).
  - intros t x' H. unfold DenseNormalCholesky, DenseFactorAndSolve in H. destruct (factorize c n _); injection H as <- <-; auto.
Qed.
Print Assumptions dense_normal_cholesky.

(* ------------------------------------------------------------------ DENSE_QR *)
Theorem dense_qr q st junk junk' m n A b D x : exact_qr q -> full_rank m n A D ->
  exists x' st', DenseQR q st junk junk' m n A b D x = (SUCCESS, x', st') /\ minimizes m n A b D x'.
Proof. exact (qr_exact q st junk junk' m n A b D x). Qed.
Print Assumptions dense_qr.

(* ------------------------------------------------------------------ SPARSE_NORMAL_CHOLESKY *)
(* every call of any sequence of calls with one solver and one matrix object, all with or all
   without a diagonal: the structure and values of A are as they were before the call *)
Theorem sparse_normal_cholesky c k lower g A calls : good A -> ordered_cells (structure A) -> exact_cholesky c ->
  (forall call, In call calls -> given (c_D call) = g) ->
  exists l, SparseCalls c k lower None A calls = Some l /\
    Forall2 (fun call o => let '(t, x, A') := o in let a := dense (structure A) (c_values call) in
      (t = SUCCESS -> minimizes (num_rows A) (num_columns A) a (c_b call) (c_D call) x) /\
      (complete_cholesky c -> full_rank (num_rows A) (num_columns A) a (c_D call) -> t = SUCCESS) /\
      (t = SUCCESS \/ t = FAILURE /\ forall q, x q = 0) /\
      good A' /\ structure A' = structure A /\ transposed A' = transposed A /\ nnz A' = nnz A /\ num_rows A' = num_rows A /\ num_columns A' = num_columns A /\
      forall i, (i < nnz A)%nat -> values A' i = c_values call i) calls l.
Proof.
  intros G O E H. destruct calls as [|call0 calls0] eqn:Ec; [exists []; split; [reflexivity|constructor]|]. rewrite <- Ec in *.
  destruct (calls_outcome c k lower g A G O calls A (c_D call0) None G eq_refl eq_refl eq_refl eq_refl eq_refl (H call0 ltac:(rewrite Ec; left; reflexivity)) H I) as [l [El F]].
  exists l. split; [exact El|]. clear El Ec. induction F as [|call [[t x] A'] cs l' Ho F IH]; [constructor|]. constructor; [|apply IH; intros; apply H; right; assumption].
  cbn [outcome] in Ho. destruct Ho as [Sv R]. cbv zeta. split; [|split; [|split; [|exact R]]].
  - intro Ht. apply normal_minimizes. exact (solved_exact c k _ _ _ _ _ t x E Sv Ht).
  - intros C Fr. exact (solved_complete c k _ _ _ _ _ t x C Fr Sv).
  - destruct Sv as [M [mu [rhs [_ [_ [_ Er]]]]]]. destruct (factorize c _ M); injection Er as -> ->; auto.
Qed.
Print Assumptions sparse_normal_cholesky.

(* an inexact factorization: after k iterations the error is at most rho^(k+1) of the solution *)
Theorem sparse_refinement c k lower g A calls size rho : good A -> ordered_cells (structure A) ->
  measures (num_columns A) size -> 0 <= rho ->
  (forall M f, symmetric_matrix (num_columns A) M -> factorize c (num_columns A) M = Some f -> accurate c (num_columns A) M f size rho) ->
  (forall call, In call calls -> given (c_D call) = g) ->
  exists l, SparseCalls c k lower None A calls = Some l /\
    Forall2 (fun call o => let '(t, x, A') := o in let a := dense (structure A) (c_values call) in
      t = SUCCESS -> full_rank (num_rows A) (num_columns A) a (c_D call) ->
      forall sol, minimizes (num_rows A) (num_columns A) a (c_b call) (c_D call) sol -> size (fun i => sol i - x i) <= rho ^ S k * size sol) calls l.
Proof.
  intros G O Ms Hr Ac H. destruct calls as [|call0 calls0] eqn:Ec; [exists []; split; [reflexivity|constructor]|]. rewrite <- Ec in *.
  destruct (calls_outcome c k lower g A G O calls A (c_D call0) None G eq_refl eq_refl eq_refl eq_refl eq_refl (H call0 ltac:(rewrite Ec; left; reflexivity)) H I) as [l [El F]].
  exists l. split; [exact El|]. clear El Ec. induction F as [|call [[t x] A'] cs l' Ho F IH]; [constructor|]. constructor; [|apply IH; intros; apply H; right; assumption].
  cbn [outcome] in Ho. destruct Ho as [Sv _]. cbv zeta. intros Ht Fr sol Hs.
  set (m := num_rows A) in *. set (n := num_columns A) in *. set (a := dense (structure A) (c_values call)) in *.
  set (y := eliminate n (normal_matrix m a (c_D call)) (normal_rhs m a (c_b call))).
  assert (normal_eq m n a (c_b call) (c_D call) y) as Ny by (unfold normal_eq; apply eliminate_solves, positive_pivots, normal_positive, Fr).
  pose proof (minimizer_unique m n a _ _ sol y Fr Hs (normal_minimizes _ _ _ _ _ _ Ny)) as E.
  rewrite (Ms sol y E), (Ms (fun i => sol i - x i) (fun i => y i - x i)) by (intros q Hq; rewrite (E q Hq); reflexivity).
  exact (solved_inexact c k m n a _ _ t x size rho y Ms Hr Ac Ny Sv Ht).
Qed.
Print Assumptions sparse_refinement.

(* ------------------------------------------------------------------ the solvers agree *)
Theorem direct_solvers_agree c q c' k lower junk1 junk2 st junk3 junk4 A b D x y z t st' A' st'' :
  exact_cholesky c -> exact_qr q -> exact_cholesky c' -> good A -> ordered_cells (structure A) ->
  full_rank (num_rows A) (num_columns A) (entries A) D ->
  DenseNormalCholesky c 0 (num_rows A) (num_columns A) (entries A) b D junk1 = (SUCCESS, x) ->
  DenseQR q st junk3 junk4 (num_rows A) (num_columns A) (entries A) b D junk1 = (t, y, st') ->
  SparseNormalCholesky c' k lower None junk2 junk4 A b D = Some (SUCCESS, z, A', st'') ->
  same (num_columns A) x y /\ same (num_columns A) y z.
Proof.
  intros E1 E2 E3 G O F H1 H2 H3.
  pose proof (normal_minimizes _ _ _ _ _ _ (dense_exact _ _ _ _ _ _ _ _ E1 H1)) as M1.
  destruct (qr_exact q st junk3 junk4 _ _ _ b D junk1 E2 F) as [y' [s' [Ey M2]]]. rewrite H2 in Ey. injection Ey as -> -> ->.
  destruct (sparse_step c' k lower None junk2 junk4 A b D G O I) as [t' [z' [A2 [v' [Ez [Sv _]]]]]]. rewrite H3 in Ez. injection Ez as <- <- <- _.
  pose proof (normal_minimizes _ _ _ _ _ _ (solved_exact c' k _ _ _ _ _ _ z E3 Sv eq_refl)) as M3.
  split; [exact (minimizer_unique _ _ _ _ _ _ _ F M1 M2)|exact (minimizer_unique _ _ _ _ _ _ _ F M2 M3)].
Qed.
Print Assumptions direct_solvers_agree.

(* ------------------------------------------------------------------ refinement, dense *)
(* the refiner is right for a full symmetric matrix and a factorization of a copy: the unit test *)
Theorem dense_refinement_full c k n lhs rhs x x' : exact_cholesky c -> in_place c = false -> symmetric_matrix n (row_major n lhs) ->
  DenseFactorAndSolve c k n lhs rhs x = (SUCCESS, x') -> same n (row_times n (row_major n lhs) x') rhs.
Proof.
  intros E P S H. unfold DenseFactorAndSolve in H. destruct (factorize c n (read_lower n lhs)) as [f|] eqn:Ef; [|discriminate]. rewrite P in H. injection H as <-.
  destruct (E n _ f (read_symmetric n lhs) Ef) as [Sv _].
  assert (forall i j, (i < n)%nat -> (j < n)%nat -> read_lower n lhs i j = row_major n lhs i j) as ER.
  { intros i j Hi Hj. unfold read_lower. destruct (Nat.le_ge_cases i j) as [L|L].
    - rewrite Nat.min_l, Nat.max_r by exact L. reflexivity.
    - rewrite Nat.min_r, Nat.max_l by exact L. exact (S j i Hj Hi). }
  assert (forall r, same n (row_times n (row_major n lhs) (solve c n f r)) r) as Sv'.
  { intros r q Hq. rewrite <- (Sv r q Hq). apply row_times_ext; [|intros i _; reflexivity]. intros j Hj. symmetry. apply ER; assumption. }
  intros q Hq. rewrite <- (Sv' rhs q Hq). apply row_times_ext; [intros; reflexivity|]. apply refine_fixed.
  - intros s Hs i Hi. rewrite <- (Sv' rhs i Hi). unfold mv. apply sn_ext. intros j Hj. rewrite (Hs j Hj). reflexivity.
  - intros r Hr. apply (solvable_injective n (row_major n lhs) (solve c n f) S Sv'). intros i Hi. rewrite (Sv' r i Hi). apply Hr, Hi.
Qed.
Print Assumptions dense_refinement_full.

(* a factorization in place: A = [2], b = [2], no D.  The solution is 1 and is what the factorization
   returns; k + 1 iterations turn it into 2 - (1/2)^(k+1) *)
Theorem dense_refinement_in_place_refuted c k x : exact_cholesky c -> complete_cholesky c -> in_place c = true ->
  exists x', DenseNormalCholesky c (S k) 1 1 (fun _ _ => 2) (fun _ => 2) None x = (SUCCESS, x') /\
    x' 0%nat = 2 - (/ 2) ^ S k /\ ~ minimizes 1 1 (fun _ _ => 2) (fun _ => 2) None x'.
Proof.
  intros E C P. set (lhs := DenseLhs 1 1 (fun _ _ => 2) None).
  assert (forall i j, (i < 1)%nat -> (j < 1)%nat -> read_lower 1 lhs i j = 4) as EM.
  { intros i j Hi Hj. replace i with 0%nat by lia. replace j with 0%nat by lia. unfold read_lower, lhs, DenseLhs. cbn. lra. }
  destruct (C 1%nat (read_lower 1 lhs)) as [f Ef].
  { split; [apply read_symmetric|]. intros v [i [Hi Hv]]. replace i with 0%nat in Hv by lia. cbn [sumn]. unfold row_times. cbn [sumn]. rewrite EM by lia. nra. }
  destruct (E _ _ f (read_symmetric 1 lhs) Ef) as [Sv [Lo Di]].
  assert (lower_factor c f 0%nat 0%nat = 2) as L2.
  { specialize (Lo 0%nat 0%nat ltac:(lia) ltac:(lia)). specialize (Di 0%nat ltac:(lia)). rewrite EM in Lo by lia. cbn [sumn] in Lo. nra. }
  assert (forall r, solve c 1 f r 0%nat = r 0%nat / 4) as Ss.
  { intro r. specialize (Sv r 0%nat ltac:(lia)). unfold row_times in Sv. cbn [sumn] in Sv. rewrite EM in Sv by lia. lra. }
  set (lhs' := write_lower 1 (lower_factor c f) lhs).
  assert (lhs' 0%nat = 2) as El by (unfold lhs', write_lower; cbn; exact L2).
  assert (forall i s, s 0%nat = 2 - (/2) ^ i -> forall j, Refine (mv 1 (row_major 1 lhs')) (solve c 1 f) (DenseRhs 1 (fun _ _ => 2) (fun _ => 2)) j s 0%nat = 2 - (/ 2) ^ (i + j)) as Rf.
  { intros i s Hs j. revert i s Hs. induction j as [|j IH]; intros i s Hs; cbn [Refine]; [rewrite Nat.add_0_r; exact Hs|]. rewrite <- Nat.add_succ_comm. apply IH.
    rewrite Ss. unfold mv, row_major, DenseRhs. cbn [sumn Nat.mul Nat.add]. rewrite El, Hs. cbn [pow]. field. }
  eexists. split; [unfold DenseNormalCholesky, DenseFactorAndSolve; fold lhs; rewrite Ef, P; reflexivity|]. fold lhs'.
  match goal with |- ?y 0%nat = _ /\ _ => assert (y 0%nat = 2 - (/ 2) ^ S k) as Ey; [|set (z := y) in *] end.
  { apply (Rf 0%nat). rewrite Ss. unfold DenseRhs. cbn. lra. }
  split; [exact Ey|]. intro M. specialize (M (fun _ => 1)). unfold objective, row_times, weight in M. cbn [sumn] in M. rewrite Ey in M.
  assert (0 < (/ 2) ^ S k < 1) as Hp by (split; [apply pow_lt; lra|apply pow_lt_1_compat; [lra|lia]]). nra.
Qed.
Print Assumptions dense_refinement_in_place_refuted.

(* a factorization of a copy: A = [1 0; 0 1; 1 1], b = (1, 1, 2), no D.  The solution is (1, 1), one
   iteration turns it into (2/3, 5/3), because below the diagonal lhs holds zeros *)
Theorem dense_refinement_copy_refuted c x : exact_cholesky c -> complete_cholesky c -> in_place c = false ->
  let A := fun p q : nat => if (p =? 2)%nat || (p =? q)%nat then 1 else 0 in
  let b := fun p : nat => if (p =? 2)%nat then 2 else 1 in
  exists x', DenseNormalCholesky c 1 3 2 A b None x = (SUCCESS, x') /\
    x' 0%nat = 2 / 3 /\ x' 1%nat = 5 / 3 /\ minimizes 3 2 A b None (fun _ => 1) /\ ~ minimizes 3 2 A b None x'.
Proof.
  intros E C P A b. set (lhs := DenseLhs 3 2 A None).
  assert (lhs 0%nat = 2) as E0 by (unfold lhs, DenseLhs, A; cbn; lra). assert (lhs 1%nat = 1) as E1 by (unfold lhs, DenseLhs, A; cbn; lra).
  assert (lhs 2%nat = 0) as E2 by (unfold lhs, DenseLhs, A; cbn; lra). assert (lhs 3%nat = 2) as E3 by (unfold lhs, DenseLhs, A; cbn; lra).
  destruct (C 2%nat (read_lower 2 lhs)) as [f Ef].
  { split; [apply read_symmetric|]. intros v [i [Hi Hv]]. cbn [sumn]. unfold row_times, read_lower. cbn [sumn Nat.min Nat.max Nat.mul Nat.add]. rewrite E0, E1, E3.
    assert (v 0%nat <> 0 \/ v 1%nat <> 0) as [H|H] by (destruct i as [|[|i]]; [left; exact Hv|right; exact Hv|lia]); set (p := v 0%nat) in *; set (r := v 1%nat) in *;
      [assert (0 < p * p) by nra|assert (0 < r * r) by nra]; nra. }
  destruct (E _ _ f (read_symmetric 2 lhs) Ef) as [Sv _].
  assert (forall r, solve c 2 f r 0%nat = (2 * r 0%nat - r 1%nat) / 3 /\ solve c 2 f r 1%nat = (2 * r 1%nat - r 0%nat) / 3) as Ss.
  { intro r. pose proof (Sv r 0%nat ltac:(lia)) as S0. pose proof (Sv r 1%nat ltac:(lia)) as S1. unfold row_times, read_lower in S0, S1. cbn [sumn Nat.min Nat.max Nat.mul Nat.add] in S0, S1. rewrite E0, E1 in S0. rewrite E1, E3 in S1. lra. }
  set (rhs := DenseRhs 3 A b). assert (rhs 0%nat = 3) as R0 by (unfold rhs, DenseRhs, A, b; cbn; lra). assert (rhs 1%nat = 3) as R1 by (unfold rhs, DenseRhs, A, b; cbn; lra).
  set (r := fun j => rhs j - mv 2 (row_major 2 lhs) (solve c 2 f rhs) j).
  assert (r 0%nat = 0) as Q0 by (unfold r, mv, row_major; cbn [sumn Nat.mul Nat.add]; rewrite E0, E1, R0, (proj1 (Ss rhs)), (proj2 (Ss rhs)), R0, R1; lra).
  assert (r 1%nat = 1) as Q1 by (unfold r, mv, row_major; cbn [sumn Nat.mul Nat.add]; rewrite E2, E3, R1, (proj1 (Ss rhs)), (proj2 (Ss rhs)), R0, R1; lra).
  eexists. split; [unfold DenseNormalCholesky, DenseFactorAndSolve; fold lhs rhs; rewrite Ef, P; cbn [Refine]; fold r; reflexivity|]. cbv beta.
  destruct (Ss rhs) as [S0 S1]. destruct (Ss r) as [T0 T1]. rewrite R0, R1 in S0, S1. rewrite Q0, Q1 in T0, T1.
  split; [rewrite S0, T0; lra|]. split; [rewrite S1, T1; lra|]. split.
  - intro y. unfold objective, row_times, weight, A, b. cbn [sumn Nat.eqb orb]. set (p := y 0%nat). set (s := y 1%nat).
    apply Rle_trans with 0; [lra|]. pose proof (Rle_0_sqr (p - 1)). pose proof (Rle_0_sqr (s - 1)). pose proof (Rle_0_sqr (p + s - 2)). unfold Rsqr in *. lra.
  - intro M. specialize (M (fun _ => 1)). unfold objective, row_times, weight, A, b in M. cbn [sumn Nat.eqb orb] in M. rewrite S0, S1, T0, T1 in M. lra.
Qed.
Print Assumptions dense_refinement_copy_refuted.

(* ------------------------------------------------------------------ the contracts can be met *)
Theorem contracts_met place : exact_cholesky (reference place) /\ complete_cholesky (reference place) /\ exact_qr reference_qr.
Proof. split; [apply reference_exact|]. split; [apply reference_complete|apply reference_qr_exact]. Qed.
Print Assumptions contracts_met.

(* a solver whose answers are a tenth too small *)
Definition sloppy : Cholesky := mkCholesky (nat * (nat -> nat -> R)) false (factorize (reference false)) (lower_factor (reference false)) (fun n f r i => 9 / 10 * eliminate n (snd f) r i).
Definition abs_sum (n : nat) (v : nat -> R) : R := sumn n (fun i => Rabs (v i)).
Example sloppy_accurate n M f : symmetric_matrix n M -> factorize sloppy n M = Some f -> accurate sloppy n M f (abs_sum n) (/ 10) /\ measures n (abs_sum n).
Proof.
  intros S E. split; [|intros x y H; apply sn_ext; intros i Hi; rewrite (H i Hi); reflexivity].
  cbn [sloppy factorize reference] in E. destruct (pivots n M) eqn:P; [|discriminate]. injection E as <-. intros z r Hz. cbn [sloppy solve snd].
  assert (same n z (eliminate n M r)) as Ez.
  { intros q Hq. apply Rminus_diag_uniq. apply (solvable_injective n M (eliminate n M) S (fun r => eliminate_solves n M r P) (fun i => z i - eliminate n M r i)); [|exact Hq].
    intros i Hi. rewrite row_times_minus, (Hz i Hi), (eliminate_solves n M r P i Hi). ring. }
  unfold abs_sum. rewrite <- sn_scal. apply Req_le. apply sn_ext. intros i Hi. rewrite <- (Ez i Hi). replace (z i - 9 / 10 * z i) with (/ 10 * z i) by field. rewrite Rabs_mult, (Rabs_right (/ 10)) by lra. reflexivity.
Qed.

(* the 3 x 3 matrix of BlockSparseProps, two calls with a diagonal and new values *)
Definition sample_A : BlockSparse := Construct sample (fun _ => 7).
Lemma sample_ordered : ordered_cells (structure sample_A).
Proof.
  split.
  - intros row [<-|[<-|[]]]; cbn; repeat constructor.
  - intros b Hb. do 2 (destruct b as [|b]; [cbn; lia|]). cbn in Hb. lia.
Qed.
Definition ones : option vec := Some (fun _ => 1).
Lemma ones_full m n A : full_rank m n A ones.
Proof. intros v _ H q Hq. specialize (H q Hq). cbn in H. lra. Qed.
Example sample_calls : exists t1 x1 A1 t2 x2 A2,
  SparseCalls (reference false) 2 true None sample_A [mkCall INR INR ones INR INR; mkCall (fun i => INR (i * i)) (fun _ => 3) ones INR INR] = Some [(t1, x1, A1); (t2, x2, A2)] /\
  t1 = SUCCESS /\ t2 = SUCCESS /\ minimizes 3 3 (dense sample INR) INR ones x1 /\ minimizes 3 3 (dense sample (fun i => INR (i * i))) (fun _ => 3) ones x2 /\ values A2 5%nat = 25.
Proof.
  destruct (sparse_normal_cholesky (reference false) 2 true true sample_A [mkCall INR INR ones INR INR; mkCall (fun i => INR (i * i)) (fun _ => 3) ones INR INR]
    (sample_good _) sample_ordered (reference_exact false)) as [l [E F]]; [intros call [<-|[<-|[]]]; reflexivity|].
  assert (forall (X Y : Type) (P : X -> Y -> Prop) a b, Forall2 P a b -> length a = length b) as FL by (induction 1; cbn [length]; congruence). pose proof (FL _ _ _ _ _ F) as Hl. destruct l as [|[[t1 x1] A1] [|[[t2 x2] A2] [|? ?]]]; try discriminate Hl.
  inversion F as [|c1 o1 l1 l1' H1 F' e1 e1']. inversion F' as [|c2 o2 l2 l2' H2 F'' e2 e2']. clear F F' F'' Hl FL. cbv zeta in H1, H2. cbn [c_values c_b c_D] in H1, H2.
  destruct H1 as [M1 [C1 _]]. destruct H2 as [M2 [C2 [_ [_ [_ [_ [_ [_ [_ V2]]]]]]]]].
  pose proof (C1 (reference_complete false) (ones_full _ _ _)) as T1. pose proof (C2 (reference_complete false) (ones_full _ _ _)) as T2.
  exists t1, x1, A1, t2, x2, A2. split; [exact E|]. split; [exact T1|]. split; [exact T2|]. split; [exact (M1 T1)|]. split; [exact (M2 T2)|].
  rewrite V2 by (cbn; lia). cbn. lra.
Qed.
(* a line through (0, 1), (1, 2), (2, 4) *)
Example fitted_line : exists x', DenseNormalCholesky (reference true) 0 3 2 (fun p q => if (q =? 0)%nat then 1 else INR p) (fun p => if (p =? 0)%nat then 1 else if (p =? 1)%nat then 2 else 4) None (fun _ => 0) = (SUCCESS, x') /\
  x' 0%nat = 5 / 6 /\ x' 1%nat = 3 / 2.
Proof.
  set (A := fun p q : nat => if (q =? 0)%nat then 1 else INR p). set (b := fun p : nat => if (p =? 0)%nat then 1 else if (p =? 1)%nat then 2 else 4).
  assert (full_rank 3 2 A None) as F.
  { intros v H _ q Hq. pose proof (H 0%nat ltac:(lia)) as H0. pose proof (H 1%nat ltac:(lia)) as H1. unfold row_times, A in H0, H1. cbn in H0, H1. destruct q as [|[|q]]; [lra|lra|lia]. }
  destruct (dense_normal_cholesky (reference true) 3 2 A b None (fun _ => 0) (reference_exact true)) as [M [C _]]. destruct (C (reference_complete true) F) as [x' Ex]. exists x'. split; [exact Ex|].
  pose proof (minimizer_unique 3 2 A b None x' (fun q => if (q =? 0)%nat then 5 / 6 else 3 / 2) F (M x' Ex)) as U.
  assert (minimizes 3 2 A b None (fun q => if (q =? 0)%nat then 5 / 6 else 3 / 2)) as Mz.
  { apply normal_minimizes. intros [|[|q]] Hq; [| |lia]; unfold row_times, normal_matrix, normal_rhs, A, b; cbn; lra. }
  split; [exact (U Mz 0%nat ltac:(lia))|exact (U Mz 1%nat ltac:(lia))].
Qed.
