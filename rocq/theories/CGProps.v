(* C62: conjugate gradients. *)
From Coq Require Import Reals ZArith Arith Bool Lia Lra.
From Verif Require Import SchurModel SchurProofs CGModel CGSpec CGProofs CGProofs2.
Open Scope R_scope.

(* For symmetric A and M and any start x0: the solver returns; a zero right hand side gives
   zero; otherwise the result is the last of k <= n conjugate gradients points, each the
   unique minimiser of the quadratic model over its Krylov space, no stopping test held
   before the last, the model went down at every step, and the summary is true. *)
Theorem cg_result : forall n A M b x0 o lhs preconditioner junk,
  symmetric n A -> symmetric n M -> represents n lhs A -> represents n preconditioner M -> residual_reset_period o <> 0%Z ->
  exists s x, ConjugateGradientsSolver n o lhs b preconditioner junk x0 = Some (s, x) /\
    ((same n b (fun _ => 0) /\ s = mkSummary SUCCESS RhsIsZero 0 /\ forall i, x i = 0) \/
     (~ same n b (fun _ => 0) /\ exists k xs, path n o A M b x0 k xs /\ xs k = x /\ justified n o A M b k xs s)).
Proof.
  intros n A M b x0 o lhs pre junk SA SM RA RM Hp. destruct (solver_spec n A M b x0 SA SM o lhs pre RA RM Hp junk) as [s [x [E [Z|[N X]]]]]; exists s, x; (split; [exact E|]); [left; exact Z|right].
  split; [exact N|]. destruct (explained_path n A M b x0 SA SM o s x X) as [k [xs [P [Ex [J _]]]]]. exists k, xs. split; [exact P|]. split; [exact Ex|exact J].
Qed.
Print Assumptions cg_result.

Lemma null_curvature n A p v : symmetric n A -> semidefinite n A -> inner n p (apply n A p) <= 0 -> inner n p (apply n A v) = 0.
Proof.
  intros SA PA Hp. assert (inner n p (apply n A p) = 0) as Z by (pose proof (PA p); lra).
  assert (forall t, 0 <= 2 * t * inner n p (apply n A v) + t * t * inner n v (apply n A v)) as Ht.
  { intro t. pose proof (PA (Axpby 1 p t v)) as P. rewrite (ip_ext n _ _ (apply n A (Axpby 1 p t v)) (Axpby 1 (apply n A p) t (apply n A v)) (same_refl n _)) in P by (intros i Hi; apply apply_ax).
    rewrite ip_l, !ip_r, Z, (apply_sym n A v p SA) in P. lra. }
  set (a := inner n p (apply n A v)) in *. set (c := inner n v (apply n A v)) in *. pose proof (PA v : 0 <= c) as Pc.
  destruct (Req_EM_T a 0) as [E|N]; [exact E|exfalso]. specialize (Ht (- a / (c + 1))).
  replace (2 * (- a / (c + 1)) * a + - a / (c + 1) * (- a / (c + 1)) * c) with (- (a * a * (c + 2) / ((c + 1) * (c + 1)))) in Ht by (field; lra).
  assert (0 < a * a * (c + 2) / ((c + 1) * (c + 1))); [|lra]. apply Rdiv_lt_0_compat; [apply Rmult_lt_0_compat; [apply Rsqr_pos_lt; exact N|lra]|apply Rmult_lt_0_compat; lra].
Qed.
Lemma residual_zero_small n A b t x : 0 <= t -> same n (residual n A b x) (fun _ => 0) -> small_residual n A b t x.
Proof.
  intros Ht E. unfold small_residual. assert (length_of n (residual n A b x) = 0) as -> by (unfold length_of; rewrite (ip_ext n _ _ _ _ E E), ip_zero_r; apply sqrt_0).
  apply Rmult_le_pos; [exact Ht|apply sqrt_pos].
Qed.

(* On a consistent symmetric positive semidefinite system, with a positive definite
   preconditioner and room for n iterations, the solver never gives up: it stops with a small
   residual or by the quadratic model test, or else it has found an exact solution before
   min_num_iterations, which it reports as a failure. *)
Theorem cg_solves : forall n A M b x0 o lhs preconditioner junk sol,
  symmetric n A -> symmetric n M -> represents n lhs A -> represents n preconditioner M -> residual_reset_period o <> 0%Z ->
  semidefinite n A -> same n (apply n A sol) b -> definite n M ->
  0 <= r_tolerance o -> (0 <= min_num_iterations o)%Z -> (min_num_iterations o <= max_num_iterations o)%Z -> (Z.of_nat n <= max_num_iterations o)%Z ->
  exists s x, ConjugateGradientsSolver n o lhs b preconditioner junk x0 = Some (s, x) /\ (num_iterations s <= Z.of_nat (S n))%Z /\
    ((termination_type s = SUCCESS /\ (num_iterations s <= Z.of_nat n)%Z /\ small_residual n A b (r_tolerance o) x) \/
     (termination_type s = SUCCESS /\ (num_iterations s <= Z.of_nat n)%Z /\ exists k x', num_iterations s = Z.of_nat k /\ Q n A b x < Q n A b x' /\ small_decrease n A b (q_tolerance o) k x x') \/
     (termination_type s = FAILURE /\ same n (apply n A x) b /\ (num_iterations s <= min_num_iterations o)%Z /\ (0 < min_num_iterations o)%Z)).
Proof.
  intros n A M b x0 o lhs pre junk sol SA SM RA RM Hp PA Hsol PM Hr H0m Hmm Hmax.
  destruct (solver_spec n A M b x0 SA SM o lhs pre RA RM Hp junk) as [s [x [E [[Zb [Es Zx]]|[N X]]]]]; exists s, x; (split; [exact E|]).
  { rewrite Es. cbn [termination_type num_iterations]. split; [lia|]. left. split; [reflexivity|]. split; [lia|]. apply residual_zero_small; [exact Hr|]. intros i Hi. unfold residual. rewrite (Zb i Hi). unfold apply. rewrite sumn_zero; [ring|]. intros j Hj. rewrite Zx. ring. }
  destruct (explained_path n A M b x0 SA SM o s x X) as [k [xs [[_ [Hk [Hkm [_ [Hd _]]]]] [Ex [J Hn]]]]].
  unfold justified in J. rewrite Ex in J. destruct (message s).
  - contradiction.
  - destruct J as [T [I [K [_ R]]]]. split; [lia|]. left. split; [exact T|]. split; [lia|exact R].
  - destruct J as [T [I [S R]]]. split; [lia|]. right. right. split; [exact T|].
    assert (same n (residual n A b x) (fun _ => 0)) as Z.
    { intros i Hi. destruct (Req_EM_T (residual n A b x i) 0) as [E0|N0]; [exact E0|exfalso]. pose proof (PM (residual n A b x) (ex_intro _ i (conj Hi N0))). lra. }
    split; [intros i Hi; specialize (Z i Hi); unfold residual in Z; lra|].
    assert (~ may_stop o k) as Nm by (intro Hm; apply S; split; [exact Hm|left; apply residual_zero_small; assumption]).
    assert (n <> 0%nat) as Nn by (intro E0; apply N; intros i Hi; lia).
    unfold may_stop in Nm. destruct (Nat.eqb_spec k 0) as [->|Nk]; lia.
  - contradiction.
  - destruct J as [_ [_ [_ [p [P1 P2]]]]]. exfalso. apply P2.
    rewrite (ip_ext n p p (residual n A b x) (apply n A (Axpby 1 sol (-1) x)) (same_refl n p)) by (intros i Hi; rewrite apply_ax; unfold residual; rewrite <- (Hsol i Hi); ring).
    apply null_curvature; assumption.
  - destruct J as [T [I [St D]]]. split; [lia|]. right. left. split; [exact T|]. split; [lia|]. exists k, (xs (k - 1)%nat). split; [exact I|]. split; [|exact D].
    destruct D as [D0 _]. rewrite <- Ex. replace k with (S (k - 1)) at 1 by lia. apply Hd. lia.
  - destruct J as [T [I [K [_ R]]]]. split; [lia|]. left. split; [exact T|]. split; [lia|exact R].
  - destruct J as [T [I [K [L St]]]]. exfalso. apply St. assert (k = n) as Ek by lia. split; [unfold may_stop; destruct (Nat.eqb_spec k 0); lia|left]. apply residual_zero_small; [exact Hr|exact (Hn Ek)].
Qed.
Print Assumptions cg_solves.

(* Started at zero, as the callers do without an initial guess, and with the quadratic model
   test off, success means a small residual. *)
Theorem cg_success : forall n A M b x0 o lhs preconditioner junk s x,
  symmetric n A -> symmetric n M -> represents n lhs A -> represents n preconditioner M -> residual_reset_period o <> 0%Z ->
  same n x0 (fun _ => 0) -> q_tolerance o <= 0 -> 0 <= r_tolerance o ->
  ConjugateGradientsSolver n o lhs b preconditioner junk x0 = Some (s, x) -> termination_type s = SUCCESS -> small_residual n A b (r_tolerance o) x.
Proof.
  intros n A M b x0 o lhs pre junk s x SA SM RA RM Hp Z Hq Hr E T. destruct (cg_result n A M b x0 o lhs pre junk SA SM RA RM Hp) as [s' [x' [E' R]]]. rewrite E in E'. injection E' as <- <-.
  destruct R as [[Zb [_ Zx]]|[_ [k [xs [[X0 [_ [_ [_ [D _]]]]] [Ex J]]]]]].
  { apply residual_zero_small; [exact Hr|]. intros i Hi. unfold residual. rewrite (Zb i Hi). unfold apply. rewrite sumn_zero; [ring|]. intros j Hj. rewrite Zx. ring. }
  unfold justified in J. rewrite Ex in J. destruct (message s); try contradiction; try (destruct J as [J _]; rewrite T in J; discriminate); try (destruct J as [_ [_ [_ [_ J]]]]; exact J).
  exfalso. destruct J as [_ [_ [_ [K [J _]]]]].
  assert (forall j, (j <= k)%nat -> Q n A b (xs j) <= 0 /\ ((0 < j)%nat -> Q n A b (xs j) < 0)) as Neg.
  { induction j as [|j IH]; intro Hj.
    - split; [|lia]. right. unfold Q. rewrite (ip_ext n (xs 0%nat) (fun _ => 0) (apply n A (xs 0%nat)) (apply n A (xs 0%nat))), (ip_ext n b b (xs 0%nat) (fun _ => 0)), ip_zero_r, ip_comm, ip_zero_r; [ring| | | |]; try apply same_refl; exact (same_trans n _ _ _ X0 Z).
    - pose proof (proj1 (IH ltac:(lia))). pose proof (D j ltac:(lia)). split; [lra|intros _; lra]. }
  pose proof (proj2 (Neg k ltac:(lia)) K) as Nk. rewrite Ex in Nk. specialize (D (k - 1)%nat ltac:(lia)). replace (S (k - 1)) with k in D by lia. rewrite Ex in D. specialize (J ltac:(lra)).
  set (q1 := Q n A b x) in *. set (q0 := Q n A b (xs (k - 1)%nat)) in *. assert (0 < INR k) as Pk by (apply lt_0_INR; exact K).
  assert (0 < INR k * (q1 - q0) / q1); [|lra]. replace (INR k * (q1 - q0) / q1) with (INR k * (q0 - q1) / (- q1)) by (field; lra). apply Rdiv_lt_0_compat; [apply Rmult_lt_0_compat; lra|lra].
Qed.
Print Assumptions cg_success.

(* ---------------- the hypotheses can be met ---------------- *)
Definition A2 : matrix := fun i j => if (i =? j)%nat then (if (i =? 0)%nat then 2 else 3) else 1.
Definition M2 : matrix := fun i j => if (i =? j)%nat then (if (i =? 0)%nat then / 2 else / 3) else 0.
Definition op (n : nat) (B : matrix) : Operator := fun x y i => y i + apply n B x i.
Definition b2 : vec := fun i => if (i =? 0)%nat then 3 else 4.
Lemma op_represents n B : represents n (op n B) B. Proof. intros x i _. unfold op. ring. Qed.
Lemma A2_symmetric : symmetric 2 A2. Proof. intros i j Hi Hj. destruct i as [|[|i]]; destruct j as [|[|j]]; try lia; reflexivity. Qed.
Lemma M2_symmetric : symmetric 2 M2. Proof. intros i j Hi Hj. destruct i as [|[|i]]; destruct j as [|[|j]]; try lia; reflexivity. Qed.
Lemma A2_semidefinite : semidefinite 2 A2.
Proof.
  intro v. unfold inner, apply, A2. cbn [sumn Nat.eqb]. pose proof (Rle_0_sqr (v 0%nat + v 1%nat)) as P. pose proof (Rle_0_sqr (v 0%nat)). pose proof (Rle_0_sqr (v 1%nat)). unfold Rsqr in *. lra.
Qed.
Lemma M2_definite : definite 2 M2.
Proof.
  intros v [i [Hi Ni]]. unfold inner, apply, M2. cbn [sumn Nat.eqb]. pose proof (Rle_0_sqr (v 0%nat)) as P0. pose proof (Rle_0_sqr (v 1%nat)) as P1.
  assert (0 < Rsqr (v 0%nat) \/ 0 < Rsqr (v 1%nat)) as P by (destruct i as [|[|i]]; [left; apply Rsqr_pos_lt; exact Ni|right; apply Rsqr_pos_lt; exact Ni|lia]). unfold Rsqr in *. lra.
Qed.
Definition o2 : Options := mkOptions 0 500 10 (/ 10) 0.
Example cg_instance : exists s x, ConjugateGradientsSolver 2 o2 (op 2 A2) b2 (op 2 M2) Zero Zero = Some (s, x) /\ termination_type s = SUCCESS /\ (num_iterations s <= 2)%Z /\ small_residual 2 A2 b2 (/ 10) x.
Proof.
  destruct (cg_solves 2 A2 M2 b2 Zero o2 (op 2 A2) (op 2 M2) Zero (fun _ => 1) A2_symmetric M2_symmetric (op_represents 2 A2) (op_represents 2 M2)) as [s [x [E [_ R]]]].
  - cbn. lia.
  - exact A2_semidefinite.
  - intros i Hi. unfold apply, A2, b2. destruct i as [|[|i]]; try lia; cbn [sumn Nat.eqb]; ring.
  - exact M2_definite.
  - cbn. lra.
  - cbn. lia.
  - cbn. lia.
  - cbn. lia.
  - exists s, x. split; [exact E|]. assert (termination_type s = SUCCESS /\ (num_iterations s <= 2)%Z) as [T I].
    { destruct R as [[T [I _]]|[[T [I _]]|[_ [_ [_ L]]]]]; [split; [exact T|exact I]|split; [exact T|exact I]|cbn in L; lia]. }
    split; [exact T|]. split; [exact I|]. apply (cg_success 2 A2 M2 b2 Zero o2 (op 2 A2) (op 2 M2) Zero s x A2_symmetric M2_symmetric (op_represents 2 A2) (op_represents 2 M2)); [cbn; lia|intros i _; reflexivity|cbn; lra|cbn; lra|exact E|exact T].
Qed.

(* ---------------- what is not so ---------------- *)
(* An exact initial guess is reported as a failure when min_num_iterations is positive. *)
Theorem cg_exact_guess_refuted : ConjugateGradientsSolver 1 (mkOptions 1 500 10 (/ 10) (/ 10)) (op 1 (fun _ _ => 1)) (fun _ => 1) (op 1 (fun _ _ => 1)) Zero (fun _ => 1) = Some (mkSummary FAILURE RhoIsZero 1, fun _ => 1).
Proof.
  unfold ConjugateGradientsSolver. assert (Norm 1 (fun _ => 1) = 1) as -> by (unfold Norm, Dot; cbn [sumn]; replace (0 + 1 * 1) with 1 by ring; apply sqrt_1).
  unfold is_zero at 1. destruct (Req_EM_T 1 0); [lra|]. cbn [min_num_iterations Z.eqb andb max_num_iterations]. generalize (Z.to_nat 500) as f. intro f. cbn [Iterate].
  set (z := Dot 1 _ (op _ _ _ _)). assert (z = 0) as -> by (unfold z, Dot, op, Axpby, apply, Zero; cbn [sumn]; ring). unfold is_zero. destruct (Req_EM_T 0 0); [reflexivity|lra].
Qed.
Print Assumptions cg_exact_guess_refuted.
(* Started away from zero, the quadratic model test can report success although the model
   has just fallen from 80 to less than 1, far from its minimum, and the residual is longer
   than the right hand side. *)
Definition A3 : matrix := fun i j => if (i =? j)%nat then (if (i =? 0)%nat then 1 else 4) else 0.
Definition I3 : matrix := fun i j => if (i =? j)%nat then 1 else 0.
Definition b3 : vec := fun _ => 1.
Definition x3 : vec := fun i => if (i =? 0)%nat then 10 else 0.
Definition o3 : Options := mkOptions 0 500 10 (/ 10) (/ 10).
Theorem cg_model_test_refuted : exists x, ConjugateGradientsSolver 2 o3 (op 2 A3) b3 (op 2 I3) Zero x3 = Some (mkSummary SUCCESS QuadraticModel 1, x) /\ length_of 2 b3 < length_of 2 (residual 2 A3 b3 x).
Proof.
  assert (symmetric 2 A3 /\ symmetric 2 I3) as [S1 S2] by (split; intros i j Hi Hj; destruct i as [|[|i]]; destruct j as [|[|j]]; try lia; reflexivity).
  assert (Norm 2 b3 = sqrt 2) as Nb by (unfold Norm, Dot, b3; cbn [sumn]; f_equal; ring). pose proof (sqrt_lt_R0 2 ltac:(lra)) as P2.
  set (r0 := Axpby 1 b3 (-1) (op 2 A3 x3 Zero)).
  assert (r0 0%nat = -9 /\ r0 1%nat = 1) as [R0 R1] by (split; unfold r0, Axpby, op, apply, A3, x3, b3, Zero; cbn [sumn Nat.eqb]; ring).
  unfold ConjugateGradientsSolver. rewrite Nb. unfold is_zero at 1. destruct (Req_EM_T (sqrt 2) 0) as [E|_]; [lra|]. fold r0.
  assert (le (Norm 2 r0) (r_tolerance o3 * sqrt 2) = false) as ->.
  { unfold le. destruct (Rle_dec _ _) as [L|]; [exfalso|reflexivity]. cbn [r_tolerance o3] in L. assert (sqrt 2 < Norm 2 r0); [|lra]. unfold Norm, Dot. cbn [sumn]. rewrite R0, R1. apply sqrt_lt_1; lra. }
  rewrite andb_false_r. cbn [max_num_iterations o3]. generalize (Z.to_nat 500) as f. intro f. cbn [Iterate].
  set (z := op 2 I3 r0 Zero). assert (z 0%nat = -9 /\ z 1%nat = 1) as [Z0 Z1] by (split; unfold z, op, apply, I3, Zero; cbn [sumn Nat.eqb]; rewrite R0, R1; ring).
  assert (Dot 2 r0 z = 82) as -> by (unfold Dot; cbn [sumn]; rewrite R0, R1, Z0, Z1; ring).
  unfold is_zero at 1. destruct (Req_EM_T 82 0); [lra|]. cbn [Z.eqb Pos.eqb negb andb].
  assert (Dot 2 z (op 2 A3 z Zero) = 85) as -> by (unfold Dot, op, apply, A3, Zero; cbn [sumn Nat.eqb]; rewrite Z0, Z1; ring).
  unfold le at 1. destruct (Rle_dec 85 0); [lra|]. cbn [residual_reset_period o3 Z.eqb].
  change (Z.rem 1 10 =? 0)%Z with false. cbv iota.
  set (x := Axpby 1 x3 (82 / 85) z). set (r := Axpby 1 r0 (- (82 / 85)) (op 2 A3 z Zero)).
  assert (x 0%nat = 10 - 9 * (82 / 85) /\ x 1%nat = 82 / 85) as [X0 X1] by (split; unfold x, Axpby, x3; cbn [Nat.eqb]; rewrite ?Z0, ?Z1; ring).
  assert (r 0%nat = - 27 / 85 /\ r 1%nat = - 243 / 85) as [Q0 Q1] by (split; unfold r, Axpby, op, apply, A3, Zero; cbn [sumn Nat.eqb]; rewrite ?R0, ?R1, ?Z0, ?Z1; field).
  assert (- Dot 2 x (Axpby 1 b3 1 r) = 76 / 85) as -> by (unfold Dot, Axpby, b3; cbn [sumn]; rewrite X0, X1, Q0, Q1; field).
  assert (- Dot 2 x3 (Axpby 1 b3 1 r0) = 80) as -> by (unfold Dot, Axpby, b3, x3; cbn [sumn Nat.eqb]; rewrite R0; ring).
  assert (zeta_below 1 (76 / 85) 80 (q_tolerance o3) = true) as ->.
  { unfold zeta_below, is_zero, lt. destruct (Req_EM_T (76 / 85) 0); [lra|]. destruct (Rlt_dec _ _) as [|L]; [reflexivity|exfalso; apply L]. cbn [q_tolerance o3]. replace (1 * (76 / 85 - 80) / (76 / 85)) with ((76 / 85 - 80) * 85 / 76) by field. lra. }
  cbn [andb min_num_iterations o3 Z.leb Z.compare]. exists x. split; [reflexivity|].
  unfold length_of. apply sqrt_lt_1; unfold inner, residual, apply, A3, b3; cbn [sumn Nat.eqb]; rewrite ?X0, ?X1; lra.
Qed.
Print Assumptions cg_model_test_refuted.
