(* C79: objective functions, manifolds and TinySolver functions built from functors. *)
From Coq Require Import Reals List ZArith Bool Lia Lra FunctionalExtensionality.
From Coquelicot Require Import Coquelicot.
From Verif Require Import JetModel JetSpec JetProofs4 JetProps AutoDiffModel AutoDiffSpec AutoDiffProofs AutoDiffProofs2 AutoDiffProps AdfModel AdfSpec AdfProofs.
From Verif Require NumDiffModel NumDiffSpec NumDiffProofs NumDiffProps.
Import ListNotations.
Local Open Scope nat_scope.

(* ---------------- AutoDiffFirstOrderFunction ---------------- *)
(* the value and, if asked for, the exact gradient *)
Theorem adf_objective cpp20 f e N old x : functor_uses N f -> functor_regular f x -> f_out f = [e] ->
  (~ accepts f x -> forall gradient, AutoDiffFirstOrderFunction_Evaluate cpp20 f N old (fun i => Some (x i)) gradient = EvalFalse) /\
  (accepts f x ->
     AutoDiffFirstOrderFunction_Evaluate cpp20 f N old (fun i => Some (x i)) None = EvalTrue [Some (val e x)] None /\
     forall g, exists g' d,
       AutoDiffFirstOrderFunction_Evaluate cpp20 f N old (fun i => Some (x i)) (Some g) = EvalTrue [Some (val e x)] (Some g') /\
       gradient_at N (val e) x d /\
       (forall i, i < N -> g' i = Some (d i) /\ partial_at (val e) x i (d i)) /\ (forall i, N <= i -> g' i = g i)).
Proof.
  intros U Rg O. unfold AutoDiffFirstOrderFunction_Evaluate.
  pose proof (jets_at cpp20 N f (seeded N (fun i => Some (x i)) old) (fun i => Some (x i)) U (fun i H => seeded_at N _ old i H)) as J.
  split; intro A.
  - rewrite (run_doubles_rejects _ _ _ U Rg A) in *. intros [g|]; [|reflexivity]. destruct (run_jets _ _ _); [contradiction|reflexivity].
  - rewrite (run_doubles_accepts _ _ _ U Rg A) in *. rewrite O in J |- *. split; [reflexivity|]. intro g.
    destruct (run_jets _ _ _) as [out|]; [|contradiction]. destruct J as (J1 & J2 & J3). cbn [map length] in J1, J2, J3.
    destruct (deriv_gradient cpp20 N f x 0 U Rg) as (d & D1 & D2); [rewrite O; cbn; lia|].
    unfold component in D1, D2. rewrite O in D1, D2. cbn [nth] in D1, D2.
    eexists. exists d. rewrite J1. split; [reflexivity|]. split; [exact D1|]. split.
    + intros i Hi. rewrite write_all_id, (proj2 (Nat.ltb_lt i N) Hi), (J3 0 i) by lia. exact (D2 i Hi).
    + intros i Hi. rewrite write_all_id, (proj2 (Nat.ltb_ge i N) Hi). reflexivity.
Qed.
Print Assumptions adf_objective.

(* asking for the gradient does not change the value, at any point *)
Theorem adf_objective_same_value cpp20 f N old x g : functor_uses N f ->
  value_of (AutoDiffFirstOrderFunction_Evaluate cpp20 f N old x (Some g)) = value_of (AutoDiffFirstOrderFunction_Evaluate cpp20 f N old x None).
Proof.
  intro U. unfold AutoDiffFirstOrderFunction_Evaluate.
  pose proof (jets_at cpp20 N f (seeded N x old) x U (fun i H => seeded_at N _ old i H)) as J.
  destruct (run_jets _ _ _), (run_doubles _ _); try contradiction; [|reflexivity]. destruct J as (-> & _). reflexivity.
Qed.
Print Assumptions adf_objective_same_value.

(* ---------------- TinySolverAutoDiffFunction ---------------- *)
Theorem adf_tiny cpp20 f N old x : functor_uses N f -> functor_regular f x -> let M := length (f_out f) in
  (~ accepts f x -> forall j, TinySolverAutoDiffFunction_call cpp20 f N old (fun i => Some (x i)) j = EvalFalse) /\
  (accepts f x ->
     let r := map (fun e => Some (val e x)) (f_out f) in
     TinySolverAutoDiffFunction_call cpp20 f N old (fun i => Some (x i)) None = EvalTrue r None /\
     forall j, exists j',
       TinySolverAutoDiffFunction_call cpp20 f N old (fun i => Some (x i)) (Some j) = EvalTrue r (Some j') /\
       (forall q c, q < M -> c < N -> exists d, j' (col_major M q c) = Some d /\ partial_at (component f q) x c d) /\
       (forall i, M * N <= i -> j' i = j i)).
Proof.
  cbv zeta. intros U Rg. unfold TinySolverAutoDiffFunction_call.
  pose proof (jets_at cpp20 N f (seeded N (fun i => Some (x i)) old) (fun i => Some (x i)) U (fun i H => seeded_at N _ old i H)) as J.
  split; intro A.
  - rewrite (run_doubles_rejects _ _ _ U Rg A) in *. intros [g|]; [|reflexivity]. destruct (run_jets _ _ _); [contradiction|reflexivity].
  - rewrite (run_doubles_accepts _ _ _ U Rg A) in *. split; [reflexivity|]. intro j.
    destruct (run_jets _ _ _) as [out|]; [|contradiction]. destruct J as (J1 & J2 & J3).
    eexists. rewrite J1, J2. split; [reflexivity|]. destruct (write_matrix_spec N (length (f_out f)) (fun r => jv (nth r out jet_default)) j) as [W1 W2]. split.
    + intros q c Hq Hc. rewrite (W1 q c Hq Hc), (J3 q c Hq). destruct (deriv_gradient cpp20 N f x q U Rg Hq) as (d & _ & D). exists (d c). exact (D c Hc).
    + exact W2.
Qed.
Print Assumptions adf_tiny.
(* whatever earlier calls left in the buffers *)
Theorem adf_tiny_stateless cpp20 f N old old' x j : functor_uses N f -> (forall i, N <= i -> old i = old' i) ->
  TinySolverAutoDiffFunction_call cpp20 f N old x j = TinySolverAutoDiffFunction_call cpp20 f N old' x j.
Proof.
  intros U H. unfold TinySolverAutoDiffFunction_call. destruct j as [j|]; [|reflexivity].
  replace (seeded N x old) with (seeded N x old'); [reflexivity|]. apply functional_extensionality. intro i.
  destruct (Nat.lt_ge_cases i N) as [L|L]; [rewrite !seeded_at by exact L; reflexivity|].
  assert (G : forall o, seeded N x o i = o i).
  { intro o. clear -L. unfold seeded. induction N as [|n IH]; [reflexivity|]. rewrite seq_S, fold_left_app. cbn [fold_left Nat.add]. unfold upd at 1.
    destruct (Nat.eqb_spec i n); [lia|]. apply IH. lia. }
  rewrite !G. symmetry. apply H. exact L.
Qed.
Print Assumptions adf_tiny_stateless.

(* ---------------- AutoDiffManifold ---------------- *)
Definition zero_vector : nat -> R := fun _ => 0%R.
Lemma plus_point A x : (fun i => if i <? A then Some (x i) else nz) = (fun i => Some (joined A x zero_vector i)).
Proof. apply functional_extensionality. intro i. unfold joined, zero_vector, nz. destruct (i <? A); reflexivity. Qed.
Lemma minus_point A x : (fun i => if i <? A then Some (x i) else Some (x (i - A))) = (fun i => Some (joined A x x i)).
Proof. apply functional_extensionality. intro i. unfold joined. destruct (i <? A); reflexivity. Qed.
Lemma replace_delta A x c t : replace_arg (joined A x zero_vector) (A + c) t = joined A x (along_axis c t).
Proof.
  apply functional_extensionality. intro i. unfold replace_arg, joined, zero_vector, along_axis.
  destruct (Nat.eqb_spec i (A + c)), (Nat.ltb_spec i A), (Nat.eqb_spec (i - A) c); try lia; reflexivity.
Qed.
Lemma replace_y A x c t : c < A -> replace_arg (joined A x x) c t = joined A (replace_arg x c t) x.
Proof.
  intro H. apply functional_extensionality. intro i. unfold replace_arg, joined.
  destruct (Nat.eqb_spec i c), (Nat.ltb_spec i A); try lia; reflexivity.
Qed.

(* PlusJacobian is the derivative of Plus(x, .) at zero *)
Theorem adf_plus_jacobian cpp20 plus A T x jac :
  functor_uses (A + T) plus -> length (f_out plus) = A -> functor_regular plus (joined A x zero_vector) ->
  (~ accepts plus (joined A x zero_vector) -> PlusJacobian cpp20 plus A T (fun i => Some (x i)) jac = None) /\
  (accepts plus (joined A x zero_vector) -> exists jac', PlusJacobian cpp20 plus A T (fun i => Some (x i)) jac = Some jac' /\
     (forall r c, r < A -> c < T -> exists d, jac' (row_major T r c) = Some d /\
        is_derive (fun t => real_plus A plus x (along_axis c t) r) 0%R d) /\
     (forall i, A * T <= i -> jac' i = jac i)).
Proof.
  intros U L Rg. pose proof (plus_at cpp20 plus A T (fun i => Some (x i)) jac U L) as P. cbv beta zeta in P. rewrite plus_point in P. split; intro Ac.
  - rewrite (run_doubles_rejects _ _ _ U Rg Ac) in P. destruct (PlusJacobian _ _ _ _ _ _); [contradiction|reflexivity].
  - rewrite (run_doubles_accepts _ _ _ U Rg Ac) in P. destruct (PlusJacobian _ _ _ _ _ _) as [d'|]; [|contradiction]. exists d'. split; [reflexivity|].
    destruct P as [P1 P2]. split; [|exact P2]. intros r c Hr Hc. destruct (deriv_gradient cpp20 (A + T) plus _ r U Rg) as (g & _ & G); [lia|].
    destruct (G (A + c)) as [G1 G2]; [lia|]. exists (g (A + c)). rewrite (P1 r c Hr Hc). split; [exact G1|].
    unfold partial_at in G2. unfold real_plus. replace (joined A x zero_vector (A + c)) with 0%R in G2.
    + apply (is_derive_ext (fun t => component plus r (replace_arg (joined A x zero_vector) (A + c) t))); [|exact G2]. intro t. rewrite replace_delta. reflexivity.
    + unfold joined, zero_vector. destruct (Nat.ltb_spec (A + c) A); [lia|reflexivity].
Qed.
Print Assumptions adf_plus_jacobian.

(* MinusJacobian is the derivative of Minus(., x) at x *)
Theorem adf_minus_jacobian cpp20 minus A T x jac :
  functor_uses (A + A) minus -> length (f_out minus) = T -> functor_regular minus (joined A x x) ->
  (~ accepts minus (joined A x x) -> MinusJacobian cpp20 minus A (fun i => Some (x i)) jac = None) /\
  (accepts minus (joined A x x) -> exists jac', MinusJacobian cpp20 minus A (fun i => Some (x i)) jac = Some jac' /\
     (forall r c, r < T -> c < A -> exists d, jac' (row_major A r c) = Some d /\
        is_derive (fun t => real_minus A minus (replace_arg x c t) x r) (x c) d) /\
     (forall i, T * A <= i -> jac' i = jac i)).
Proof.
  intros U L Rg. pose proof (minus_at cpp20 minus A (fun i => Some (x i)) jac U) as P. cbv beta zeta in P. rewrite minus_point in P. split; intro Ac.
  - rewrite (run_doubles_rejects _ _ _ U Rg Ac) in P. destruct (MinusJacobian _ _ _ _ _); [contradiction|reflexivity].
  - rewrite (run_doubles_accepts _ _ _ U Rg Ac) in P. destruct (MinusJacobian _ _ _ _ _) as [d'|]; [|contradiction]. exists d'. split; [reflexivity|].
    rewrite L in P. destruct P as [P1 P2]. split; [|exact P2]. intros r c Hr Hc. destruct (deriv_gradient cpp20 (A + A) minus _ r U Rg) as (g & _ & G); [lia|].
    destruct (G c) as [G1 G2]; [lia|]. exists (g c). rewrite (P1 r c Hr Hc). split; [exact G1|].
    unfold partial_at in G2. unfold real_minus. replace (joined A x x c) with (x c) in G2.
    + apply (is_derive_ext (fun t => component minus r (replace_arg (joined A x x) c t))); [|exact G2]. intro t. rewrite replace_y by exact Hc. reflexivity.
    + unfold joined. destruct (Nat.ltb_spec c A); [reflexivity|lia].
Qed.
Print Assumptions adf_minus_jacobian.

Lemma dot_dot_range n f g : dot n f g = dot_range n (fun i => (f i * g i)%R).
Proof. induction n as [|n IH]; [reflexivity|]. cbn [dot dot_range]. rewrite IH. reflexivity. Qed.
Lemma dot_range_ext n f g : (forall i, i < n -> f i = g i) -> dot_range n f = dot_range n g.
Proof. induction n as [|n IH]; intro H; [reflexivity|]. cbn [dot_range]. rewrite IH, H by (intros; try apply H; lia). reflexivity. Qed.
Lemma dot_joined A x y d : dot (A + A) d (joined A x y) = (dot_range A (fun i => (d i * x i)%R) + dot_range A (fun i => (d (A + i)%nat * y i)%R))%R.
Proof.
  rewrite dot_dot_range. assert (G : forall n, dot_range (A + n) (fun i => (d i * joined A x y i)%R) =
    (dot_range A (fun i => (d i * x i)%R) + dot_range n (fun i => (d (A + i)%nat * y i)%R))%R); [|apply G].
  induction n as [|n IH].
  - rewrite Nat.add_0_r. cbn [dot_range]. rewrite Rplus_0_r. apply dot_range_ext. intros i Hi. unfold joined. rewrite (proj2 (Nat.ltb_lt i A) Hi). reflexivity.
  - rewrite Nat.add_succ_r. cbn [dot_range]. rewrite IH. unfold joined at 1. destruct (Nat.ltb_spec (A + n) A); [lia|]. replace (A + n - A) with n by lia. ring.
Qed.

(* if Minus undoes Plus near zero, the product of the Jacobians is the identity *)
Theorem adf_manifold_inverse cpp20 plus minus A T x jp jm jp' jm' :
  functor_uses (A + T) plus -> length (f_out plus) = A -> functor_regular plus (joined A x zero_vector) ->
  functor_uses (A + A) minus -> length (f_out minus) = T -> functor_regular minus (joined A x x) ->
  PlusJacobian cpp20 plus A T (fun i => Some (x i)) jp = Some jp' ->
  MinusJacobian cpp20 minus A (fun i => Some (x i)) jm = Some jm' ->
  (forall r, r < A -> real_plus A plus x zero_vector r = x r) ->
  (forall c r, c < T -> r < T -> locally 0%R (fun t => real_minus A minus (real_plus A plus x (along_axis c t)) x r = along_axis c t r)) ->
  exists P M, (forall r c, r < A -> c < T -> jp' (row_major T r c) = Some (P r c)) /\ (forall r c, r < T -> c < A -> jm' (row_major A r c) = Some (M r c)) /\
    forall r c, r < T -> c < T -> dot_range A (fun k => (M r k * P k c)%R) = (if r =? c then 1%R else 0%R).
Proof.
  intros Up Lp Rp Um Lm Rm HP HM Px Inv.
  pose proof (plus_at cpp20 plus A T (fun i => Some (x i)) jp Up Lp) as Pp. cbv beta zeta in Pp. rewrite plus_point, HP in Pp.
  destruct (run_doubles plus _); [|contradiction]. destruct Pp as [P1 _].
  pose proof (minus_at cpp20 minus A (fun i => Some (x i)) jm Um) as Mm. cbv beta zeta in Mm. rewrite minus_point, HM in Mm.
  destruct (run_doubles minus _); [|contradiction]. destruct Mm as [M1 _].
  set (P := fun r c => match deriv cpp20 plus (fun i => Some (joined A x zero_vector i)) r (A + c) with Some v => v | None => 0%R end).
  set (M := fun r c => match deriv cpp20 minus (fun i => Some (joined A x x i)) r c with Some v => v | None => 0%R end).
  exists P, M. split; [|split].
  - intros r c Hr Hc. rewrite (P1 r c Hr Hc). unfold P. destruct (deriv_gradient cpp20 (A + T) plus _ r Up Rp) as (g & _ & G); [lia|].
    destruct (G (A + c)) as [-> _]; [lia|reflexivity].
  - intros r c Hr Hc. rewrite (M1 r c) by lia. unfold M. destruct (deriv_gradient cpp20 (A + A) minus _ r Um Rm) as (g & _ & G); [lia|].
    destruct (G c) as [-> _]; [lia|reflexivity].
  - intros r c Hr Hc. destruct (deriv_gradient cpp20 (A + A) minus _ r Um Rm) as (g & Gg & G); [lia|].
    set (curve := fun t => joined A (real_plus A plus x (along_axis c t)) x).
    assert (D : is_derive (fun t => component minus r (curve t)) 0%R (dot (A + A) g (joined A (fun k => P k c) zero_vector))).
    { apply Gg. intros i Hi. unfold curve, joined. destruct (Nat.ltb_spec i A) as [Li|Li].
      - split.
        + rewrite <- (Px i Li). unfold real_plus. f_equal. apply functional_extensionality. intro k. unfold joined, along_axis, zero_vector. destruct (k <? A); [reflexivity|]. destruct (_ =? _); reflexivity.
        + destruct (deriv_gradient cpp20 (A + T) plus _ i Up Rp) as (gp & _ & Gp); [lia|]. destruct (Gp (A + c)) as [G1 G2]; [lia|].
          unfold P. rewrite G1. unfold partial_at in G2. replace (joined A x zero_vector (A + c)) with 0%R in G2.
          * apply (is_derive_ext (fun t => component plus i (replace_arg (joined A x zero_vector) (A + c) t))); [|exact G2]. intro t. rewrite replace_delta. reflexivity.
          * unfold joined, zero_vector. destruct (Nat.ltb_spec (A + c) A); [lia|reflexivity].
      - split; [reflexivity|]. unfold zero_vector. apply (is_derive_const (K:=R_AbsRing) (V:=R_NormedModule)). }
    assert (D2 : is_derive (fun t => component minus r (curve t)) 0%R (if r =? c then 1%R else 0%R)).
    { apply (is_derive_ext_loc (fun t => along_axis c t r)).
      - destruct (Inv c r Hc Hr) as [eps He]. exists eps. intros t Ht. symmetry. exact (He t Ht).
      - unfold along_axis. destruct (r =? c); [apply (is_derive_id (K:=R_AbsRing))|apply (is_derive_const (K:=R_AbsRing) (V:=R_NormedModule))]. }
    apply is_derive_unique in D. apply is_derive_unique in D2. rewrite D in D2. refine (eq_trans _ D2). rewrite dot_joined.
    replace (dot_range A (fun i => (g (A + i)%nat * zero_vector i)%R)) with 0%R.
    + rewrite Rplus_0_r. apply dot_range_ext. intros k Hk. unfold M. destruct (G k) as [-> _]; [lia|]. reflexivity.
    + clear. generalize A at 1 as n. induction n as [|n IH]; [reflexivity|]. cbn [dot_range]. rewrite <- IH. unfold zero_vector. ring.
Qed.
Print Assumptions adf_manifold_inverse.

(* ---------------- NumericDiffFirstOrderFunction ---------------- *)
Definition numeric_via (m : NumDiffModel.Method) o f ja jb junk (x : list R) (gradient : option (nat -> R)) :=
  NumDiffModel.DynamicEvaluate m o (objective f) 1 ja jb junk [x] (option_map (fun g => [Some g]) gradient).
Lemma objective_at f x : objective f [x] = match f x with Some c => Some (fun _ => c) | None => None end.
Proof. reflexivity. Qed.
Lemma numeric_same dynamic m o f ja jb junk x gradient :
  let out := NumericDiffFirstOrderFunction_Evaluate dynamic m o f ja jb junk x gradient in let via := numeric_via m o f ja jb junk x gradient in
  n_status out = NumDiffModel.status via /\ n_cost out = option_map (fun r => r 0) (NumDiffModel.out_residuals via) /\
  n_gradient out = match NumDiffModel.out_jacobians via with Some js => nth 0 js None | None => None end /\
  n_calls out = map (fun p => nth 0 p []) (NumDiffModel.out_calls via).
Proof.
  cbv zeta. unfold NumericDiffFirstOrderFunction_Evaluate, numeric_via, NumDiffModel.DynamicEvaluate. rewrite objective_at.
  destruct (f x) as [c|]; [|destruct gradient; cbn; auto]. destruct gradient as [g|]; cbn [option_map]; [|cbn; auto].
  cbn [NumDiffModel.Blocks]. destruct (NumDiffModel.EvaluateJacobianForParameterBlock _ _ _ _ _ _ _ _ _ _ _) as [[[|] g'] s]; destruct dynamic; cbn; auto.
Qed.

(* on success: the value, and the documented difference quotients (NumDiffSpec.jacobian_of: one residual, the gradient is its only row) *)
Theorem ndf_success dynamic m o f ja jb junk x g : NumDiffSpec.sensible m o ->
  let out := NumericDiffFirstOrderFunction_Evaluate dynamic m o f ja jb junk x (Some g) in n_status out = true ->
  exists c g', f x = Some c /\ n_cost out = Some c /\ n_gradient out = Some g' /\
    (forall j, j < length x -> exists q, NumDiffSpec.column m o (objective f) 1 (fun _ => c) [x] 0 j q /\ g' j = q 0) /\
    (forall i, length x <= i -> g' i = g i).
Proof.
  intros Ok out St. destruct (numeric_same dynamic m o f ja jb junk x (Some g)) as (E1 & E2 & E3 & _). fold out in E1, E2, E3.
  rewrite E1 in St. unfold numeric_via in *. cbn [option_map] in *.
  destruct (NumDiffProps.numdiff_success m o (objective f) 1 ja jb junk [x] [Some g] Ok (le_n 1) St) as (r & js & F & R1 & J1 & J2 & _ & J4).
  rewrite R1 in E2. rewrite J1 in E3. destruct (J4 0 g eq_refl) as (g' & N & JO1 & JO2). cbn [nth] in JO1, JO2.
  unfold objective in F. cbn [nth] in F. destruct (f x) as [c|]; [|discriminate]. injection F as <-. cbn [option_map] in E2.
  destruct js as [|j0 js]; [discriminate|]. cbn [nth_error] in N. injection N as ->. cbn [nth] in E3.
  exists c, g'. split; [reflexivity|]. split; [exact E2|]. split; [exact E3|]. split.
  - intros j Hj. destruct (JO1 j Hj) as (q & Q1 & Q2). exists q. split; [exact Q1|]. exact (Q2 0 ltac:(lia)).
  - intros i Hi. apply JO2. lia.
Qed.
Print Assumptions ndf_success.

(* it fails exactly if the functor fails at a point that is needed (Ridders' method may stop before the last one) *)
Theorem ndf_failure dynamic m o f ja jb junk x g : NumDiffSpec.sensible m o ->
  let out := NumericDiffFirstOrderFunction_Evaluate dynamic m o f ja jb junk x (Some g) in
  let fails := f x = None \/ exists c j, f x = Some c /\ j < length x /\ NumDiffSpec.column_fails m o (objective f) (fun _ => c) [x] 0 j in
  (n_status out = false -> fails) /\ (m <> NumDiffModel.RIDDERS -> fails -> n_status out = false).
Proof.
  intros Ok out fails. destruct (numeric_same dynamic m o f ja jb junk x (Some g)) as (E1 & _). fold out in E1. rewrite E1. unfold numeric_via. cbn [option_map].
  destruct (NumDiffProps.numdiff_failure m o (objective f) 1 ja jb junk [x] [Some g] Ok (le_n 1)) as [F1 F2]. split.
  - intro St. destruct (F1 St) as [N|(r & b & j & R & [[jac W1] [W2 W3]] & C)].
    + left. unfold objective in N. cbn [nth] in N. destruct (f x); [discriminate|reflexivity].
    + right. cbn [length] in W2. assert (b = 0) as -> by lia. unfold objective in R. cbn [nth] in R, W3. destruct (f x) as [c|]; [|discriminate]. injection R as <-.
      exists c, j. auto.
  - intros Nr [N|(c & j & Fc & Hj & C)]; apply (F2 Nr).
    + left. unfold objective. cbn [nth]. rewrite N. reflexivity.
    + right. exists (fun _ => c), 0, j. split; [unfold objective; cbn [nth]; rewrite Fc; reflexivity|]. split; [|exact C].
      split; [exists g; reflexivity|]. split; cbn; [lia|exact Hj].
Qed.
Print Assumptions ndf_failure.

(* without gradient: the value *)
Theorem ndf_value dynamic m o f ja jb junk x :
  let out := NumericDiffFirstOrderFunction_Evaluate dynamic m o f ja jb junk x None in
  n_calls out = [x] /\ n_cost out = f x /\ n_gradient out = None /\ (n_status out = true <-> f x <> None).
Proof. unfold NumericDiffFirstOrderFunction_Evaluate. destruct (f x); cbn; (do 3 (split; [reflexivity|])); split; congruence. Qed.
Print Assumptions ndf_value.

(* the functor is called at x and at points that differ from x in one number; compile time and run time sizes are alike *)
Theorem ndf_calls dynamic m o f ja jb junk x g : NumDiffSpec.sensible m o ->
  exists cs, n_calls (NumericDiffFirstOrderFunction_Evaluate dynamic m o f ja jb junk x (Some g)) = x :: cs /\
    forall p, In p cs -> exists j, j < length x /\ NumDiffSpec.sampled m o [x] 0 j [p].
Proof.
  intro Ok. destruct (numeric_same dynamic m o f ja jb junk x (Some g)) as (_ & _ & _ & ->). unfold numeric_via. cbn [option_map].
  destruct (NumDiffProps.numdiff_calls m o (objective f) 1 ja jb junk [x] [Some g] Ok (le_n 1)) as (cs & -> & C). exists (map (fun p => nth 0 p []) cs).
  split; [reflexivity|]. intros p I. apply in_map_iff in I. destruct I as (q & <- & I). destruct (C q I) as (b & j & [[jac W1] [W2 W3]] & S).
  cbn [length] in W2. assert (b = 0) as -> by lia. cbn [nth] in W3. exists j. split; [exact W3|].
  assert (Q : forall t, NumDiffSpec.moved [x] 0 j t = [nth 0 (NumDiffSpec.moved [x] 0 j t) []]) by reflexivity.
  unfold NumDiffSpec.sampled in *. destruct m.
  - destruct S as [->| ->]; rewrite <- Q; auto.
  - subst q. rewrite <- Q. reflexivity.
  - destruct S as (i & Hi & [->| ->]); exists i; rewrite <- Q; auto.
Qed.
Print Assumptions ndf_calls.
Theorem ndf_sizes_alike m o f ja jb junk x gradient :
  NumericDiffFirstOrderFunction_Evaluate true m o f ja jb junk x gradient = NumericDiffFirstOrderFunction_Evaluate false m o f ja jb junk x gradient.
Proof.
  unfold NumericDiffFirstOrderFunction_Evaluate. destruct (f x) as [c|]; [|reflexivity]. destruct gradient as [g|]; [|reflexivity].
  cbn [NumDiffModel.Blocks]. destruct (NumDiffModel.EvaluateJacobianForParameterBlock _ _ _ _ _ _ _ _ _ _ _) as [[[|] g'] s]; reflexivity.
Qed.
Print Assumptions ndf_sizes_alike.

(* the objective along one number, as a function of the increment *)
Definition along_number (f : list R -> option R) (x : list R) (j : nat) (h : R -> R) : Prop := forall t, f (NumDiffSpec.moved1 x j t) = Some (h t).
Lemma along_number_along f x j h : along_number f x j h -> NumDiffSpec.along (objective f) [x] 0 j 0 h.
Proof. intros A t. exists (fun _ => h t). split; [|reflexivity]. unfold objective, NumDiffSpec.moved. cbn [nth firstn app]. rewrite A. reflexivity. Qed.
Lemma ndf_entry m o f ja jb junk dynamic x g j v :
  n_status (NumericDiffFirstOrderFunction_Evaluate dynamic m o f ja jb junk x (Some g)) = true ->
  NumDiffSpec.entry (numeric_via m o f ja jb junk x (Some g)) [x] 0 0 j = Some v ->
  exists g', n_gradient (NumericDiffFirstOrderFunction_Evaluate dynamic m o f ja jb junk x (Some g)) = Some g' /\ g' j = v.
Proof.
  intros St E. destruct (numeric_same dynamic m o f ja jb junk x (Some g)) as (_ & _ & -> & _). unfold NumDiffSpec.entry in E.
  destruct (NumDiffModel.out_jacobians _) as [js|]; [|discriminate]. destruct js as [|[g'|] js]; try discriminate. cbn [nth_error] in E. injection E as <-.
  exists g'. split; reflexivity.
Qed.
(* forward differences are exact on affine functions, central ones on quadratics *)
Theorem ndf_forward_exact dynamic o f ja jb junk x g j a0 a1 : j < length x ->
  along_number f x j (fun t => (a0 + a1 * t)%R) ->
  let out := NumericDiffFirstOrderFunction_Evaluate dynamic NumDiffModel.FORWARD o f ja jb junk x (Some g) in
  n_status out = true -> exists g', n_gradient out = Some g' /\ g' j = a1.
Proof.
  intros Hj A out St. apply ndf_entry; [exact St|]. unfold numeric_via. cbn [option_map].
  destruct (numeric_same dynamic NumDiffModel.FORWARD o f ja jb junk x (Some g)) as (E1 & _). fold out in E1. rewrite E1 in St.
  apply (NumDiffProps.numdiff_forward_exact o (objective f) 1 ja jb junk [x] [Some g] 0 0 j a0 a1); auto; [|apply along_number_along; exact A].
  split; [exists g; reflexivity|]. split; cbn; [lia|exact Hj].
Qed.
Print Assumptions ndf_forward_exact.
Theorem ndf_central_exact dynamic o f ja jb junk x g j a0 a1 a2 : j < length x ->
  along_number f x j (fun t => (a0 + a1 * t + a2 * (t * t))%R) ->
  let out := NumericDiffFirstOrderFunction_Evaluate dynamic NumDiffModel.CENTRAL o f ja jb junk x (Some g) in
  n_status out = true -> exists g', n_gradient out = Some g' /\ g' j = a1.
Proof.
  intros Hj A out St. apply ndf_entry; [exact St|]. unfold numeric_via. cbn [option_map].
  destruct (numeric_same dynamic NumDiffModel.CENTRAL o f ja jb junk x (Some g)) as (E1 & _). fold out in E1. rewrite E1 in St.
  apply (NumDiffProps.numdiff_central_exact o (objective f) 1 ja jb junk [x] [Some g] 0 0 j a0 a1 a2); auto; [|apply along_number_along; exact A].
  split; [exists g; reflexivity|]. split; cbn; [lia|exact Hj].
Qed.
Print Assumptions ndf_central_exact.

(* ---------------- TinySolverCostFunctionAdapter ---------------- *)
(* the constructor aborts exactly on cost functions with other than one block, and, if one size is dynamic, on sizes that do not fit *)
Definition fits (k : option nat) (n : nat) : Prop := match k with Some m => n = m | None => True end.
Theorem adf_adapter_constructed kR kP cf : (kR = None \/ kP = None) ->
  ((exists dims, Adapter kR kP cf = Some dims) <-> exists size, cf_block_sizes cf = [size] /\ fits kR (cf_num_residuals cf) /\ fits kP size).
Proof.
  intro D. unfold Adapter. destruct (cf_block_sizes cf) as [|size [|? ?]].
  - split; [intros [? H]; discriminate|intros (? & H & _); discriminate].
  - destruct kR as [r|], kP as [p|]; cbn [fits].
    + destruct D; discriminate.
    + destruct (Nat.eqb_spec (cf_num_residuals cf) r) as [E|E]; (split; [intros [d H]|intros (s & H & F & _)]); try discriminate; [exists size; auto|eexists; reflexivity|congruence].
    + destruct (Nat.eqb_spec size p) as [E|E]; (split; [intros [d H]|intros (s & H & _ & F)]); try discriminate; [exists size; auto|eexists; reflexivity|congruence].
    + split; [intros _; exists size; auto|intros _; eexists; reflexivity].
  - split; [intros [? H]; discriminate|intros (? & H & _); discriminate].
Qed.
Print Assumptions adf_adapter_constructed.

(* if the sizes fit: the cost function's residuals, and its Jacobian column major; nothing else is written *)
Theorem adf_adapter kR kP cf dims size x : Adapter kR kP cf = Some dims -> cf_block_sizes cf = [size] ->
  fits kR (cf_num_residuals cf) -> fits kP size -> let R := cf_num_residuals cf in
  Adapter_call dims cf x None = match cf_evaluate cf x false with Some (r, _) => AdTrue r None | None => AdFalse end /\
  forall j, match cf_evaluate cf x true with
  | None => Adapter_call dims cf x (Some j) = AdFalse
  | Some (r, rows) => exists j', Adapter_call dims cf x (Some j) = AdTrue r (Some j') /\
      (forall q c, q < R -> c < size -> j' (col_major R q c) = rows (row_major size q c)) /\ (forall i, R * size <= i -> j' i = j i)
  end.
Proof.
  intros HA HB F1 F2 R. assert (dims = (cf_num_residuals cf, size)) as ->.
  { unfold Adapter in HA. rewrite HB in HA. destruct kR as [r|], kP as [p|]; cbn [fits] in *.
    - injection HA as <-. congruence.
    - destruct (Nat.eqb _ _); [injection HA as <-; reflexivity|discriminate].
    - destruct (Nat.eqb _ _); [injection HA as <-; reflexivity|discriminate].
    - injection HA as <-. reflexivity. }
  unfold Adapter_call. split; [destruct (cf_evaluate cf x false) as [[r j]|]; reflexivity|]. intro j.
  destruct (cf_evaluate cf x true) as [[r rows]|]; [|reflexivity]. rewrite HB. cbn [fst snd hd]. rewrite Nat.ltb_irrefl.
  eexists. split; [reflexivity|]. exact (write_matrix_spec size (cf_num_residuals cf) (fun i c => rows (i * size + c)) j).
Qed.
Print Assumptions adf_adapter.

(* finding: if both sizes are given at compile time they are not compared with the cost function's *)
Theorem adf_adapter_unchecked_refuted kR kP cf size x j : cf_block_sizes cf = [size] -> kR * kP < cf_num_residuals cf * size ->
  cf_evaluate cf x true <> None ->
  exists dims, Adapter (Some kR) (Some kP) cf = Some dims /\ Adapter_call dims cf x (Some j) = OutOfBounds.
Proof.
  intros HB L E. unfold Adapter. rewrite HB. exists (kR, kP). split; [reflexivity|]. unfold Adapter_call. rewrite HB. cbn [fst snd hd].
  destruct (cf_evaluate cf x true) as [[r rows]|]; [|congruence]. rewrite (proj2 (Nat.ltb_lt _ _) L). reflexivity.
Qed.
Print Assumptions adf_adapter_unchecked_refuted.

(* ---------------- concrete cases ---------------- *)
(* the positive numbers: Plus(x, d) = x exp(d), Minus(y, x) = log y - log x *)
Definition positive_plus : functor := mkfunctor [] [Bin BMul (Var 0) (Un UExp (Var 1))].
Definition positive_minus : functor := mkfunctor [] [Bin BSub (Un ULog (Var 0)) (Un ULog (Var 1))].
Definition two : nat -> R := fun _ => 2%R.
Example positive_hyps : functor_uses 2 positive_plus /\ functor_uses 2 positive_minus /\ accepts positive_plus (joined 1 two zero_vector) /\
  functor_regular positive_plus (joined 1 two zero_vector) /\ functor_regular positive_minus (joined 1 two two) /\
  real_plus 1 positive_plus two zero_vector 0 = 2%R /\
  locally 0%R (fun t => real_minus 1 positive_minus (real_plus 1 positive_plus two (along_axis 0 t)) two 0 = along_axis 0 t 0).
Proof.
  split; [split; repeat constructor|]. split; [split; repeat constructor|]. split; [constructor|].
  split; [split; repeat constructor|]. split.
  { split; repeat constructor; cbn; unfold joined, two; cbn; lra. }
  split.
  { unfold real_plus, component, joined, zero_vector, two. cbn. rewrite exp_0. ring. }
  exists (mkposreal 1 Rlt_0_1). intros t _. unfold real_minus, real_plus, component, joined, along_axis, two. cbn.
  rewrite ln_mult; [|lra|apply exp_pos]. rewrite ln_exp. ring.
Qed.
(* x^2 y with a guard x > 0 *)
Definition objective_case : functor := mkfunctor [(CGt, Var 0, Const 0)] [Bin BMul (Bin BMul (Var 0) (Var 0)) (Var 1)].
Example objective_hyps : functor_uses 2 objective_case /\ functor_regular objective_case two /\ accepts objective_case two /\ ~ accepts objective_case zero_vector.
Proof.
  split; [split; repeat constructor|]. split; [split; repeat constructor|]. split.
  - constructor; [cbn; unfold two; lra|constructor].
  - intro H. inversion H as [|? ? G _]. cbn in G. unfold zero_vector in G. lra.
Qed.
(* x^2 + y from (1, 2), central differences *)
Example ndf_case : along_number (fun p => Some (nth 0 p 0 * nth 0 p 0 + nth 1 p 0)%R) [1; 2]%R 0 (fun t => (3 + 2 * t + 1 * (t * t))%R) /\
  NumDiffSpec.sensible NumDiffModel.CENTRAL NumDiffModel.default_options.
Proof. split; [intro t; unfold NumDiffSpec.moved1; cbn; f_equal; ring|intro H; discriminate]. Qed.
(* a cost function with three residuals of two parameters in an adapter of two by two *)
Definition big_cf : cost_function := mkCF 3 [2] (fun x _ => Some (x, fun i => Some (INR i))).
Example adapter_case : Adapter (Some 2) (Some 2) big_cf = Some (2, 2) /\ Adapter (Some 2) None big_cf = None /\ Adapter None (Some 2) big_cf = Some (3, 2) /\
  (forall x j, Adapter_call (2, 2) big_cf x (Some j) = OutOfBounds).
Proof. repeat split. Qed.
