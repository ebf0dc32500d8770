From Coq Require Import Reals List Arith Bool Lra Lia Psatz.
From Verif Require Import SchurModel SchurProofs TinyModel TinySpec TinyProofs.
Import ListNotations.
Open Scope R_scope.

Lemma dot_zero n h v : (forall i, (i < n)%nat -> h i = 0) -> dot n h v = 0.
Proof. intros H. unfold dot. apply sumn_zero; intros i Hi. rewrite (H i Hi). ring. Qed.

Lemma model_pos m n f sc x u solve : 0 < u -> exact_solver n solve ->
  let s := St m n f sc x in
  let h := solve (regularized s u) (g s) in
  (exists i, (i < n)%nat /\ h i <> 0) ->
  0 < dot n h (fun i => 2 * g s i - sumn n (fun j => jtj s i j * h j)).
Proof.
  intros Hu Hs s h Hex. unfold h, s.
  rewrite (model_change m n f sc x u Hu solve Hs).
  pose proof (jtj_form m n f sc x (solve (regularized (St m n f sc x) u) (g (St m n f sc x)))).
  pose proof (D_form m n f sc x u Hu (solve (regularized (St m n f sc x) u) (g (St m n f sc x))) Hex). lra.
Qed.

Section L.
Variables (m n : nat) (f : Function) (o : Options) (solve : mat -> vec -> vec) (x0 : vec).
Hypothesis Hf : never_fails f.
Hypothesis Hr : reads m n f.
Hypothesis Hs : exact_solver n solve.
Let sc := sc0 m f x0.
Let c := cost_at m f.

Section Step.
Variables (x : vec) (u : R).
Hypothesis Hu : 0 < u.
Let s := St m n f sc x.
Let h := solve (regularized s u) (g s).
Let dx : vec := fun i => jacobi_scaling s i * h i.
Let y : vec := fun i => x i + dx i.
Let cc := 2 * cost s - squaredNorm m (f_res f y).
Let mc := dot n h (fun i => 2 * g s i - sumn n (fun j => jtj s i j * h j)).

Lemma cc_eq : cc = 2 * c x - 2 * c y.
Proof. unfold cc, s, c. rewrite St_cost, sq_new. reflexivity. Qed.

Lemma rho_acc : 0 < cc / mc -> c y < c x.
Proof.
  intros H. pose proof cc_eq as E.
  destruct (h_zero_dec m n f sc x u solve) as [Hex|Hz].
  - pose proof (model_pos m n f sc x u solve Hu Hs Hex) as P. change (0 < mc) in P.
    assert (0 < cc); [|lra]. apply (Rmult_lt_reg_r (/ mc)); [apply Rinv_0_lt_compat; exact P|].
    rewrite Rmult_0_l. exact H.
  - exfalso. assert (mc = 0) as Z by (apply dot_zero; exact Hz). rewrite Z in H. unfold Rdiv in H. rewrite Rinv_0 in H. lra.
Qed.

Lemma rho_rej : cc / mc <= 0 -> c x <= c y.
Proof.
  intros H. pose proof cc_eq as E.
  destruct (h_zero_dec m n f sc x u solve) as [Hex|Hz].
  - pose proof (model_pos m n f sc x u solve Hu Hs Hex) as P. change (0 < mc) in P.
    assert (cc <= 0); [|lra]. destruct (Rle_or_lt cc 0) as [L|G]; [exact L|].
    pose proof (Rdiv_lt_0_compat cc mc G P). lra.
  - right. unfold c, cost_at. f_equal. apply sumn_ext; intros i Hi. f_equal. apply Hr; [|exact Hi].
    intros j Hj. unfold y, dx. change (h j) with (solve (regularized (St m n f sc x) u) (g (St m n f sc x)) j). rewrite (Hz j Hj). ring.
Qed.

Lemma dx_small : norm n dx < parameter_tolerance o * (norm n x + parameter_tolerance o) ->
  small_step n x dx (parameter_tolerance o).
Proof.
  unfold small_step, norm, squaredNorm.
  rewrite (sumn_ext n (fun i => dx i * dx i) (fun i => dx i ^ 2)) by (intros; ring).
  rewrite (sumn_ext n (fun i => x i * x i) (fun i => x i ^ 2)) by (intros; ring). auto.
Qed.

Lemma dx_damped : damped_step m n f x0 x dx.
Proof.
  exists (fun i => u * clamp (jtj s i i) (/ 10 ^ 6) (10 ^ 32)), h. split.
  - intros i Hi. split.
    + exact (D_pos m n f sc x u Hu i).
    + unfold dx. f_equal. exact (sc0_scale m f x0 i).
  - intros i Hi. pose proof (step_eq m n f sc x u Hu solve Hs i Hi) as E.
    fold s in E. fold h in E. rewrite <- sc0_scale. fold sc.
    replace (- (sc i * gradient_at m f x i)) with (g s i).
    + rewrite <- E. f_equal.
      rewrite (sumn_ext n (fun j => jtj s i j * h j)
        (fun j => sumn m (fun k => sc i * (f_jac f x k i * (f_jac f x k j * dx j))))).
      * rewrite sumn_swap. rewrite <- sumn_scal. apply sumn_ext; intros k Hk. rewrite !sumn_scal. reflexivity.
      * intros j Hj. unfold s, St; cbn [jtj]. rewrite <- sumn_scal_r. apply sumn_ext; intros k Hk. unfold dx, s, St; cbn [jacobi_scaling]. ring.
    + unfold gradient_at. rewrite <- sumn_scal, <- sumn_opp. unfold s, St; cbn [g]. apply sumn_ext; intros; ring.
Qed.
End Step.

Definition status_cond (r : Result) : Prop :=
  match r_status r with
  | GRADIENT_TOO_SMALL => gradient_max_norm (r_solver r) < gradient_tolerance o
  | COST_TOO_SMALL => c (r_x r) < cost_threshold o
  | HIT_MAX_ITERATIONS => gradient_tolerance o <= gradient_max_norm (r_solver r) /\ cost_threshold o <= c (r_x r)
  | COST_CHANGE_TOO_SMALL => exists tr p q, r_trace r = tr ++ [(p, q)] /\ Rabs (2 * c p - 2 * c q) < function_tolerance o
  | RELATIVE_STEP_SIZE_TOO_SMALL =>
      exists dx, damped_step m n f x0 (r_x r) dx /\ small_step n (r_x r) dx (parameter_tolerance o)
  end.

(** Every trial is a damped step from the point it was tried from. *)
Definition stepped (tr : list (vec * vec)) : Prop :=
  forall p q, In (p, q) tr -> exists dx, damped_step m n f x0 p dx /\ forall i, (i < n)%nat -> q i = p i + dx i.

Lemma stepped_snoc tr x u : 0 < u -> stepped tr ->
  stepped (tr ++ [(x, fun i => x i + jacobi_scaling (St m n f sc x) i * solve (regularized (St m n f sc x) u) (g (St m n f sc x)) i)]).
Proof.
  intros Hu H p q Hin. apply in_app_iff in Hin as [Hin|[Hin|[]]]; [exact (H p q Hin)|].
  injection Hin as <- <-.
  exists (fun i => jacobi_scaling (St m n f sc x) i * solve (regularized (St m n f sc x) u) (g (St m n f sc x)) i).
  split; [exact (dx_damped x u Hu)|reflexivity].
Qed.

Lemma loop_run : forall k it x u v tr calls, 0 < u -> 0 < v -> Descent c x0 tr x -> stepped tr ->
  gradient_tolerance o <= gradient_max_norm (St m n f sc x) -> cost_threshold o <= c x ->
  let r := Loop m n f o solve k it (St m n f sc x) x u v tr calls in
  Descent c x0 (r_trace r) (r_x r) /\ r_solver r = St m n f sc (r_x r) /\ status_cond r /\ stepped (r_trace r).
Proof.
  induction k as [|k IH]; intros it x u v tr calls Hu Hv HD HS Hg Hc; cbn [Loop].
  - cbn [r_trace r_x r_solver]. split; [exact HD|]. split; [reflexivity|]. split; [split; [exact Hg|exact Hc]|exact HS].
  - set (s := St m n f sc x) in *. set (h := solve (regularized s u) (g s)).
    set (dx := fun i => jacobi_scaling s i * h i).
    cbv zeta.
    destruct (lt (norm n dx) _) eqn:E1.
    { split; [exact HD|]. split; [reflexivity|]. split; [|exact HS]. exists dx. split.
      - exact (dx_damped x u Hu).
      - apply (dx_small x u). apply lt_true in E1. exact E1. }
    set (y := fun i => x i + jacobi_scaling s i * h i).
    set (cc := 2 * cost s - squaredNorm m (f_res f y)).
    set (mc := dot n h _).
    pose proof (cc_eq x u) as CE. change (cc = 2 * c x - 2 * c y) in CE.
    assert (Hsnd : snd (Update m n f false s y) = St m n f sc y) by (apply (Update_ok m n f false s y (Hf y))).
    rewrite Hsnd.
    assert (HS' : stepped (tr ++ [(x, y)])) by (exact (stepped_snoc tr x u Hu HS)).
    destruct (lt 0 (cc / mc)) eqn:E2.
    + apply lt_true in E2. pose proof (rho_acc x u Hu E2) as Hlt. change (c y < c x) in Hlt.
      assert (HD' : Descent c x0 (tr ++ [(x, y)]) y) by (apply D_accept; assumption).
      destruct (lt (Rabs cc) _) eqn:E3.
      { split; [exact HD'|]. split; [reflexivity|]. split; [|exact HS']. exists tr, x, y. split; [reflexivity|].
        apply lt_true in E3. rewrite <- CE. exact E3. }
      destruct (lt (gradient_max_norm _) _) eqn:E4.
      { split; [exact HD'|]. split; [reflexivity|]. split; [|exact HS']. apply lt_true in E4. exact E4. }
      destruct (lt (cost _) _) eqn:E5.
      { split; [exact HD'|]. split; [reflexivity|]. split; [|exact HS']. apply lt_true in E5. rewrite St_cost in E5. exact E5. }
      apply lt_false in E4. apply lt_false in E5. rewrite St_cost in E5.
      apply IH; try assumption; [|lra].
      apply Rmult_lt_0_compat; [exact Hu|]. eapply Rlt_le_trans; [|apply Rmax_l]. lra.
    + apply lt_false in E2. pose proof (rho_rej x u Hu E2) as Hle. change (c x <= c y) in Hle.
      assert (HD' : Descent c x0 (tr ++ [(x, y)]) x) by (apply D_reject; assumption).
      destruct (lt (Rabs cc) _) eqn:E3.
      { split; [exact HD'|]. split; [reflexivity|]. split; [|exact HS']. exists tr, x, y. split; [reflexivity|].
        apply lt_true in E3. rewrite <- CE. exact E3. }
      apply IH; try assumption; [|lra]. apply Rmult_lt_0_compat; assumption.
Qed.

Lemma solve_run s0 : 0 < initial_trust_region_radius o ->
  let r := snd (Solve m n f o solve s0 x0) in
  Descent c x0 (r_trace r) (r_x r) /\ r_solver r = St m n f sc (r_x r) /\ status_cond r /\ stepped (r_trace r).
Proof.
  intros Hrad. unfold Solve. cbn [snd].
  assert (E : snd (Update m n f true s0 x0) = St m n f sc x0) by (apply (Update_ok m n f true s0 x0 (Hf x0))).
  rewrite E. destruct (lt (gradient_max_norm _) _) eqn:E1.
  { split; [constructor|]. split; [reflexivity|]. split; [|intros p q []]. apply lt_true in E1. exact E1. }
  destruct (lt (cost _) _) eqn:E2.
  { split; [constructor|]. split; [reflexivity|]. split; [|intros p q []]. apply lt_true in E2. rewrite St_cost in E2. exact E2. }
  apply lt_false in E1. apply lt_false in E2. rewrite St_cost in E2.
  apply loop_run; try assumption; [|lra|constructor|intros p q []].
  apply Rdiv_lt_0_compat; lra.
Qed.
End L.

(** Counting: no assumption on the function or the solver. *)
Lemma loop_count m n f o solve : forall k it s x u v tr calls,
  let r := Loop m n f o solve k it s x u v tr calls in
  (it <= r_iterations r <= it + k)%nat /\ (length tr <= length (r_trace r) <= length tr + k)%nat
  /\ (r_calls r + 2 * length tr <= calls + 2 * length (r_trace r))%nat
  /\ (length (r_trace r) + it <= length tr + r_iterations r + 1)%nat
  /\ (r_status r = HIT_MAX_ITERATIONS -> r_iterations r = (it + k)%nat /\ length (r_trace r) = (length tr + k)%nat).
Proof.
  induction k as [|k IH]; intros it s x u v tr calls; cbn [Loop]; cbv zeta.
  - cbn. repeat split; try lia.
  - repeat match goal with
    | |- context [if lt ?a ?b then _ else _] => destruct (lt a b)
    end;
    try (cbn [r_iterations r_trace r_calls r_status]; rewrite ?app_length; cbn [length];
         repeat split; try lia; try discriminate; fail).
    + match goal with |- context [Loop m n f o solve k ?a ?b ?c ?d ?e ?t ?g] => pose proof (IH a b c d e t g) as H end.
      cbv zeta in H. rewrite app_length in H. cbn [length] in H.
      destruct H as (H1 & H2 & H3 & H4 & H5). split; [lia|]. split; [lia|]. split; [lia|]. split; [lia|]. intros HH; destruct (H5 HH); split; lia.
    + match goal with |- context [Loop m n f o solve k ?a ?b ?c ?d ?e ?t ?g] => pose proof (IH a b c d e t g) as H end.
      cbv zeta in H. rewrite app_length in H. cbn [length] in H.
      destruct H as (H1 & H2 & H3 & H4 & H5). split; [lia|]. split; [lia|]. split; [lia|]. split; [lia|]. intros HH; destruct (H5 HH); split; lia.
Qed.

(** Descent facts. *)
Lemma descent_best c x0 tr x : Descent c x0 tr x ->
  c x <= c x0 /\ (forall p q, In (p, q) tr -> c x <= c q) /\ (x = x0 \/ (exists p, In (p, x) tr) /\ c x < c x0).
Proof.
  induction 1 as [|tr x y H IH Hlt|tr x y H IH Hle].
  - split; [lra|]. split; [intros p q []|left; reflexivity].
  - destruct IH as (A & B & C). split; [lra|]. split.
    + intros p q Hin. apply in_app_iff in Hin as [Hin|[Hin|[]]].
      * pose proof (B p q Hin); lra.
      * injection Hin as <- <-. lra.
    + right. split; [exists x; apply in_app_iff; right; left; reflexivity|lra].
  - destruct IH as (A & B & C). split; [lra|]. split.
    + intros p q Hin. apply in_app_iff in Hin as [Hin|[Hin|[]]]; [exact (B p q Hin)|].
      injection Hin as <- <-. exact Hle.
    + destruct C as [C|[[p Hp] C]]; [left; exact C|right]. split; [exists p; apply in_app_iff; left; exact Hp|exact C].
Qed.

Lemma abs_max_spec n v : (0 < n)%nat -> max_abs n v (abs_maxCoeff n v).
Proof.
  intros Hn. destruct n as [|n]; [lia|]. clear Hn.
  induction n as [|n [[j [Hj Ej]] IH]].
  - split; [exists 0%nat; split; [lia|reflexivity]|]. intros j Hj. replace j with 0%nat by lia. right; reflexivity.
  - change (abs_maxCoeff (S (S n)) v) with (Rmax (abs_maxCoeff (S n) v) (Rabs (v (S n)))). split.
    + unfold Rmax. destruct (Rle_dec _ _); [exists (S n); split; [lia|reflexivity]|exists j; split; [lia|exact Ej]].
    + intros i Hi. destruct (Nat.eq_dec i (S n)) as [->|Hne]; [apply Rmax_r|].
      eapply Rle_trans; [apply IH; lia|apply Rmax_l].
Qed.

Lemma max_abs_ext n a b v : (forall i, (i < n)%nat -> Rabs (a i) = Rabs (b i)) -> max_abs n a v -> max_abs n b v.
Proof.
  intros E [[j [Hj Ej]] H]. split.
  - exists j. split; [exact Hj|]. rewrite <- E by exact Hj. exact Ej.
  - intros i Hi. rewrite <- E by exact Hi. apply H; exact Hi.
Qed.

Lemma St_gradient m n f x0 x : (0 < n)%nat ->
  max_abs n (fun j => scale_at m f x0 j * gradient_at m f x j) (gradient_max_norm (St m n f (sc0 m f x0) x)).
Proof.
  intros Hn. unfold St; cbn [gradient_max_norm].
  eapply max_abs_ext; [|apply abs_max_spec; exact Hn].
  intros i Hi. cbv beta. rewrite <- Rabs_Ropp. f_equal. rewrite <- sc0_scale. unfold gradient_at.
  rewrite <- sumn_scal, <- sumn_opp. apply sumn_ext; intros; ring.
Qed.
