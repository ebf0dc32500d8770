(** C67: TinySolver. *)
From Coq Require Import Reals List Arith Bool Lra Lia Psatz.
From Verif Require Import SchurModel SchurProofs TinyModel TinySpec TinyProofs TinyProofs2.
Import ListNotations.
Open Scope R_scope.

(** The run is a descent from the start: a trial point is moved to exactly when
    its cost is strictly smaller. *)
Theorem tiny_descent m n f o solve s0 x0 :
  never_fails f -> reads m n f -> exact_solver n solve -> 0 < initial_trust_region_radius o ->
  let r := snd (Solve m n f o solve s0 x0) in
  Descent (cost_at m f) x0 (r_trace r) (r_x r).
Proof. intros Hf Hr Hs Ho r. exact (proj1 (solve_run m n f o solve x0 Hf Hr Hs s0 Ho)). Qed.
Print Assumptions tiny_descent.

(** The returned point is the best of the start and all trial points, and
    differs from the start only for a strictly smaller cost. *)
Theorem tiny_best m n f o solve s0 x0 :
  never_fails f -> reads m n f -> exact_solver n solve -> 0 < initial_trust_region_radius o ->
  let r := snd (Solve m n f o solve s0 x0) in
  cost_at m f (r_x r) <= cost_at m f x0
  /\ (forall p q, In (p, q) (r_trace r) -> cost_at m f (r_x r) <= cost_at m f q)
  /\ (r_x r = x0 \/ (exists p, In (p, r_x r) (r_trace r)) /\ cost_at m f (r_x r) < cost_at m f x0).
Proof. intros Hf Hr Hs Ho r. exact (descent_best _ _ _ _ (tiny_descent m n f o solve s0 x0 Hf Hr Hs Ho)). Qed.
Print Assumptions tiny_best.

(** Every trial point is reached by a damped Gauss-Newton step. *)
Theorem tiny_trials m n f o solve s0 x0 :
  never_fails f -> reads m n f -> exact_solver n solve -> 0 < initial_trust_region_radius o ->
  forall p q, In (p, q) (r_trace (snd (Solve m n f o solve s0 x0))) ->
  exists dx, damped_step m n f x0 p dx /\ forall i, (i < n)%nat -> q i = p i + dx i.
Proof. intros Hf Hr Hs Ho. exact (proj2 (proj2 (proj2 (solve_run m n f o solve x0 Hf Hr Hs s0 Ho)))). Qed.
Print Assumptions tiny_trials.

(** Everything the solver reports afterwards describes the returned point. *)
Theorem tiny_reports m n f o solve s0 x0 :
  never_fails f -> reads m n f -> exact_solver n solve -> 0 < initial_trust_region_radius o ->
  let r := snd (Solve m n f o solve s0 x0) in
  fst (Solve m n f o solve s0 x0) = cost_at m f x0
  /\ final_cost r = cost_at m f (r_x r)
  /\ (forall i, Residuals r i = f_res f (r_x r) i)
  /\ (forall i j, Jacobian r i j = f_jac f (r_x r) i j)
  /\ ((0 < n)%nat -> max_abs n (fun j => scale_at m f x0 j * gradient_at m f (r_x r) j) (gradient_max_norm (r_solver r))).
Proof.
  intros Hf Hr Hs Ho r. destruct (solve_run m n f o solve x0 Hf Hr Hs s0 Ho) as (_ & E & _ & _). fold r in E.
  split; [|split; [|split; [|split]]].
  - unfold Solve; cbn [fst]. rewrite (Update_ok m n f true s0 x0 (Hf x0)). apply St_cost.
  - unfold final_cost. rewrite E. apply St_cost.
  - intros i. unfold Residuals. rewrite E. cbn. ring.
  - intros i j. unfold Jacobian. rewrite E. unfold St; cbn [jacobian jacobi_scaling].
    field. pose proof (sc0_pos m f x0 j); lra.
  - intros Hn. rewrite E. apply St_gradient; exact Hn.
Qed.
Print Assumptions tiny_reports.

(** The status names a condition that holds. *)
Definition justified m n f o (x0 : vec) (r : Result) : Prop :=
  let c := cost_at m f in
  match r_status r with
  | GRADIENT_TOO_SMALL => forall j, (j < n)%nat -> Rabs (scale_at m f x0 j * gradient_at m f (r_x r) j) < gradient_tolerance o
  | COST_TOO_SMALL => c (r_x r) < cost_threshold o
  | HIT_MAX_ITERATIONS =>
      (max_num_iterations o <= r_iterations r)%nat
      /\ (exists j, (j < n)%nat /\ gradient_tolerance o <= Rabs (scale_at m f x0 j * gradient_at m f (r_x r) j))
      /\ cost_threshold o <= c (r_x r)
  | COST_CHANGE_TOO_SMALL =>
      exists tr p q, r_trace r = tr ++ [(p, q)] /\ 2 * Rabs (c p - c q) < function_tolerance o
  | RELATIVE_STEP_SIZE_TOO_SMALL =>
      exists dx, damped_step m n f x0 (r_x r) dx /\ small_step n (r_x r) dx (parameter_tolerance o)
  end.

Theorem tiny_status m n f o solve s0 x0 :
  (0 < n)%nat ->
  never_fails f -> reads m n f -> exact_solver n solve -> 0 < initial_trust_region_radius o ->
  justified m n f o x0 (snd (Solve m n f o solve s0 x0)).
Proof.
  intros Hn Hf Hr Hs Ho. destruct (solve_run m n f o solve x0 Hf Hr Hs s0 Ho) as (_ & E & C & _).
  pose proof (St_gradient m n f x0 (r_x (snd (Solve m n f o solve s0 x0))) Hn) as [G1 G2].
  rewrite <- E in G1, G2.
  unfold justified, status_cond in *. cbv zeta in *.
  destruct (r_status _) eqn:ES; try exact C.
  - intros j Hj. eapply Rle_lt_trans; [apply G2; exact Hj|exact C].
  - split; [|split; [|exact (proj2 C)]].
    + clear -ES. unfold Solve in *; cbn [snd] in *.
      destruct (lt _ _); [discriminate|]. destruct (lt _ _); [discriminate|].
      match goal with |- context [Loop m n f o solve ?k ?a ?b ?c ?d ?e ?t ?g] =>
        pose proof (loop_count m n f o solve k a b c d e t g) as H end.
      cbv zeta in H. destruct H as (_ & _ & _ & _ & H). destruct (H ES). lia.
    + destruct G1 as [j [Hj Ej]]. exists j. split; [exact Hj|]. rewrite <- Ej. exact (proj1 C).
  - destruct C as (tr & p & q & E1 & E2). exists tr, p, q. split; [exact E1|].
    replace (2 * cost_at m f p - 2 * cost_at m f q) with (2 * (cost_at m f p - cost_at m f q)) in E2 by ring.
    rewrite Rabs_mult, (Rabs_right 2) in E2 by lra. exact E2.
Qed.
Print Assumptions tiny_status.

(** Bounds on the work, for every function and every linear solver. *)
Theorem tiny_work m n f o solve s0 x0 :
  let r := snd (Solve m n f o solve s0 x0) in
  (length (r_trace r) <= max_num_iterations o - 1)%nat
  /\ (r_calls r <= 1 + 2 * length (r_trace r))%nat
  /\ (length (r_trace r) <= r_iterations r <= Nat.max 1 (max_num_iterations o))%nat.
Proof.
  unfold Solve; cbn [snd]. destruct (lt _ _); [cbn; lia|]. destruct (lt _ _); [cbn; lia|].
  match goal with |- context [Loop m n f o solve ?k ?a ?b ?c ?d ?e ?t ?g] =>
        pose proof (loop_count m n f o solve k a b c d e t g) as H end.
  cbv zeta in H. cbn [length] in H. destruct H as (H1 & H2 & H3 & H4 & H5).
  split; [lia|]. split; lia.
Qed.
Print Assumptions tiny_work.

(** What an earlier use left in the solver has no effect. *)
Theorem tiny_reuse m n f o solve s0 s1 x0 :
  ok f x0 = true -> Solve m n f o solve s0 x0 = Solve m n f o solve s1 x0.
Proof.
  intros H. unfold Solve. rewrite !(Update_ok m n f true _ x0 H). reflexivity.
Qed.
Print Assumptions tiny_reuse.

(** The CostFunction adapter: the column-major buffer holds the row-major
    Jacobian; nothing outside it is written; a failure leaves it alone. *)
Theorem adapter_layout rows cols ev old x b r rm :
  ev x = (b, r, rm) ->
  let '(b', r', cm) := Adapter rows cols ev old x in
  b' = b /\ r' = r
  /\ (b = true -> forall i j, (i < rows)%nat -> (j < cols)%nat -> cm (j * rows + i)%nat = rm (i * cols + j)%nat)
  /\ (forall p, (rows * cols <= p)%nat -> cm p = old p)
  /\ (b = false -> forall p, cm p = old p).
Proof.
  intros E. unfold Adapter. rewrite E. destruct b; cbn [negb].
  - split; [reflexivity|]. split; [reflexivity|]. split; [|split; [|discriminate]].
    + intros _ i j Hi Hj. assert (L : (j * rows + i < rows * cols)%nat) by nia.
      apply Nat.ltb_lt in L. rewrite L. unfold row_major. f_equal. f_equal; [f_equal|].
      * rewrite Nat.add_comm, Nat.mod_add by lia. apply Nat.mod_small; exact Hi.
      * rewrite Nat.add_comm, Nat.div_add by lia. rewrite Nat.div_small by exact Hi. lia.
    + intros p Hp. apply Nat.ltb_ge in Hp. rewrite Hp. reflexivity.
  - split; [reflexivity|]. split; [reflexivity|]. split; [discriminate|]. split; reflexivity.
Qed.
Print Assumptions adapter_layout.

(** ** Concrete cases *)

(** One parameter, one residual f(x) = a x. *)
Definition line (a : R) : Function := mkF (fun _ => true) (fun x _ => a * x 0%nat) (fun _ _ _ => a).
Definition divide : mat -> vec -> vec := fun A b _ => b 0%nat / A 0%nat 0%nat.

Lemma line_never a : never_fails (line a).
Proof. intros x; reflexivity. Qed.
Lemma line_reads a : reads 1 1 (line a).
Proof. intros x y H i Hi. cbn. rewrite (H 0%nat); [reflexivity|lia]. Qed.
Lemma divide_exact : exact_solver 1 divide.
Proof.
  intros A b _ P i Hi. assert (i = 0%nat) by lia; subst i.
  assert (0 < A 0%nat 0%nat).
  { specialize (P (fun _ => 1)). cbn in P. assert (0 < 0 + (0 + 1 * A 0%nat 0%nat * 1)); [|lra].
    apply P. exists 0%nat. split; [lia|lra]. }
  unfold divide. cbn. field. lra.
Qed.

Definition opts (k : nat) (gt ft ct : R) : Options := mkO k gt 0 ft ct 1.

Lemma lt_t a b : a < b -> lt a b = true.
Proof. unfold lt; destruct (Rlt_dec a b); [reflexivity|contradiction]. Qed.
Lemma lt_f a b : b <= a -> lt a b = false.
Proof. unfold lt; destruct (Rlt_dec a b); [lra|reflexivity]. Qed.

Lemma norm1 v : norm 1 v = Rabs (v 0%nat).
Proof.
  unfold norm, squaredNorm. cbn [sumn]. replace (0 + v 0%nat * v 0%nat) with (Rsqr (v 0%nat)) by (unfold Rsqr; ring).
  apply sqrt_Rsqr_abs.
Qed.
Lemma clamp_id x : / 10 ^ 6 <= x <= 10 ^ 32 -> clamp x (/ 10 ^ 6) (10 ^ 32) = x.
Proof. intros [A B]. unfold clamp. rewrite lt_f by lra. rewrite lt_f by lra. reflexivity. Qed.
Lemma quarter_in : / 10 ^ 6 <= 1 / 4 <= 10 ^ 32.
Proof. split; [|pose proof (pow_R1_Rle 10 32); lra]. apply (Rmult_le_reg_l (10 ^ 6)); [apply pow_lt; lra|]. rewrite Rinv_r by (apply pow_nonzero; lra). cbn; lra. Qed.

Lemma line_scale x : sc0 1 (line 1) x 0%nat = / 2.
Proof. unfold sc0. rewrite norm1. cbn. rewrite Rabs_R1. lra. Qed.

(** One step from 1/2 with radius 1 halves the parameter. *)
Definition half : vec := fun _ => 1 / 2.
Lemma line_step : let s := St 1 1 (line 1) (sc0 1 (line 1) half) half in
  divide (regularized s 1) (g s) 0%nat = - (1 / 2) /\ cost s = 1 / 8 /\ g s 0%nat = - (1 / 4) /\ jtj s 0%nat 0%nat = 1 / 4.
Proof.
  cbv zeta.
  assert (Hg : g (St 1 1 (line 1) (sc0 1 (line 1) half) half) 0%nat = - (1 / 4)).
  { unfold St; cbn [g sumn]. rewrite line_scale. cbn. unfold half. lra. }
  assert (Hj : jtj (St 1 1 (line 1) (sc0 1 (line 1) half) half) 0%nat 0%nat = 1 / 4).
  { unfold St; cbn [jtj sumn]. rewrite line_scale. cbn. lra. }
  split; [|split; [|split; assumption]].
  - unfold divide, regularized. cbn [Nat.eqb]. rewrite Hg, Hj, (clamp_id _ quarter_in). lra.
  - rewrite St_cost. unfold cost_at. cbn. unfold half. lra.
Qed.

Lemma line_run k gt ft ct s0 : gt <= 0 -> ct <= 0 -> 3 / 16 < ft ->
  let r := snd (Solve 1 1 (line 1) (opts (S (S k)) gt ft ct) divide s0 half) in
  r_status r = COST_CHANGE_TOO_SMALL /\ r_x r 0%nat = 1 / 4 /\ exists y, r_trace r = [(half, y)] /\ r_x r = y.
Proof.
  intros Hgt Hct Hft. unfold Solve. cbn [snd].
  rewrite (Update_ok 1 1 (line 1) true s0 half eq_refl).
  pose proof line_step as LS. cbv zeta in LS.
  set (s := St 1 1 (line 1) (sc0 1 (line 1) half) half) in *.
  destruct LS as (L1 & L2 & L3 & L4).
  cbn [opts gradient_tolerance cost_threshold max_num_iterations initial_trust_region_radius].
  assert (HG : 0 <= gradient_max_norm s) by (unfold s, St; cbn [gradient_max_norm abs_maxCoeff]; apply Rabs_pos).
  rewrite lt_f by lra. rewrite lt_f by lra.
  replace (1 / 1) with 1 by field.
  cbn [Nat.sub Loop]. cbv zeta.
  cbn [parameter_tolerance function_tolerance opts].
  rewrite (lt_f (norm 1 _) (0 * _)) by (rewrite Rmult_0_l; apply sqrt_pos).
  assert (Es : jacobi_scaling s 0%nat = / 2) by (apply line_scale).
  assert (Esq : squaredNorm 1 (f_res (line 1) (fun i => half i + jacobi_scaling s i * divide (regularized s 1) (g s) i)) = 1 / 16).
  { unfold squaredNorm. cbn [sumn line f_res]. rewrite L1, Es. unfold half. lra. }
  rewrite Esq, L2.
  assert (Em : dot 1 (divide (regularized s 1) (g s))
     (fun i => 2 * g s i - sumn 1 (fun j => jtj s i j * divide (regularized s 1) (g s) j)) = 3 / 16).
  { unfold dot. cbn [sumn]. rewrite L1, L3, L4. lra. }
  rewrite Em.
  replace ((2 * (1 / 8) - 1 / 16) / (3 / 16)) with 1 by field.
  rewrite (lt_t 0 1) by lra.
  rewrite (lt_t (Rabs _) ft) by (rewrite Rabs_right; lra).
  cbn [r_status r_x r_trace app]. split; [reflexivity|]. split; [rewrite L1, Es; unfold half; lra|].
  eexists; split; reflexivity.
Qed.

(** All hypotheses hold and the run really moves. *)
Example ex_tiny :
  never_fails (line 1) /\ reads 1 1 (line 1) /\ exact_solver 1 divide /\ 0 < initial_trust_region_radius (opts 50 0 1 0)
  /\ forall s0, r_x (snd (Solve 1 1 (line 1) (opts 50 0 1 0) divide s0 half)) 0%nat = 1 / 4.
Proof.
  split; [apply line_never|]. split; [apply line_reads|]. split; [apply divide_exact|]. split; [cbn; lra|].
  intros s0. apply (line_run 48 0 1 0 s0); lra.
Qed.

Example ex_adapter : snd (Adapter 2 3 (fun _ => (true, fun _ => 0, fun p => INR p)) (fun _ => 0) (fun _ => 0)) 1%nat = 3
  /\ snd (Adapter 2 3 (fun _ => (true, fun _ => 0, fun p => INR p)) (fun _ => 0) (fun _ => 0)) 2%nat = 1.
Proof. split; cbn; lra. Qed.

(** ** What the documentation says and the code does not do *)

(** tiny_solver.h:170, 187: GRADIENT_TOO_SMALL is documented as
    max_norm |J'(x) f(x)| < gradient_tolerance; the code tests the gradient
    after Jacobi scaling. *)
Theorem gradient_documented_refuted :
  exists f o x0, never_fails f /\ reads 1 1 f /\ 0 < initial_trust_region_radius o /\ 0 < gradient_tolerance o /\
  forall s0, r_status (snd (Solve 1 1 f o divide s0 x0)) = GRADIENT_TOO_SMALL
  /\ r_x (snd (Solve 1 1 f o divide s0 x0)) = x0
  /\ 1000 * gradient_tolerance o <= Rabs (gradient_at 1 f x0 0).
Proof.
  exists (line 1000), (opts 50 1 0 0), (fun _ => / 1000).
  split; [apply line_never|]. split; [apply line_reads|]. split; [cbn; lra|]. split; [cbn; lra|].
  intros s0. unfold Solve. cbn [snd].
  rewrite (Update_ok 1 1 (line 1000) true s0 (fun _ => / 1000) eq_refl).
  assert (Es : sc0 1 (line 1000) (fun _ => / 1000) 0%nat = / 1001).
  { unfold sc0. rewrite norm1. cbn [line f_jac]. rewrite (Rabs_right 1000) by lra. lra. }
  assert (Eg : gradient_max_norm (St 1 1 (line 1000) (sc0 1 (line 1000) (fun _ => / 1000)) (fun _ => / 1000)) < 1).
  { unfold St; cbn [gradient_max_norm abs_maxCoeff sumn]. rewrite Es. cbn [line f_jac f_res].
    rewrite <- Rabs_Ropp, Rabs_right; lra. }
  cbn [opts gradient_tolerance]. rewrite (lt_t _ 1) by exact Eg.
  cbn [r_status r_x]. split; [reflexivity|]. split; [reflexivity|].
  unfold gradient_at. cbn [sumn line f_jac f_res]. rewrite Rabs_right; lra.
Qed.
Print Assumptions gradient_documented_refuted.

(** tiny_solver.h:178, 193: COST_CHANGE_TOO_SMALL is documented as a change
    below function_tolerance * old_cost; here the cost falls by three quarters,
    the tolerance is one fifth. *)
Theorem cost_change_documented_refuted :
  exists f o x0, never_fails f /\ reads 1 1 f /\ 0 < initial_trust_region_radius o /\
  forall s0, let r := snd (Solve 1 1 f o divide s0 x0) in
  r_status r = COST_CHANGE_TOO_SMALL /\ length (r_trace r) = 1%nat
  /\ function_tolerance o * cost_at 1 f x0 < Rabs (cost_at 1 f (r_x r) - cost_at 1 f x0).
Proof.
  exists (line 1), (opts 50 0 (1 / 5) 0), half.
  split; [apply line_never|]. split; [apply line_reads|]. split; [cbn; lra|].
  intros s0 r. destruct (line_run 48 0 (1 / 5) 0 s0) as (A & B & y & C & _); try lra. fold r in A, B, C.
  split; [exact A|]. split; [rewrite C; reflexivity|].
  unfold cost_at. cbn [sumn line f_res opts function_tolerance]. rewrite B. unfold half.
  rewrite Rabs_left; lra.
Qed.
Print Assumptions cost_change_documented_refuted.

(** tiny_solver.h:250-251, 295-297, 312-313: a failed evaluation is ignored.
    The function below evaluates at the start, fails at the trial point and
    leaves zeros behind; the solver moves there, reports the cost of the start
    as final, and hands out the buffers of the failed call. *)
Definition failing : Function :=
  mkF (fun x => negb (lt (x 0%nat) (1 / 2))) (fun x _ => if lt (x 0%nat) (1 / 2) then 0 else x 0%nat) (fun _ _ _ => 1).

Theorem failure_ignored_refuted :
  exists f o x0, ok f x0 = true /\ 0 < initial_trust_region_radius o /\
  forall s0, let p := Solve 1 1 f o divide s0 x0 in let r := snd p in
  ok f (r_x r) = false /\ r_x r <> x0 /\ final_cost r = fst p.
Proof.
  exists failing, (opts 50 0 1 0), half.
  assert (Hok : ok failing half = true) by (cbn; rewrite lt_f by (unfold half; lra); reflexivity).
  split; [exact Hok|]. split; [cbn; lra|].
  intros s0. unfold Solve. cbn [fst snd].
  rewrite (Update_ok 1 1 failing true s0 half Hok).
  assert (Es0 : sc0 1 failing half 0%nat = / 2).
  { unfold sc0. rewrite norm1. cbn [failing f_jac]. rewrite Rabs_R1. lra. }
  assert (Hres : f_res failing half 0%nat = 1 / 2) by (cbn; rewrite lt_f by (unfold half; lra); reflexivity).
  set (s := St 1 1 failing (sc0 1 failing half) half).
  assert (L3 : g s 0%nat = - (1 / 4)).
  { unfold s, St; cbn [g sumn]. rewrite Es0, Hres. cbn [failing f_jac]. lra. }
  assert (L4 : jtj s 0%nat 0%nat = 1 / 4).
  { unfold s, St; cbn [jtj sumn]. rewrite Es0. cbn [failing f_jac]. lra. }
  assert (L1 : divide (regularized s 1) (g s) 0%nat = - (1 / 2)).
  { unfold divide, regularized. cbn [Nat.eqb]. rewrite L3, L4, (clamp_id _ quarter_in). lra. }
  assert (L2 : cost s = 1 / 8).
  { unfold s. rewrite St_cost. unfold cost_at. cbn [sumn]. rewrite Hres. lra. }
  cbn [opts gradient_tolerance cost_threshold max_num_iterations initial_trust_region_radius].
  assert (HG : 0 <= gradient_max_norm s) by (unfold s, St; cbn [gradient_max_norm abs_maxCoeff]; apply Rabs_pos).
  rewrite lt_f by lra. rewrite lt_f by lra.
  replace (1 / 1) with 1 by field.
  change (50 - 1)%nat with (S 48). generalize 48%nat; intros k. cbn [Loop]. cbv zeta.
  cbn [parameter_tolerance function_tolerance opts].
  rewrite (lt_f (norm 1 _) (0 * _)) by (rewrite Rmult_0_l; apply sqrt_pos).
  assert (Es : jacobi_scaling s 0%nat = / 2) by exact Es0.
  set (y := fun i : nat => half i + jacobi_scaling s i * divide (regularized s 1) (g s) i).
  assert (Ey : y 0%nat = 1 / 4) by (unfold y; rewrite L1, Es; unfold half; lra).
  assert (Esq : squaredNorm 1 (f_res failing y) = 0).
  { unfold squaredNorm. cbn [sumn failing f_res]. rewrite lt_t by (rewrite Ey; lra). lra. }
  assert (Hnk : ok failing y = false) by (cbn; rewrite lt_t by (rewrite Ey; lra); reflexivity).
  rewrite Esq, L2.
  assert (Em : dot 1 (divide (regularized s 1) (g s))
     (fun i => 2 * g s i - sumn 1 (fun j => jtj s i j * divide (regularized s 1) (g s) j)) = 3 / 16).
  { unfold dot. cbn [sumn]. rewrite L1, L3, L4. lra. }
  rewrite Em.
  replace ((2 * (1 / 8) - 0) / (3 / 16)) with (4 / 3) by field.
  rewrite (lt_t 0 (4 / 3)) by lra.
  rewrite (lt_t (Rabs _) 1) by (rewrite Rabs_right; lra).
  cbn [r_x r_solver]. split; [exact Hnk|]. split.
  - intros E. apply (f_equal (fun h => h 0%nat)) in E. rewrite Ey in E. unfold half in E. lra.
  - unfold final_cost. cbn [r_solver]. unfold Update. rewrite Hnk. cbn [negb snd cost]. rewrite L2; reflexivity.
Qed.
Print Assumptions failure_ignored_refuted.
