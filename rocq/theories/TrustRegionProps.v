(** Theorems about the trust region minimizer (C23-C27, C32, C57).
    All are axiom free and hold for every evaluator, manifold, strategy, line
    search, inner iteration, callback and clock behaviour, with IEEE doubles. *)
Require Import List ZArith Bool Lia.
From Verif Require Import Dbl DblArith DblArithProofs TrustRegionModel TrustRegionSpec
  TrustRegionProofs TrustRegionProofs2 TrustRegionProofs3.
Import ListNotations.
Open Scope Z_scope.
Opaque dz DBL_MAX.

(** The point the solve starts from: the given one, projected onto the bounds if
    there are any. *)
Definition starts_at (E : tr_env) (Op : tr_options) (p0 x0 : pt E) : Prop :=
  if o_constrained Op then ev_plus E p0 (zero_delta E) = (true, x0) else x0 = p0.

Lemma start_point_spec : forall E Op p0 x0, start_point E Op p0 = Some x0 -> starts_at E Op p0 x0.
Proof.
  intros E Op p0 x0. unfold start_point, starts_at. destruct (o_constrained Op).
  - destruct (ev_plus E p0 (zero_delta E)) as [[] y]; [|discriminate]. intros X; inversion X; auto.
  - intros X; inversion X; auto.
Qed.

(** Either iteration zero failed, or the loop ran from the starting point. *)
Lemma minimize_cases : forall E Op f st p0 r, minimize_fuel E Op f st p0 = Some r ->
  (r_accepted E r = [] /\ r_iters E r = [] /\ r_succ E r = 0 /\ r_unsucc E r = 0 /\
   r_params E r = p0 /\ r_term E r = FAILURE /\ same_point_honest (r_trace E r)) \/
  exists x0 c j g s, starts_at E Op p0 x0 /\ evaluate_gradient E x0 = Some (c, j, g) /\
    loop E Op f (start_state E Op st p0 x0 c j g) = Some s /\ r = of_state E (dadd c (o_fixed Op)) s.
Proof.
  intros E Op f st p0 r. unfold minimize_fuel.
  assert (N : forall x : pt E, same_point_honest (prepare E x true [])).
  { intros x pre y post X. unfold prepare in X. destruct (ev_set E x); [|destruct pre; discriminate].
    destruct pre; [discriminate|]. destruct pre; discriminate. }
  destruct (start_point E Op p0) as [x0|] eqn:S0.
  - destruct (evaluate_gradient E x0) as [[[c j] g]|] eqn:G.
    + destruct (loop E Op f _) as [s|] eqn:L; [|discriminate].
      intros X; inversion X; subst. right. exists x0, c, j, g, s. auto using start_point_spec.
    + intros X; inversion X; subst. left. simpl. repeat split; auto.
  - intros X; inversion X; subst. left. simpl. repeat split; auto.
    intros pre y post Y. destruct pre; discriminate.
Qed.

(** *** C24 *)
(** The minimizer always returns, after at most max_num_iterations passes; its
    iteration summaries are numbered 0, 1, 2, ...; there are at most
    max_num_iterations + 1 of them; and num_successful_steps and
    num_unsuccessful_steps count the successful and the other summaries. *)
Theorem tr_terminates : forall E Op st p0, exists r,
  minimize E Op st p0 = Some r /\
  (forall f, (Z.to_nat (o_max_iter Op) <= f)%nat -> minimize_fuel E Op f st p0 = Some r) /\
  (forall n, (n < length (r_iters E r))%nat -> is_iteration (nth n (r_iters E r) (new_summary 0)) = Z.of_nat n) /\
  Z.of_nat (length (r_iters E r)) <= Z.max 0 (o_max_iter Op) + 1 /\
  r_succ E r = Z.of_nat (length (filter is_successful (r_iters E r))) /\
  r_succ E r = Z.of_nat (length (r_accepted E r)) /\
  r_succ E r + r_unsucc E r = Z.of_nat (length (r_iters E r)).
Proof.
  intros E Op st p0.
  assert (Ex : exists r, minimize E Op st p0 = Some r).
  { unfold minimize, minimize_fuel. destruct (start_point E Op p0); [|eauto].
    destruct (evaluate_gradient E p) as [[[c j] g]|]; [|eauto].
    destruct (loop E Op _ _) eqn:L; [eauto|]. exfalso. revert L. apply loop_terminates.
    - apply start_counts.
    - simpl. lia. }
  destruct Ex as [r M]. exists r. split; auto. split.
  - intros f Hf. revert M. unfold minimize, minimize_fuel. destruct (start_point E Op p0); [|auto].
    destruct (evaluate_gradient E p) as [[[c j] g]|]; [|auto].
    destruct (loop E Op (Z.to_nat (o_max_iter Op)) _) eqn:L; [|discriminate].
    rewrite (loop_more_fuel _ _ _ _ _ _ Hf L). auto.
  - apply minimize_cases in M. destruct M as [M|(x0 & c & j & g & s & _ & _ & L & ->)].
    + destruct M as (A & B & C & D & _). rewrite A, B, C, D. simpl. repeat split; try lia.
    + apply loop_counts in L; [|apply start_counts]. destruct L as [N O B A M]. simpl.
      split; auto. split; [lia|]. split; auto. split; [auto|].
      rewrite O, B. unfold n_ok, n_bad. clear. induction (s_iters E s) as [|i l IH]; auto.
      cbn [filter length]. destruct (is_successful i); cbn [negb length]; lia.
Qed.

(** *** C23 *)
Theorem tr_returns_best : forall E Op st p0 r, minimize E Op st p0 = Some r ->
  (* nothing could be evaluated at the start *)
  (r_accepted E r = [] /\ r_params E r = p0 /\ r_term E r = FAILURE) \/
  exists x0 c0 rest,
    starts_at E Op p0 x0 /\ r_accepted E r = (x0, c0) :: rest /\
    (* the costs are those the evaluator gave at these points *)
    (forall y d, In (y, d) (r_accepted E r) -> exists j, ev_jac E y = Some (d, j)) /\
    (* some accepted cost is below DBL_MAX: the parameters have the least one *)
    ((exists c, In (r_params E r, c) (r_accepted E r) /\ dlt c DBL_MAX = true /\
        forall y d, In (y, d) (r_accepted E r) -> dlt d c = false) \/
     (r_params E r = p0 /\ forall y d, In (y, d) (r_accepted E r) -> dlt d DBL_MAX = false)).
Proof.
  intros E Op st p0 r M. apply minimize_cases in M.
  destruct M as [M|(x0 & c & j & g & s & S0 & G & L & ->)]; [left; tauto|right].
  assert (B0 : bestinv E p0 x0 (start_state E Op st p0 x0 c j g)).
  { split; simpl; auto.
    - left. split; auto. split; auto. intros y d [].
    - intros y d [].
    - eapply evaluate_gradient_jac; eauto. }
  destruct (loop_best E Op _ _ _ _ _ B0 L) as (B & V & c0 & rest & F).
  exists x0, c0, rest. simpl. split; auto. split; auto. split; auto.
  destruct B as [(_ & P & A)|(I & Lt & A)]; eauto.
Qed.

(** If no cost is NaN and the starting cost is below DBL_MAX, the returned cost is
    at most every accepted cost, in particular the starting one. *)
Theorem tr_never_worse : forall E Op st p0 r x0 c0 rest, minimize E Op st p0 = Some r ->
  (forall y d j, ev_jac E y = Some (d, j) -> d <> NaN) ->
  r_accepted E r = (x0, c0) :: rest -> dlt c0 DBL_MAX = true ->
  exists c j, ev_jac E (r_params E r) = Some (c, j) /\
    forall y d, In (y, d) (r_accepted E r) -> dle c d = true.
Proof.
  intros E Op st p0 r x0 c0 rest M N A L.
  destruct (tr_returns_best _ _ _ _ _ M) as [X|(x0' & c0' & rest' & _ & A' & V & D)].
  - destruct X as [X _]. congruence.
  - rewrite A in *. inversion A'; subst x0' c0' rest'. destruct D as [(c & I & _ & B)|(_ & B)].
    + destruct (V _ _ I) as [j J]. exists c, j. split; auto.
      intros y d Y. destruct (V _ _ Y) as [j' J']. apply dlt_false_le; eauto.
    + rewrite (B x0 c0) in L by (left; auto). discriminate.
Qed.

(** *** C26 *)
(** Without non-monotonic steps, accepted costs strictly decrease. *)
Theorem tr_monotonic : forall E Op st p0 r, minimize E Op st p0 = Some r ->
  o_nonmono Op = false -> dle (Fin 0) (o_min_rel Op) = true ->
  consistent_cost E -> (o_inner Op = false \/ inner_descends E) ->
  descending (map snd (r_accepted E r)).
Proof.
  intros E Op st p0 r M NM MR HC HI. apply minimize_cases in M.
  destruct M as [M|(x0 & c & j & g & s & S0 & G & L & ->)].
  - destruct M as [M _]. rewrite M. intros pre d post X. destruct pre; discriminate.
  - eapply loop_acc in L; eauto.
    + simpl in L. rewrite NM in L. destruct L as (_ & _ & L). apply L; auto.
    + split; simpl; auto.
      unfold hist; simpl. rewrite NM. apply seinv_new. lia.
Qed.

(** With non-monotonic steps: every accepted cost is below the starting cost, and
    after [max_consecutive_nonmonotonic_steps] accepted points without a new best
    cost, below the largest cost since the best one. *)
Theorem tr_nonmonotonic : forall E Op st p0 r, minimize E Op st p0 = Some r ->
  0 <= o_max_nonmono Op -> dle (Fin 0) (o_min_rel Op) = true ->
  consistent_cost E -> (o_inner Op = false \/ inner_descends E) ->
  below_first (map snd (r_accepted E r)) /\
  (o_nonmono Op = true -> forced_descent (o_max_nonmono Op) (map snd (r_accepted E r))).
Proof.
  intros E Op st p0 r M NM MR HC HI. apply minimize_cases in M.
  destruct M as [M|(x0 & c & j & g & s & S0 & G & L & ->)].
  - destruct M as [M _]. rewrite M. split.
    + intros c0 rr X. discriminate.
    + intros _ pre m mid d post X. destruct pre; discriminate.
  - eapply loop_acc in L; eauto.
    + simpl in L. destruct L as (B & F & _). split; auto. intros X. rewrite X in F. auto.
    + split; simpl; auto.
      unfold hist; simpl. apply seinv_new. destruct (o_nonmono Op); lia.
Qed.

(** *** C27 *)
(** [box] is any set such that a successful Plus lands in it (Program::Plus
    projects onto the bounds, see update_lands_in_box in ProblemProps) and that the inner
    iterations do not leave.  Every accepted point and the returned point are in it. *)
Theorem tr_feasible : forall E Op st p0 r (box : pt E -> Prop),
  minimize E Op st p0 = Some r ->
  (forall x d y, ev_plus E x d = (true, y) -> box y) ->
  (forall k y, box y -> box (inner E k y)) ->
  dle (Fin 0) (o_min_rel Op) = true -> box p0 ->
  box (r_params E r) /\ forall y d, In (y, d) (r_accepted E r) -> box y.
Proof.
  intros E Op st p0 r box M HP HI MR B0. apply minimize_cases in M.
  destruct M as [M|(x0 & c & j & g & s & S0 & G & L & ->)].
  - destruct M as (A & _ & _ & _ & P & _). rewrite A, P. split; auto. intros y d [].
  - eapply loop_feas in L; eauto.
    unfold feas. simpl. split; [|split; auto].
    + unfold starts_at in S0. destruct (o_constrained Op); [eapply HP; eauto|subst; auto].
    + intros y d [].
Qed.

(** *** C32, trust region part *)
(** A solve with an evaluation callback has no inner iterations
    (trust_region_preprocessor.cc:298-301); then every evaluation announced with
    new_evaluation_point = false is at the point evaluated immediately before. *)
Theorem tr_same_point : forall E Op st p0 r, minimize E Op st p0 = Some r ->
  o_inner Op = false -> dle (Fin 0) (o_min_rel Op) = true ->
  (forall x c, ev_cost E x = Some c -> ev_set E x = true) ->
  same_point_honest (r_trace E r).
Proof.
  intros E Op st p0 r M NI MR HS. apply minimize_cases in M.
  destruct M as [M|(x0 & c & j & g & s & S0 & G & L & ->)]; [tauto|].
  eapply loop_trace in L; eauto.
  split; simpl; auto. unfold prepare. intros pre y post X.
  destruct (ev_set E x0); [|destruct pre; discriminate].
  destruct pre; [discriminate|]. destruct pre; discriminate.
Qed.

(** *** C25 *)
(** If no rejected step had a cost below the returned one, the reported final cost
    is the cost of the returned parameters plus the fixed cost.  Missing for the full
    claim: the hypothesis on rejected steps; without it the claim is false
    ([final_cost_refuted]). *)
Theorem final_cost_partial : forall E Op st p0 r x0 c0 rest ic, minimize E Op st p0 = Some r ->
  (forall y d j, ev_jac E y = Some (d, j) -> d <> NaN) ->
  r_accepted E r = (x0, c0) :: rest -> dlt c0 DBL_MAX = true ->
  r_initial_cost E r = Some ic ->
  (exists z, o_fixed Op = Fin z) ->
  (forall c j, ev_jac E (r_params E r) = Some (c, j) ->
     forall i, In i (r_iters E r) -> is_successful i = false -> is_valid i = true ->
     is_cost i <> NaN /\ dlt (is_cost i) (dadd c (o_fixed Op)) = false) ->
  exists c j, ev_jac E (r_params E r) = Some (c, j) /\
    final_cost ic (r_iters E r) = dadd c (o_fixed Op).
Proof.
  intros E Op st p0 r x0 c0 rest ic M N A L IC [z Fz] Rej.
  destruct (tr_never_worse _ _ _ _ _ _ _ _ M N A L) as (c & j & J & B).
  exists c, j. split; auto. specialize (Rej c j J).
  destruct (tr_returns_best _ _ _ _ _ M) as [X|(x0' & c0' & rest' & _ & A' & V & D)].
  { destruct X as [X _]. congruence. }
  assert (Cacc : In (r_params E r, c) (r_accepted E r)).
  { destruct D as [(c' & I & _)|(_ & X)].
    - destruct (V _ _ I) as [j' J']. rewrite J in J'. inversion J'; subst. auto.
    - exfalso. rewrite A in X. rewrite (X x0 c0) in L by (left; auto). discriminate. }
  pose proof M as M'. apply minimize_cases in M'.
  destruct M' as [M'|(y0 & d0 & jj & g & s & S0 & G & Lp & ->)].
  { destruct M' as [X _]. congruence. }
  simpl in IC. inversion IC; subst ic. simpl in A, A', B, Rej, Cacc, V |- *.
  assert (F0 : x0 = y0 /\ c0 = d0).
  { assert (B0 : bestinv E p0 y0 (start_state E Op st p0 y0 d0 jj g)).
    { split; simpl; auto.
      - left. split; auto. split; auto. intros y d [].
      - intros y d [].
      - eapply evaluate_gradient_jac; eauto. }
    destruct (loop_best E Op _ _ _ _ _ B0 Lp) as (_ & V' & cc & rr & F).
    rewrite A in F. inversion F; subst. split; auto.
    destruct (V' y0 cc) as [j' J']; [rewrite A; left; auto|].
    apply evaluate_gradient_jac in G. congruence. }
  destruct F0 as [<- <-].
  destruct (loop_reported E Op _ _ _ (start_rep E Op st p0 x0 c0 jj g G) Lp) as [R1 R2].
  assert (NN : forall d, d <> NaN -> dadd d (o_fixed Op) <> NaN).
  { rewrite Fz. intros [| | x |] Nd; cbn [dadd]; try discriminate; auto. apply rnd_not_nan. }
  assert (Nacc : forall y d, In (y, d) (s_accepted E s) -> d <> NaN).
  { intros y d Y. destruct (V y d Y) as [j' J']. eapply N; eauto. }
  assert (Le : forall y d, In (y, d) (s_accepted E s) -> leq (dadd c (o_fixed Op)) (dadd d (o_fixed Op))).
  { intros y d Y. rewrite Fz. apply dadd_leq; [|eapply N; eauto|eauto].
    pose proof (B y d Y). apply nlt_leq; eauto.
    destruct (dlt d c) eqn:X; auto. exfalso. clear - H X.
    destruct c, d; simpl in *; try discriminate. rewrite Z.leb_le in H. rewrite Z.ltb_lt in X. lia. }
  assert (I0 : In (x0, c0) (s_accepted E s)) by (rewrite A; left; auto).
  assert (Nc0 : c0 <> NaN) by (exact (Nacc x0 c0 I0)).
  destruct (final_cost_min (s_iters E s) (dadd c0 (o_fixed Op))) as (Fi & Fl & Fa).
  { apply NN; auto. }
  { intros i I. destruct (R1 i I) as [[X Y]|(y & d & Y & ->)]; [apply Rej; auto|]. apply NN; eauto. }
  destruct (R2 _ _ Cacc) as (i & Ii & Ci).
  assert (Up : leq (final_cost (dadd c0 (o_fixed Op)) (s_iters E s)) (dadd c (o_fixed Op))).
  { rewrite <- Ci. apply Fa; auto. }
  apply leq_antisym_nlt; auto.
  assert (NL : forall a b, leq a b -> dlt b a = false).
  { intros a b [->|X]; [apply dlt_irrefl|]. destruct (dlt b a) eqn:Y; auto.
    pose proof (dlt_trans _ _ _ X Y) as Q. rewrite dlt_irrefl in Q. discriminate. }
  destruct Fi as [Fi|(k & K & Fi)].
  - rewrite Fi. apply NL. eapply Le; eauto.
  - rewrite <- Fi. destruct (R1 k K) as [[X Y]|(y & d & Y & ->)].
    + apply (Rej k K X Y).
    + apply NL. eapply Le; eauto.
Qed.

(** *** C57 *)
(** The termination type is justified by what happened: a callback's decision,
    the time or iteration limit, or one of the documented convergence tests at the last
    accepted point [x] (the converse reading of each test is "not greater than the
    tolerance", see [nan_cost_converges] for NaN). *)
Theorem tr_termination_truthful : forall E Op st p0 r, minimize E Op st p0 = Some r ->
  r_iters E r <> [] ->
  exists i its l x xc, r_iters E r = its ++ [i] /\ r_accepted E r = l ++ [(x, xc)] /\
  match r_term E r with
  | USER_SUCCESS => run_callbacks E (callbacks E) (r_iters E r) (r_params E r) = SOLVER_TERMINATE_SUCCESSFULLY
  | USER_FAILURE => run_callbacks E (callbacks E) (r_iters E r) (r_params E r) = SOLVER_ABORT
  | NO_CONVERGENCE => time_up E (is_iteration i) = true \/ o_max_iter Op <= is_iteration i
  | CONVERGENCE =>
      (is_successful i = true /\ dlt (o_gtol Op) (is_gmax i) = false /\
         exists j y, ev_jac E x = Some (xc, j) /\ ev_plus E x (neg_gradient E j) = (true, y) /\ is_gmax i = max_dist E x y) \/
      dlt (o_min_radius Op) (is_radius i) = false \/
      (l <> [] /\ exists y, dlt (dmul (o_ptol Op) (dadd (norm E x) (o_ptol Op))) (dist E x y) = false) \/
      (exists y c, (dle DBL_MAX c = true \/ ev_cost E y = Some c) /\
         dlt (dmul (o_ftol Op) xc) (dabs (dsub xc c)) = false)
  | FAILURE => True
  end.
Proof.
  intros E Op st p0 r M NE. apply minimize_cases in M.
  destruct M as [M|(x0 & c & j & g & s & S0 & G & L & ->)]; [tauto|].
  exact (loop_why E Op _ _ _ (start_rep E Op st p0 x0 c j g G) L).
Qed.

Print Assumptions tr_terminates.
Print Assumptions tr_returns_best.
Print Assumptions tr_monotonic.
Print Assumptions tr_nonmonotonic.
Print Assumptions tr_feasible.
Print Assumptions tr_same_point.
Print Assumptions final_cost_partial.
Print Assumptions tr_termination_truthful.

(** *** Concrete solves *)
(** one integer parameter, the objective given by a table, steps by a schedule *)
Definition toy (f : Z -> option dbl) (steps : Z -> step_result Z) (inn : Z -> Z -> Z) : tr_env :=
  mkEnv Z Z unit unit (fun _ => true) f (fun x => match f x with Some c => Some (c, tt) | None => None end)
    (fun x d => (true, x + d)) 0 (fun _ => 1) (fun _ _ => dz 1) (fun x y => dz (Z.abs (x - y))) (fun x => dz (Z.abs x))
    (fun k _ s => (s, steps k)) (fun _ s => s) (fun _ s => s) (fun s => s) (fun _ => dz 1)
    (fun _ x _ _ d => ([], d)) inn [] (fun _ => false).

Lemma toy_consistent : forall f steps inn, consistent_cost (toy f steps inn).
Proof. intros f steps inn y c xc j. simpl. intros ->. intros X; inversion X; auto. Qed.

Definition toy_opts (nonmono inner : bool) : tr_options :=
  mkOpts false false inner (dq 1 1000) 4 5 (dq 1 10000) (dq 1 1000000) (dq 1 1000000) (dq 1 1000000)
    (dq 1 1000) nonmono 2 (Fin 0).

Definition run (E : tr_env) Op (st : strat E) (p : pt E) :=
  match minimize E Op st p with
  | Some r => Some (r_params E r, r_term E r, map is_iteration (r_iters E r), map is_successful (r_iters E r),
                    map fst (r_accepted E r), r_trace E r)
  | None => None
  end.

(** costs 10, 4, 6, (failure), 1: two good steps, a rejected one, a failed evaluation *)
Definition table1 (x : Z) : option dbl :=
  if x =? 0 then Some (dz 10) else if x =? 1 then Some (dz 4) else if x =? 2 then Some (dz 6)
  else if x =? 3 then None else Some (dz 1).
Definition steps1 (k : Z) : step_result Z :=
  Step (dz 5) (if k <=? 2 then 1 else if k =? 3 then 2 else 3).
Definition toy1 := toy table1 steps1 (fun _ x => x).
Example tr_case :
  run toy1 (toy_opts false false) tt 0 =
  Some (4, NO_CONVERGENCE, [0; 1; 2; 3; 4], [true; true; false; false; true], [0; 1; 4],
        [(0, true); (1, true); (1, false); (2, true); (3, true); (4, true); (4, false)]).
Proof. vm_compute. reflexivity. Qed.

(** the hypotheses of the theorems above hold of it *)
Example tr_case_hyps : consistent_cost toy1 /\ dle (Fin 0) (o_min_rel (toy_opts false false)) = true /\
  (forall x c, ev_cost toy1 x = Some c -> ev_set toy1 x = true) /\ inner_descends toy1.
Proof.
  split; [|split; [|split]].
  - intros y c xc j. simpl. intros ->. intros X; inversion X; auto.
  - vm_compute. reflexivity.
  - reflexivity.
  - intros k y c ic H1 H2. simpl in H1, H2. rewrite H1 in H2. inversion H2; subst ic. apply dle_refl.
    intros ->. revert H1. unfold table1.
    repeat match goal with |- context [if ?b then _ else _] => destruct b end; vm_compute; discriminate.
Qed.

(** non-monotonic steps: 10, 8, 9 (accepted although worse), 7, and the point of cost 7 is returned *)
Definition table2 (x : Z) : option dbl :=
  Some (if x =? 0 then dz 10 else if x =? 1 then dz 8 else if x =? 2 then dz 9 else if x =? 3 then dz 7 else dz 20).
Definition toy2 := toy table2 (fun _ => Step (dz 1) 1) (fun _ x => x).
Example tr_nonmonotonic_case :
  run toy2 (toy_opts true false) tt 0 =
  Some (3, NO_CONVERGENCE, [0; 1; 2; 3; 4], [true; true; true; true; false], [0; 1; 2; 3],
        [(0, true); (1, true); (1, false); (2, true); (2, false); (3, true); (3, false); (4, true)]).
Proof. vm_compute. reflexivity. Qed.
(** the same steps with monotonic acceptance stop at 8 *)
Example tr_monotonic_case :
  match minimize toy2 (toy_opts false false) tt 0 with Some r => r_accepted toy2 r | None => [] end =
  [(0, dz 10); (1, dz 8)].
Proof. vm_compute. reflexivity. Qed.

(** *** Findings *)
(** C25: a rejected step with a slightly lower cost (decrease 1 where the model
    promised 2000) makes the reported final cost lower than the cost at the returned
    parameters, in a solve that ends normally and whose evaluations all succeed. *)
Definition toy3 := toy (fun x => Some (if x =? 0 then dz 1000 else dz 999)) (fun _ => Step (dz 2000) 1) (fun _ x => x).
Theorem final_cost_refuted : exists E Op st p0 r ic c j,
  minimize E Op st p0 = Some r /\ consistent_cost E /\ dle (Fin 0) (o_min_rel Op) = true /\
  usable (r_term E r) = true /\ r_initial_cost E r = Some ic /\ o_fixed Op = Fin 0 /\
  ev_jac E (solve_params p0 r) = Some (c, j) /\
  dlt (final_cost ic (r_iters E r)) c = true.
Proof.
  exists toy3, (toy_opts false false), tt, 0.
  destruct (tr_terminates toy3 (toy_opts false false) tt 0) as [r [M _]].
  exists r, (dadd (dz 1000) (Fin 0)), (dz 1000), tt.
  assert (R : match minimize toy3 (toy_opts false false) tt 0 with
              | Some r => (usable (r_term toy3 r), r_initial_cost toy3 r, @solve_params toy3 0 r,
                           dlt (final_cost (dadd (dz 1000) (Fin 0)) (r_iters toy3 r)) (dz 1000))
              | None => (false, None, 0, false) end = (true, Some (dadd (dz 1000) (Fin 0)), 0, true)).
  { vm_compute. reflexivity. }
  rewrite M in R. injection R as R1 R2 R3 R4.
  split; [exact M|]. split; [apply toy_consistent|].
  split; [vm_compute; reflexivity|]. split; [exact R1|]. split; [exact R2|]. split; [reflexivity|].
  split; [rewrite R3; reflexivity|exact R4].
Qed.

(** C26: an inner iteration that increases the cost can turn the model cost change
    negative, and then even a monotonic solve accepts a step that increases the cost
    (10 -> 15 here; TrustRegionStepEvaluator::StepQuality requires model_cost_change > 0). *)
Definition toy4 := toy (fun x => Some (if x =? 0 then dz 10 else if x =? 1 then dz 9 else dz 15))
  (fun _ => Step (dz 1) 1) (fun _ x => x + 1).
Theorem monotonic_with_inner_refuted : exists E Op st p0 r,
  minimize E Op st p0 = Some r /\ o_nonmono Op = false /\ dle (Fin 0) (o_min_rel Op) = true /\
  consistent_cost E /\ ~ descending (map snd (r_accepted E r)).
Proof.
  exists toy4, (mkOpts false false true (dq 1 1000) 1 5 (dq 1 10000) (dq 1 1000000) (dq 1 1000000) (dq 1 1000000)
    (dq 1 1000) false 0 (Fin 0)), tt, 0.
  match goal with |- context [minimize toy4 ?o tt 0] => set (op := o) end.
  destruct (tr_terminates toy4 op tt 0) as [r [M _]].
  exists r. split; [exact M|]. split; [reflexivity|]. split; [vm_compute; reflexivity|]. split; [apply toy_consistent|].
  assert (R : match minimize toy4 op tt 0 with Some r => map snd (r_accepted toy4 r) | None => [] end = [dz 10; dz 15]).
  { vm_compute. reflexivity. }
  rewrite M in R. rewrite R. intros D.
  specialize (D [dz 10] (dz 15) [] eq_refl (dz 10) (or_introl eq_refl)). vm_compute in D. discriminate.
Qed.

(** C57: a starting cost that overflows to +inf is reported as CONVERGENCE after one
    step, the parameters unchanged, although the step leads to a finite cost. *)
Definition toy5 := toy (fun x => Some (if x =? 0 then PInf else dz 1)) (fun _ => Step (dz 1) 1) (fun _ x => x).
Theorem infinite_cost_converges_refuted : exists E Op st p0 r y,
  minimize E Op st p0 = Some r /\ r_term E r = CONVERGENCE /\ solve_params p0 r = p0 /\
  ev_cost E p0 = Some PInf /\ ev_cost E y = Some (dz 1) /\ In (y, true) (r_trace E r).
Proof.
  exists toy5, (toy_opts false false), tt, 0.
  destruct (tr_terminates toy5 (toy_opts false false) tt 0) as [r [M _]].
  exists r, 1.
  assert (R : match minimize toy5 (toy_opts false false) tt 0 with
              | Some r => (r_term toy5 r, @solve_params toy5 0 r, r_trace toy5 r)
              | None => (FAILURE, 5, []) end = (CONVERGENCE, 0, [(0, true); (1, true)])).
  { vm_compute. reflexivity. }
  rewrite M in R. injection R as R1 R2 R3.
  split; [exact M|]. split; [exact R1|]. split; [exact R2|]. split; [reflexivity|]. split; [reflexivity|].
  rewrite R3. right; left; reflexivity.
Qed.

(** C57: so is a step whose cost is NaN. *)
Definition toy6 := toy (fun x => Some (if x =? 0 then dz 5 else NaN)) (fun _ => Step (dz 1) 1) (fun _ x => x).
Theorem nan_cost_converges : exists r, minimize toy6 (toy_opts false false) tt 0 = Some r /\ r_term toy6 r = CONVERGENCE.
Proof.
  destruct (tr_terminates toy6 (toy_opts false false) tt 0) as [r [M _]].
  exists r. split; [exact M|].
  assert (R : match minimize toy6 (toy_opts false false) tt 0 with Some r => r_term toy6 r | None => FAILURE end = CONVERGENCE).
  { vm_compute. reflexivity. }
  rewrite M in R. exact R.
Qed.
