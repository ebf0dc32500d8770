(** Theorems about the trust region strategies' radii (C29, C30) and what they keep
    between steps (C58).  All axiom free, IEEE doubles. *)
Require Import List ZArith Lia Bool.
From Verif Require Import Dbl DblArith DblArithProofs DblArithProofs2 TrustRegionModel TrustRegionSpec TrustRegionProofs
  TrustRegionProofs2 TrustRegionProofs3 TrustRegionProps
  StrategyModel StrategySpec StrategyProofs StrategyProofs2 StrategyProofs3.
Import ListNotations.
Open Scope Z_scope.

(** Valid radius options (Solver::Options::IsValid, solver.cc:407-412), the
    maximum being finite. *)
Definition radius_options (o : lm_opts) : Prop :=
  dvalid (lo_initial o) /\ dvalid (lo_max o) /\ lo_max o <> PInf /\
  dlt (Fin 0) (lo_initial o) = true /\ dle (lo_initial o) (lo_max o) = true.

(** there is a cube function satisfying the hypotheses *)
Theorem cube_ok : pow3_ok cube.
Proof.
  assert (OO : 0 < ONEU * ONEU) by (vm_compute; reflexivity).
  split.
  - intros [| | x |] [| | y |] L; try discriminate L; cbn [cube]; try reflexivity.
    + pose proof (rnd_not_nan (y * y * y) (ONEU * ONEU)). destruct (rnd (y * y * y) (ONEU * ONEU)); auto; congruence.
    + simpl in L. apply Z.leb_le in L. apply rnd_mono; auto. apply Z.mul_le_mono_nonneg_r; [lia|].
      assert (0 <= (y - x) * (y * y + x * y + x * x)); [|nia]. apply Z.mul_nonneg_nonneg; nia.
    + pose proof (rnd_not_nan (x * x * x) (ONEU * ONEU)). destruct (rnd (x * x * x) (ONEU * ONEU)); auto; congruence.
  - vm_compute. reflexivity.
  - vm_compute. reflexivity.
  - vm_compute. reflexivity.
Qed.

(** *** C29 *)
(** After every history of notifications the radius is a number between 0 and the
    maximum. *)
Theorem lm_radius_bounded : forall pow3 o s0 l s, pow3_ok pow3 -> radius_options o -> lm_new o = Some s0 ->
  lm_run pow3 o l s0 = Some s ->
  dle (Fin 0) (lm_radius s) = true /\ dle (lm_radius s) (lo_max o) = true.
Proof.
  intros pow3 o s0 l s P (V1 & V2 & MF & I1 & I2) N R.
  unfold lm_new in N. destruct (_ && _); [|discriminate]. injection N as <-.
  assert (I : lm_inv (lo_max o) s).
  { eapply lm_run_inv; eauto. split; cbn; auto using factor_2. split; auto. apply dlt_le; auto. }
  apply (li_within _ _ I).
Qed.

(** How the radius reacts to an accepted step of quality q: the process aborts
    iff q is not positive; the radius is at least halved and at most tripled
    (before the cap; the 2^-51 covers rounding); it does not shrink if q >= 1/2,
    does not grow if q <= 1/2, and grows with q. *)
Theorem lm_accept_reaction : forall pow3 o s q, pow3_ok pow3 -> lo_max o <> NaN -> dvalid (lo_max o) ->
  dvalid (lm_radius s) -> dle (Fin 0) (lm_radius s) = true ->
  match lm_accepted pow3 o q s with
  | None => dlt (Fin 0) q = false
  | Some s' =>
      dlt (Fin 0) q = true /\
      dle (dmin (lo_max o) (ddiv (lm_radius s) (dz 2))) (lm_radius s') = true /\
      (forall u u', lm_radius s = Fin u -> lm_radius s' = Fin u' -> 2 ^ 51 * u' <= (3 * 2 ^ 51 + 2) * u + 2 ^ 51) /\
      dle (lm_radius s') (lo_max o) = true /\
      (dle (dq 1 2) q = true -> dle (dmin (lo_max o) (lm_radius s)) (lm_radius s') = true) /\
      (dle q (dq 1 2) = true -> dle (lm_radius s') (lm_radius s) = true) /\
      (forall q2 s2, dle q q2 = true -> lm_accepted pow3 o q2 s = Some s2 -> dle (lm_radius s') (lm_radius s2) = true)
  end.
Proof.
  intros pow3 o s q P M MV V R. destruct (lm_accepted pow3 o q s) as [s'|] eqn:A.
  2:{ unfold lm_accepted in A. destruct (dlt (Fin 0) q); [discriminate|auto]. }
  apply lm_accepted_radius in A. destruct A as [Q ->]. cbn [lm_radius lm_factor].
  split; [auto|]. split; [apply accepted_halves_at_most; auto|].
  split.
  { intros u u' E E'. pose proof (accepted_triples_at_most pow3 P (lo_max o) q (lm_radius s) M R Q) as T.
    assert (V' : dvalid (Fin u')). { rewrite <- E'. unfold accepted_radius. apply dmin_valid; auto. apply ddiv_valid. }
    rewrite E' in T. rewrite E in T, R. simpl in R. apply Z.leb_le in R.
    apply third_bound; auto. apply valid_le_max; auto. }
  split; [apply dmin_le_l; auto|].
  split; [intros H; apply accepted_good; auto|].
  split; [intros H; apply accepted_poor; auto|].
  intros q2 s2 L A2. apply lm_accepted_radius in A2. destruct A2 as [Q2 ->]. cbn [lm_radius].
  apply accepted_mono; auto.
Qed.

(** A rejected (or invalid) step strictly shrinks a positive radius, in every
    state a history can lead to. *)
Theorem lm_reject_shrinks : forall pow3 o s0 l s, pow3_ok pow3 -> radius_options o -> lm_new o = Some s0 ->
  lm_run pow3 o l s0 = Some s -> dlt (Fin 0) (lm_radius s) = true ->
  dlt (lm_radius (lm_rejected s)) (lm_radius s) = true /\ lm_invalid s = lm_rejected s.
Proof.
  intros pow3 o s0 l s P (V1 & V2 & MF & I1 & I2) N R Pos. split; [|reflexivity].
  unfold lm_new in N. destruct (_ && _); [|discriminate]. injection N as <-.
  assert (I : lm_inv (lo_max o) s).
  { eapply lm_run_inv; eauto. split; cbn; auto using factor_2. split; auto. apply dlt_le; auto. }
  destruct I as [[W1 W2] V F]. unfold lm_rejected. cbn [lm_radius].
  pose proof (le_finite _ _ W2 MF) as NI.
  destruct (lm_radius s) as [| | u |] eqn:U; try discriminate; try congruence.
  simpl in Pos. apply Z.ltb_lt in Pos.
  destruct F as [->|(k & K & ->)].
  - cbn [ddiv]. simpl. apply Z.ltb_lt. auto.
  - destruct (ddiv_lt u k ltac:(lia) Pos) as (v & -> & Vb).
    pose proof (valid_le_max u V). destruct (Z.ltb_spec MAXU v); [lia|]. simpl. apply Z.ltb_lt. lia.
Qed.

(** n consecutive rejections after construction or after an accepted step divide
    the radius by 2 * 4 * ... * 2^n = 2^(n(n+1)/2), exactly, as long as the result
    has at least 2^-1022 (so that no digit is lost). *)
Theorem lm_rejections_exact : forall n s u, (n <= 1000)%nat ->
  lm_factor s = dz 2 -> dvalid (lm_radius s) -> lm_radius s = Fin u -> 2 ^ (52 + tri n) <= u ->
  exists v, lm_radius (Nat.iter n lm_rejected s) = Fin v /\ u = v * 2 ^ tri n.
Proof.
  intros n s u N F V R L. pose proof V as V'. rewrite R in V'.
  destruct (valid_multiple u (tri n) (tri_nonneg n) V' L) as [v E].
  pose proof (pow_pos' _ (tri_nonneg n)). pose proof (pow_pos' (52 + tri n) ltac:(pose proof (tri_nonneg n); lia)).
  destruct (reject_exact n s v N F V ltac:(nia) ltac:(congruence)) as (A & _ & _).
  exists v. split; auto.
Qed.

(** the decrease factor is 2 initially and after every accepted step *)
Theorem lm_factor_resets : forall pow3 o q s s' s0,
  (lm_new o = Some s0 -> lm_factor s0 = dz 2) /\ (lm_accepted pow3 o q s = Some s' -> lm_factor s' = dz 2).
Proof.
  intros. split.
  - unfold lm_new. destruct (_ && _); [|discriminate]. intros X. injection X as <-. reflexivity.
  - intros A. apply lm_accepted_radius in A. destruct A as [_ ->]. reflexivity.
Qed.

Definition ex_opts : lm_opts := mkLMO (dz 10000) (dz (10 ^ 16)) (dq 1 1000000) (dz (10 ^ 32)).
Example ex_opts_ok : radius_options ex_opts /\ lm_new ex_opts <> None.
Proof.
  split; [split; [|split; [|split; [|split]]]|]; try (vm_compute; reflexivity); vm_compute; intros H; discriminate H.
Qed.
(** three rejections, then a perfect step *)
Example lm_case : forall s0, lm_new ex_opts = Some s0 ->
  match lm_run cube ex_opts [Rejected (Fin 0); Rejected (Fin 0); Invalid] s0,
        lm_run cube ex_opts [Rejected (Fin 0); Rejected (Fin 0); Invalid; Accepted (dz 1)] s0 with
  | Some a, Some b => lm_radius a = dq 10000 64 /\ lm_radius b = dq 30000 64
  | _, _ => False
  end.
Proof.
  assert (E : lm_new ex_opts = Some (mkLM (dz 10000) (dz 2) false [])) by (vm_compute; reflexivity).
  intros s0 H. rewrite E in H. assert (mkLM (dz 10000) (dz 2) false [] = s0) by congruence. subst s0.
  vm_compute. split; reflexivity.
Qed.

(** "Always positive" fails: enough rejections underflow the radius to zero
    (46 of them from 10^4).  In the minimizer this cannot reach a step
    computation: see [lm_in_minimizer]. *)
Theorem lm_radius_positive_refuted : exists o s0 l s,
  radius_options o /\ lm_new o = Some s0 /\ lm_run cube o l s0 = Some s /\ lm_radius s = Fin 0.
Proof.
  exists ex_opts.
  destruct (lm_new ex_opts) as [s0|] eqn:N; [|exfalso; apply (proj2 ex_opts_ok); exact N].
  exists s0, (repeat Invalid 47).
  assert (X : lm_new ex_opts = Some (mkLM (dz 10000) (dz 2) false [])) by (vm_compute; reflexivity).
  assert (Y : match lm_run cube ex_opts (repeat Invalid 47) (mkLM (dz 10000) (dz 2) false []) with
              | Some s => lm_radius s = Fin 0 | None => False end) by (vm_compute; reflexivity).
  assert (mkLM (dz 10000) (dz 2) false [] = s0) by congruence. subst s0.
  destruct (lm_run cube ex_opts (repeat Invalid 47) (mkLM (dz 10000) (dz 2) false [])) as [s|]; [|contradiction].
  exists s. split; [apply ex_opts_ok|]. auto.
Qed.

(** *** C29, C58: the strategy inside the minimizer *)
(** A solve with the Levenberg-Marquardt strategy and without inner iterations
    never aborts in the strategy; every iteration reports a radius between 0 and the
    maximum; and every step is computed with a radius above min_trust_region_radius
    and with the regulariser of the current Jacobian, never a stale one. *)
Theorem lm_in_minimizer : forall E0 Op pow3 o colnorm solve p0 l0 x c j g fuel s,
  pow3_ok pow3 -> radius_options o -> dle (Fin 0) (o_min_rel Op) = true -> o_inner Op = false ->
  lm_new o = Some l0 ->
  let E := with_lm pow3 E0 o colnorm solve in
  loop E Op fuel (start_state E Op (mkLog (Some l0) []) p0 x c j g) = Some s ->
  log_state (s_strat E s) <> None /\
  (forall i, In i (s_iters E s) -> dle (Fin 0) (is_radius i) = true /\ dle (is_radius i) (lo_max o) = true) /\
  (forall j' l d, In (j', l, d) (log_calls (s_strat E s)) ->
     dlt (o_min_radius Op) (lm_radius l) = true /\
     d = map (fun a => ddiv a (lm_radius l)) (clamp_diag o (colnorm j'))).
Proof.
  intros E0 Op pow3 o colnorm solve p0 l0 x c j g fuel s P RO MR IN N E L.
  destruct RO as (V1 & V2 & MF & I1 & I2).
  assert (I : lm_inv (lo_max o) l0 /\ lm_reuse l0 = false).
  { unfold lm_new in N. destruct (_ && _); [|discriminate]. injection N as <-.
    split; [split; cbn; auto using factor_2|reflexivity]. split; auto. apply dlt_le; auto. }
  destruct I as [I Re].
  pose proof (loop_sinv E0 Op pow3 P o colnorm solve V2 MF MR fuel _ s
    (start_sinv E0 Op pow3 o colnorm solve IN l0 p0 x c j g I Re) L) as [A B C].
  split; [exact C|]. split.
  - intros i Hi. rewrite Forall_forall in B. exact (B i Hi).
  - intros j' l d H. rewrite Forall_forall in A. specialize (A _ H). destruct A as (A1 & _ & A3). auto.
Qed.

(** The same, seen from the result of Minimize. *)
Theorem lm_solve_radii : forall E0 Op pow3 o colnorm solve p0 l0 r,
  pow3_ok pow3 -> radius_options o -> dle (Fin 0) (o_min_rel Op) = true -> o_inner Op = false ->
  lm_new o = Some l0 ->
  let E := with_lm pow3 E0 o colnorm solve in
  minimize E Op (mkLog (Some l0) []) p0 = Some r ->
  forall i, In i (r_iters E r) -> dle (Fin 0) (is_radius i) = true /\ dle (is_radius i) (lo_max o) = true.
Proof.
  intros E0 Op pow3 o colnorm solve p0 l0 r P RO MR IN N E M i Hi. unfold minimize in M.
  apply minimize_cases in M. destruct M as [M|(x0 & c & j & g & s & _ & _ & L & ->)].
  - destruct M as (_ & M & _). rewrite M in Hi. destruct Hi.
  - destruct (lm_in_minimizer E0 Op pow3 o colnorm solve p0 l0 x0 c j g _ s P RO MR IN N L) as (_ & A & _).
    apply A. exact Hi.
Qed.

(** C58: with inner iterations the quality of an accepted step can underflow to
    zero, and StepAccepted then aborts the process (CHECK_GT): here the candidate
    costs 10^300, inner iterations bring it to 10^-31, below the current 10^-30. *)
Definition toy_inner := toy (fun x => Some (if x =? 0 then dq 1 (10 ^ 30) else if x =? 1 then dz (10 ^ 300) else dq 1 (10 ^ 31)))
  (fun _ => Step (dq 1 (10 ^ 31)) 1) (fun _ _ => 2).
Definition toy_lm := with_lm cube toy_inner ex_opts (fun _ => [dz 1]) (fun _ _ _ => Step (dq 1 (10 ^ 31)) 1).
Theorem lm_accept_abort_refuted : exists x c j g l0 s,
  lm_new ex_opts = Some l0 /\
  evaluate_gradient toy_lm x = Some (c, j, g) /\ inner_descends toy_lm /\ consistent_cost toy_lm /\
  loop toy_lm (toy_opts false true) 10 (start_state toy_lm (toy_opts false true) (mkLog (Some l0) []) x x c j g) = Some s /\
  log_state (s_strat toy_lm s) = None.
Proof.
  set (l0 := mkLM (dz 10000) (dz 2) false []).
  exists 0, (dq 1 (10 ^ 30)), tt, (dz 1), l0.
  assert (X : match loop toy_lm (toy_opts false true) 10
     (start_state toy_lm (toy_opts false true) (mkLog (Some l0) []) 0 0 (dq 1 (10 ^ 30)) tt (dz 1)) with
     | Some s => log_state (s_strat toy_lm s) = None | None => False end) by (vm_compute; reflexivity).
  destruct (loop toy_lm (toy_opts false true) 10 _) as [s|] eqn:L; [|contradiction].
  exists s. split; [vm_compute; reflexivity|]. split; [vm_compute; reflexivity|].
  split.
  { intros k y c ic A B.
    change (Some (if y =? 0 then dq 1 (10 ^ 30) else if y =? 1 then dz (10 ^ 300) else dq 1 (10 ^ 31)) = Some c) in A.
    change (Some (dq 1 (10 ^ 31)) = Some ic) in B.
    assert (SI : forall a b : dbl, Some a = Some b -> b = a) by (intros a b Q; injection Q; auto).
    apply SI in A. apply SI in B. rewrite A, B. clear A B.
    destruct (y =? 0); [|destruct (y =? 1)]; vm_compute; reflexivity. }
  split. { intros y c xc j'. 
    change (ev_cost toy_lm y) with (ev_cost toy_inner y). change (ev_jac toy_lm y) with (ev_jac toy_inner y).
    apply toy_consistent. }
  auto.
Qed.

Example lm_solve_case :
  let E := with_lm cube toy1 ex_opts (fun _ => [dz 1]) (fun k _ _ => steps1 k) in
  match minimize E (toy_opts false false) (mkLog (Some (mkLM (dz 10000) (dz 2) false [])) []) 0 with
  | Some r => let l := map is_radius (r_iters E r) in
      firstn 4 l = [dz 10000; dz 30000; dz 15000; dz 3750] /\ length l = 5%nat /\
      dlt (dz 3780) (last l NaN) = true /\ dlt (last l NaN) (dz 3781) = true
  | None => False
  end.
Proof. vm_compute. split; [|split; [|split]]; reflexivity. Qed.

(** *** C30 *)
(** The dogleg radius is not capped: one good step taken on the boundary triples
    it past max_trust_region_radius (max_radius_ is stored but never used). *)
Theorem dogleg_radius_cap_refuted : exists o s0 t gn ca ip s,
  radius_options o /\ dl_new o = Some s0 /\
  dl_run [DCompute t gn ca ip; DNote (Accepted (dz 1))] s0 = Some s /\
  dlt (lo_max o) (dl_radius s) = true.
Proof.
  set (o := mkLMO (dz 10000) (dz 10000) (dq 1 1000000) (dz (10 ^ 32))).
  set (s0 := mkDL (dz 10000) MIN_MU (Fin 0) false).
  exists o, s0, (fun _ => LS_SUCCESS), (dz 50000), (dz 20000), (Fin 0).
  assert (X : match dl_run [DCompute (fun _ => LS_SUCCESS) (dz 50000) (dz 20000) (Fin 0); DNote (Accepted (dz 1))] s0 with
              | Some s => dlt (lo_max o) (dl_radius s) = true | None => False end) by (vm_compute; reflexivity).
  destruct (dl_run _ s0) as [s|]; [|contradiction].
  exists s. split.
  { split; [|split; [|split; [|split]]]; try (vm_compute; reflexivity); vm_compute; intros H; discriminate H. }
  split; [vm_compute; reflexivity|].
  auto.
Qed.

(** What does hold, for every history: the radius is never negative or NaN and
    the regularisation mu never falls below its minimum. *)
Theorem dogleg_radius_partial : forall o s0 l s, dlt (Fin 0) (lo_initial o) = true -> dl_new o = Some s0 ->
  dl_run l s0 = Some s -> dle (Fin 0) (dl_radius s) = true /\ dle MIN_MU (dl_mu s) = true.
Proof.
  intros o s0 l s I N R. unfold dl_new in N. destruct (_ && _); [|discriminate]. injection N as <-.
  assert (J : dl_inv s).
  { eapply dl_run_inv; [|exact R]. split; cbn [dl_radius dl_mu]. apply dlt_le; auto. apply dle_refl. apply min_mu_nn. }
  destruct J; auto.
Qed.

Lemma le_not_lt : forall a b, dle a b = true -> dlt b a = false.
Proof. intros a b. destruct a, b; simpl; try discriminate; auto. intros H. apply Z.leb_le in H. apply Z.ltb_ge. auto. Qed.
Lemma lt_lt_not : forall a b c, dlt a b = true -> dlt b c = true -> dlt c a = false.
Proof.
  intros a b c. destruct a, b, c; simpl; try discriminate; auto. intros H1 H2.
  apply Z.ltb_lt in H1. apply Z.ltb_lt in H2. apply Z.ltb_ge. lia.
Qed.

(** An accepted step: halved below quality 1/4, at least max(radius, 3 |step|) above
    3/4, unchanged between. *)
Theorem dogleg_accept_reaction : forall q s,
  match dl_accepted q s with
  | None => dlt (Fin 0) q = false
  | Some s' => dlt (Fin 0) q = true /\ dl_reuse s' = false /\
      (dlt q (dq 1 4) = true -> dl_radius s' = dmul (dl_radius s) (dq 1 2)) /\
      (dle (dq 1 4) q = true -> dle q (dq 3 4) = true -> dl_radius s' = dl_radius s) /\
      (dlt (dq 3 4) q = true -> dl_radius s' = dmax (dl_radius s) (dmul (dz 3) (dl_norm s)))
  end.
Proof.
  intros q s. unfold dl_accepted. destruct (dlt (Fin 0) q); [|reflexivity].
  split; [reflexivity|]. split; [reflexivity|]. cbn [dl_radius]. unfold DEC_THRESHOLD, INC_THRESHOLD.
  assert (Q : dlt (dq 1 4) (dq 3 4) = true) by (vm_compute; reflexivity).
  generalize dependent (dq 1 4). generalize (dq 3 4). intros hi lo Q.
  split; [|split].
  - intros L. rewrite L. destruct (dlt hi q) eqn:U; auto.
    pose proof (lt_lt_not _ _ _ Q U) as X. rewrite X in L. discriminate L.
  - intros L1 L2. rewrite (le_not_lt _ _ L1), (le_not_lt _ _ L2). reflexivity.
  - intros U. rewrite U, (lt_lt_not _ _ _ Q U). reflexivity.
Qed.

(** Each step computation of the dogleg strategy terminates after at most eight
    linear solves, in every state a history can lead to, and leaves the radius alone. *)
Theorem dogleg_solves_bounded : forall o s0 l s t gn ca ip, dlt (Fin 0) (lo_initial o) = true -> dl_new o = Some s0 ->
  dl_run l s0 = Some s ->
  exists s' st tried, dl_compute t gn ca ip s = Some (s', st, tried) /\ (length tried <= 8)%nat /\
    dl_radius s' = dl_radius s.
Proof.
  intros o s0 l s t gn ca ip I N R.
  destruct (dogleg_radius_partial o s0 l s I N R) as [A B].
  destruct (dl_compute_spec t gn ca ip s (mkDlInv s A B)) as (s' & st & tr & E & L & D & _). eauto 10.
Qed.

(** Once mu has reached kMaxMu after an invalid step, every further computation
    fails without calling the linear solver and the radius never changes. *)
Theorem dogleg_stuck : forall n t gn ca ip s, dlt (dl_mu s) MAX_MU = false -> dle (Fin 0) (dl_mu s) = true -> dl_reuse s = false ->
  exists s', dl_run (concat (repeat [DCompute t gn ca ip; DNote Invalid] n)) s = Some s' /\
    dl_radius s' = dl_radius s /\
    exists s2, dl_compute t gn ca ip s' = Some (s2, LS_FAILURE, []).
Proof.
  induction n as [|n IH]; intros t gn ca ip s A B C.
  - exists s. split; [reflexivity|]. split; [reflexivity|].
    destruct (stuck_compute t gn ca ip s) as (s2 & E & _); [repeat split; auto|]. eauto.
  - destruct (stuck_compute t gn ca ip s) as (s1 & E & R1 & (S1 & S2 & S3) & R2); [repeat split; auto|].
    destruct (IH t gn ca ip (dl_invalid s1) S1 S2 S3) as (s' & R & D & X).
    exists s'. split; [|split; auto; congruence].
    cbn [repeat concat app dl_run dl_apply]. rewrite E. exact R.
Qed.

Example dogleg_case :
  match dl_run [DCompute (fun m => if dlt m (dq 1 1000) then LS_FAILURE else LS_SUCCESS) (dz 5) (dz 3) (dz 4);
                DNote (Accepted (dq 1 2)); DNote (Rejected (Fin 0))] (mkDL (dz 4) MIN_MU (Fin 0) false) with
  | Some s => dl_radius s = dz 2 /\ dl_norm s = dz 4
  | None => False
  end.
Proof. vm_compute. split; reflexivity. Qed.

Print Assumptions lm_radius_bounded.
Print Assumptions lm_accept_reaction.
Print Assumptions lm_reject_shrinks.
Print Assumptions lm_rejections_exact.
Print Assumptions lm_in_minimizer.
Print Assumptions lm_solve_radii.
Print Assumptions dogleg_radius_partial.
Print Assumptions dogleg_accept_reaction.
Print Assumptions dogleg_solves_bounded.
Print Assumptions dogleg_stuck.
Print Assumptions dogleg_radius_cap_refuted.
