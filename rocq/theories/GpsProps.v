(** C76: GradientProblemSolver. *)
Require Import List ZArith Bool Lia.
From Verif Require Import Dbl DblArith DblArithProofs DblArithProofs2 LineSearchModel LineSearchSpec LineSearchProofs LineSearchProps LsMinimizerModel LsMinimizerSpec
  LsMinimizerProofs LsMinimizerProps GpsModel GpsSpec GpsProofs GpsProofs2.
From Verif Require EnumModel OptionsModel OptionsProps.
Import ListNotations.
Open Scope Z_scope.

(** what a Solver::Options is by default, as far as the line search checks read it *)
Definition plain_defaults (d : OptionsModel.options) : Prop := OptionsModel.num_threads d = 1 /\ OptionsModel.check_gradients d = false.

(** ** options *)
(** the options are accepted exactly if all documented rules hold; they never abort the process *)
Theorem gps_options_accepted_iff b d o : plain_defaults d ->
  (IsValid b d o = OptionsModel.Valid <-> all_hold (rules o)) /\ IsValid b d o <> OptionsModel.Fatal.
Proof. intros [A B]. exact (valid_iff b d o A B). Qed.
Print Assumptions gps_options_accepted_iff.
Lemma accepted_valid b d o : plain_defaults d -> all_hold (rules o) -> IsValid b d o = OptionsModel.Valid.
Proof. intros D R. destruct (gps_options_accepted_iff b d o D) as [[_ A] _]. exact (A R). Qed.

(** otherwise FAILURE is reported, no callback is called and the parameters stay as they are *)
Theorem gps_rejected b d P W o users fuel lf x0 : plain_defaults d -> ~ all_hold (rules o) ->
  exists s, Solve b d P W o users fuel lf x0 = Done (s, mkMem x0 []) /\ g_term s = FAILURE /\ g_iterations s = [].
Proof.
  intros D H. destruct (gps_options_accepted_iff b d o D) as [A B]. unfold Solve. destruct (IsValid b d o); [tauto| |congruence].
  eexists. split; [reflexivity|]. auto.
Qed.
Print Assumptions gps_rejected.

(** ** one run *)
(** a finished solve is a finished run of the minimizer of C35 *)
Lemma solve_done b d P W o users fuel lf x0 s m : IsValid b d o = OptionsModel.Valid ->
  Solve b d P W o users fuel lf x0 = Done (s, m) ->
  exists r r' m1, Minimize P W (MinimizerOptions o) (callbacks o users) fuel lf x0 (mkMem x0 []) = (Done (r, m1), g_initial_cost s) /\
    r' = conv_result P W o users x0 r /\
    minimize (environment P W (pure P o users x0)) (MinimizerOptions o) fuel lf x0 = Done r' /\ after P W o x0 r m1 /\
    g_term s = r_term _ r /\ g_iterations s = r_iters _ r /\
    seen m = seen m1 /\ user m = (if IsSolutionUsable (g_term s) then r_x _ r else user m1) /\
    g_final_cost s = (if IsSolutionUsable (g_term s) then SetSummaryFinalCost (g_initial_cost s) (g_iterations s) else dz (-1)).
Proof.
  intros V H. unfold Solve in H. rewrite V in H.
  destruct (minimize_sim P W o users x0 (MinimizerOptions o) fuel lf) as [S1 S2].
  destruct (Minimize P W (MinimizerOptions o) (callbacks o users) fuel lf x0 (mkMem x0 [])) as [[[r m1]| |] ini]; [|discriminate|discriminate].
  cbn [fst] in S1, S2. exists r, (conv_result P W o users x0 r), m1. specialize (S2 r m1 eq_refl).
  destruct (IsSolutionUsable (r_term _ r)) eqn:U; injection H as <- <-; cbn [g_initial_cost g_term g_iterations g_final_cost seen user]; rewrite U;
    (split; [reflexivity|]); (split; [reflexivity|]); (split; [exact S1|]); auto 10.
Qed.

Section Run.
Variables (b : OptionsModel.build2) (d : OptionsModel.options) (P : gradient_problem) (W : operations P) (o : goptions).
Variables (users : list (list iter -> point P -> cb_status)) (fuel lf : nat) (x0 : point P) (s : gsummary) (m : memory (point P)).
Hypothesis V : IsValid b d o = OptionsModel.Valid.
Hypothesis SF : sane_function P.
Hypothesis FS : finite_start P x0.
Hypothesis H : Solve b d P W o users fuel lf x0 = Done (s, m).

Lemma reports_last its x : reports (environment P W []) (MinimizerOptions o) its x -> exists l it, its = l ++ [it] /\ cost_at P x (it_cost it).
Proof.
  intros (l & it & c & g & Q1 & Q2 & Q3). exists l, it. split; [exact Q1|]. rewrite Q3.
  apply evaluate_cost in Q2. destruct Q2 as [ag Q2]. cbn [MinimizerOptions mo_fixed]. rewrite dadd_fin0; [exists ag; exact Q2|].
  destruct SF as [A _]. exact (A _ _ _ _ Q2).
Qed.

Lemma run_reports r : minimize (environment P W (pure P o users x0)) (MinimizerOptions o) fuel lf x0 = Done (conv_result P W o users x0 r) ->
  last_iterate P x0 (r_iters _ r) (r_x _ r).
Proof.
  intros E. destruct (lm_reports _ _ _ _ _ _ (sane_evaluator P W _ SF) (finite_evaluator P x0 FS) E) as [(A & B & _)|[A _]].
  - left. split; [exact A|exact B].
  - right. apply reports_last. exact A.
Qed.

Lemma usable_holds : IsSolutionUsable (g_term s) = true -> last_iterate P x0 (g_iterations s) (user m).
Proof.
  intro U. destruct (solve_done _ _ _ _ _ _ _ _ _ _ _ V H) as (r & r' & m1 & E & -> & E1 & A & B1 & B2 & B3 & B4 & B5).
  rewrite U in B4. rewrite B4, B2. exact (run_reports r E1).
Qed.

Lemma unusable_holds : IsSolutionUsable (g_term s) = false ->
  (update_state_every_iteration o = false -> user m = x0) /\
  (update_state_every_iteration o = true -> last_iterate P x0 (g_iterations s) (user m)).
Proof.
  intro U. destruct (solve_done _ _ _ _ _ _ _ _ _ _ _ V H) as (r & r' & m1 & E & -> & E1 & A & B1 & B2 & B3 & B4 & B5).
  rewrite U in B4. rewrite B4, B2. destruct A as [_ A].
  assert (C : r_term (environment P W []) r <> CONVERGENCE) by (intro Q; rewrite B1, Q in U; discriminate).
  rewrite (A C). unfold shown. split; intro Q; rewrite Q; [reflexivity|exact (run_reports r E1)].
Qed.

Lemma seen_holds its x u : In (its, x, u) (seen m) ->
  last_iterate P x0 its x /\ its <> [] /\ u = if update_state_every_iteration o then x else x0.
Proof.
  destruct (solve_done _ _ _ _ _ _ _ _ _ _ _ V H) as (r & r' & m1 & E & -> & E1 & A & B1 & B2 & B3 & B4 & B5).
  rewrite B3. intro Hin. destruct A as [A _]. pose proof (A _ _ _ Hin) as Q.
  assert (R : fst (Minimize P W (MinimizerOptions o) (callbacks o users) fuel lf x0 (mkMem x0 [])) = Done (r, m1)) by (rewrite E; reflexivity).
  pose proof (minimize_shows P W _ _ (sane_evaluator P W [] SF) _ _ _ _ _ (finite_evaluator P x0 FS) R _ _ _ Hin) as Sh.
  apply reports_last in Sh. split; [right; exact Sh|]. split; [|exact Q]. destruct Sh as (l & it & -> & _). destruct l; discriminate.
Qed.
End Run.

(** ** what is returned *)
Lemma well_usable t : went_well t -> IsSolutionUsable t = true.
Proof. intros [-> | [-> | ->]]; reflexivity. Qed.
Lemma wrong_unusable t : went_wrong t -> IsSolutionUsable t = false.
Proof. intros [-> | ->]; reflexivity. Qed.
(** a usable solution: the user's array holds the iterate of the last reported iteration *)
Theorem gps_usable_solution b d P W o users fuel lf x0 s m :
  plain_defaults d -> all_hold (rules o) -> sane_function P -> finite_start P x0 ->
  Solve b d P W o users fuel lf x0 = Done (s, m) -> went_well (g_term s) ->
  last_iterate P x0 (g_iterations s) (user m).
Proof.
  intros D R SF FS H U. apply well_usable in U. apply (accepted_valid b d o D) in R. exact (usable_holds _ _ _ _ _ _ _ _ _ _ _ R SF FS H U).
Qed.
Print Assumptions gps_usable_solution.

(** an unusable one: the initial values, or, if they are updated at every iteration, the last iterate *)
Theorem gps_unusable_solution b d P W o users fuel lf x0 s m :
  plain_defaults d -> all_hold (rules o) -> sane_function P -> finite_start P x0 ->
  Solve b d P W o users fuel lf x0 = Done (s, m) -> went_wrong (g_term s) ->
  (update_state_every_iteration o = false -> user m = x0) /\
  (update_state_every_iteration o = true -> last_iterate P x0 (g_iterations s) (user m)).
Proof.
  intros D R SF FS H U. apply wrong_unusable in U. apply (accepted_valid b d o D) in R. exact (unusable_holds _ _ _ _ _ _ _ _ _ _ _ R SF FS H U).
Qed.
Print Assumptions gps_unusable_solution.

(** what a user's callback finds: the summaries end with the current iterate's, and the user's array holds that
    iterate if it is updated at every iteration, else the initial values *)
Theorem gps_callbacks_see b d P W o users fuel lf x0 s m its x u :
  plain_defaults d -> all_hold (rules o) -> sane_function P -> finite_start P x0 ->
  Solve b d P W o users fuel lf x0 = Done (s, m) -> In (its, x, u) (seen m) ->
  last_iterate P x0 its x /\ its <> [] /\ u = if update_state_every_iteration o then x else x0.
Proof.
  intros D R SF FS H Hin. apply (accepted_valid b d o D) in R. exact (seen_holds _ _ _ _ _ _ _ _ _ _ _ R SF FS H _ _ _ Hin).
Qed.
Print Assumptions gps_callbacks_see.

(** ** the best *)
Lemma fold_min c : forall its i, (i = c \/ le c i) -> (forall it, In it its -> it_cost it = c \/ le c (it_cost it)) ->
  (i = c \/ exists it, In it its /\ it_cost it = c) -> SetSummaryFinalCost i its = c.
Proof.
  unfold le, SetSummaryFinalCost. induction its as [|a its IH]; intros i Hi Hc Hex; cbn [fold_left].
  - destruct Hex as [Q|(? & [] & _)]. exact Q.
  - assert (K : forall u v : dbl, (u = c \/ dle c u = true) -> (v = c \/ dle c v = true) ->
      (dmin u v = c \/ dle c (dmin u v) = true) /\ (u = c \/ v = c -> dmin u v = c)).
    { clear. intros u v [-> | Hu] [-> | Hv]; unfold dmin.
      - destruct (dlt c c); auto.
      - destruct (dlt v c) eqn:E; [|auto]. split; [auto|]. intros _. exfalso.
        destruct v, c; cbn [dlt dle] in *; try discriminate. apply Z.ltb_lt in E. apply Z.leb_le in Hv. lia.
      - destruct (dlt c u) eqn:E; [auto|]. split; [auto|]. intros _.
        destruct u, c; cbn [dlt dle] in *; try discriminate; try reflexivity. apply Z.ltb_ge in E. apply Z.leb_le in Hu. f_equal. lia.
      - destruct (dlt v u) eqn:E.
        + split; [auto|]. intros [-> | Q]; [|exact Q]. destruct v, c; cbn [dlt dle] in *; try discriminate. apply Z.ltb_lt in E. apply Z.leb_le in Hv. lia.
        + split; [auto|]. intros [Q | ->]; [exact Q|]. destruct u, c; cbn [dlt dle] in *; try discriminate; try reflexivity. apply Z.ltb_ge in E. apply Z.leb_le in Hu. f_equal. lia. }
    destruct (K (it_cost a) i (Hc a (or_introl eq_refl)) Hi) as [K1 K2].
    apply IH; [exact K1|intros it Hin; apply Hc; right; exact Hin|].
    destruct Hex as [->|(it & [->|Hin] & Q)]; [left; apply K2; auto|left; apply K2; auto|right; exists it; auto].
Qed.

Lemma loop_head P W Op cbs lf : forall fuel k s m r m', Loop P W Op cbs fuel lf k s m = Done (r, m') ->
  forall it l, st_iters _ s = it :: l -> exists l', r_iters _ r = it :: l'.
Proof.
  induction fuel as [|f IH]; intros k s m r m' H it l Hs; cbn [Loop] in H; cbv zeta in H;
    destruct (RunCallbacks cbs _ _ m) as [st m1];
    (assert (F : forall t, finish_mem P W (finish _ t s) m1 = Done (r, m') -> exists l', r_iters _ r = it :: l');
      [intros t Q; cbn [finish_mem finish] in Q; injection Q as <- _; exists l; exact Hs|]);
    (assert (FT : forall t tr, finish_mem P W (finish_trace _ t s tr) m1 = Done (r, m') -> exists l', r_iters _ r = it :: l');
      [intros t tr Q; cbn [finish_mem finish_trace] in Q; injection Q as <- _; exists l; exact Hs|]);
    (destruct st; [|exact (F _ H)|exact (F _ H)]);
    (destruct (mo_max_iter Op <=? k); [exact (F _ H)|]);
    (destruct (lm_time_up _ k); [exact (F _ H)|]); [discriminate|].
  destruct (choose_direction _ Op (k + 1) s) as [[[d status] restarts]|]; [|exact (F _ H)].
  destruct (dlt (initial_step _ (k + 1) status s _) (Fin 0)); [exact (F _ H)|].
  destruct (search _ Op lf _ d _ _ _) as [sm| |]; [|discriminate|discriminate].
  destruct (su_success _ sm); cbn [negb] in H; [|exact (FT _ _ H)].
  destruct (fs_vector_x _ _) as [y|]; [|discriminate].
  destruct (at_optimum _ _ y _) as [[[cost g]|] tr]; [|exact (FT _ _ H)].
  destruct (gradient_norm (environment P W []) y g) as [gmax|]; [|exact (FT _ _ H)].
  destruct (converged _ _ _ _).
  - cbn [finish_mem finish] in H. injection H as <- _. cbn [r_iters st_iters]. rewrite Hs. eexists. reflexivity.
  - eapply IH; [exact H|]. cbn [st_iters]. rewrite Hs. reflexivity.
Qed.

Lemma pair_inj {A B C} (a a' : A) (b b' : B) (c c' : C) : (Done (a, b), c) = (Done (a', b'), c') -> a = a' /\ c = c'.
Proof. intro H. injection H as -> _ ->. auto. Qed.
Lemma fst_inj {A C} (a a' : outcome A) (c c' : C) : (a, c) = (a', c') -> a = a' /\ c = c'.
Proof. intro H. injection H as -> ->. auto. Qed.
(** the initial cost is the cost of the first iteration, or, if none is reported, the cost at the start or -1 *)
Lemma initial_cost_first P W Op cbs fuel lf x0 r m1 ini : mo_fixed Op = Fin 0 -> sane_function P ->
  Minimize P W Op cbs fuel lf x0 (mkMem x0 []) = (Done (r, m1), ini) ->
  (r_iters _ r = [] /\ (r_term _ r = CONVERGENCE /\ cost_at P x0 ini \/ r_term _ r = FAILURE)) \/
  (cost_at P x0 ini /\ exists it l, r_iters _ r = it :: l /\ it_cost it = ini).
Proof.
  intros Hf [SF _] H. unfold Minimize in H. destruct (eval (lm_ls (environment P W [])) x0 true) as [[c g]|] eqn:Ee.
  2: { apply pair_inj in H. destruct H as [<- _]. left. auto. }
  assert (C : cost_at P x0 c) by (apply evaluate_cost in Ee; exact Ee).
  assert (Vc : dvalid c) by (destruct C as [ag C]; exact (SF _ _ _ _ C)).
  destruct (gradient_norm (environment P W []) x0 g) as [gm|]; [|apply pair_inj in H; destruct H as [<- _]; left; auto].
  rewrite Hf, (dadd_fin0 c Vc) in H.
  destruct (dle gm (mo_gtol Op)); [apply pair_inj in H; destruct H as [<- <-]; left; auto|].
  right. apply fst_inj in H. destruct H as [HL <-]. split; [exact C|].
  destruct (loop_head _ _ _ _ _ _ _ _ _ _ _ HL _ _ eq_refl) as [l' Q]. eexists. exists l'. split; [exact Q|reflexivity].
Qed.

(** with descent directions the final cost is the cost of what is returned; no reported cost is lower *)
Theorem gps_usable_best b d P W o users fuel lf x0 s m :
  plain_defaults d -> all_hold (rules o) -> sane_function P -> finite_start P x0 ->
  good_directions P W o -> max_num_line_search_step_size_iterations o <= Z.of_nat lf ->
  Solve b d P W o users fuel lf x0 = Done (s, m) -> went_well (g_term s) ->
  cost_at P (user m) (g_final_cost s) /\ cost_at P x0 (g_initial_cost s) /\
  (g_initial_cost s = g_final_cost s \/ le (g_final_cost s) (g_initial_cost s)) /\
  forall it, In it (g_iterations s) -> it_cost it = g_final_cost s \/ le (g_final_cost s) (it_cost it).
Proof.
  intros D R SF FS [GD1 GD2] Hlf H U. apply well_usable in U. pose proof R as V. apply (accepted_valid b d o D) in V.
  destruct (solve_done _ _ _ _ _ _ _ _ _ _ _ V H) as (r & r' & m1 & E & -> & E1 & A & B1 & B2 & B3 & B4 & B5).
  rewrite U in B4, B5. rewrite B4, B5, B2.
  destruct (initial_cost_first P W (MinimizerOptions o) _ _ _ _ _ _ _ eq_refl SF E) as [[I1 [[I2 I3]|I2]]|(I1 & it0 & l0 & I2 & I3)].
  - pose proof (run_reports _ _ _ _ _ _ _ SF FS _ E1) as [[_ L]|(l & it & L & _)]; [|rewrite I1 in L; destruct l; discriminate].
    rewrite I1, L. cbn [SetSummaryFinalCost fold_left]. split; [exact I3|]. split; [exact I3|]. split; [left; reflexivity|intros ? []].
  - rewrite B1, I2 in U. discriminate.
  - assert (Hlf' : (Z.to_nat (lo_max_iter (mo_ls (MinimizerOptions o))) <= lf)%nat) by (cbn [MinimizerOptions mo_ls lo_max_iter]; lia).
    destruct (lm_best (environment P W (pure P o users x0)) (MinimizerOptions o) _ _ _ _ (sane_evaluator P W _ SF) (finite_evaluator P x0 FS) eq_refl GD2 GD1 Hlf' E1)
      as [[Q _]|(c & g & Q1 & Q2)]; [cbn [conv_result r_iters] in Q; rewrite I2 in Q; discriminate|].
    cbn [conv_result r_iters r_x] in Q1, Q2.
    apply evaluate_cost in Q1. assert (Vc : dvalid c) by (destruct Q1 as [ag Q1]; destruct SF as [SF _]; exact (SF _ _ _ _ Q1)).
    cbn [MinimizerOptions mo_fixed] in Q2. rewrite (dadd_fin0 c Vc) in Q2.
    assert (Hin0 : In it0 (r_iters _ r)) by (rewrite I2; left; reflexivity).
    assert (Hini : g_initial_cost s = c \/ le c (g_initial_cost s)) by (rewrite <- I3; exact (Q2 it0 Hin0)).
    assert (F : SetSummaryFinalCost (g_initial_cost s) (r_iters _ r) = c).
    { apply fold_min; [exact Hini|exact Q2|]. right.
      pose proof (run_reports _ _ _ _ _ _ _ SF FS _ E1) as [[L _]|(l & it & L & ag & C)]; [rewrite I2 in L; discriminate|].
      exists it. split; [rewrite L; apply in_or_app; right; left; reflexivity|]. destruct Q1 as [ag' Q1]. congruence. }
    rewrite F. split; [exact Q1|]. split; [exact I1|]. split; [exact Hini|exact Q2].
Qed.
Print Assumptions gps_usable_best.

(** ** a solve ends *)
Theorem gps_terminates b d P W o users fuel lf x0 :
  plain_defaults d -> all_hold (rules o) -> sane_function P -> finite_start P x0 -> searchable (environment P W []) (MinimizerOptions o) ->
  max_num_line_search_step_size_iterations o <= Z.of_nat lf -> max_num_iterations o <= Z.of_nat fuel ->
  exists s m, Solve b d P W o users fuel lf x0 = Done (s, m).
Proof.
  intros D R SF FS SE Hlf Hfu. pose proof R as V. apply (accepted_valid b d o D) in V.
  destruct (lm_terminates (environment P W (pure P o users x0)) (MinimizerOptions o) fuel lf x0 (sane_evaluator P W _ SF) (finite_evaluator P x0 FS) SE
    (rules_accepted o R)) as [r Hr]; [cbn [MinimizerOptions mo_ls lo_max_iter]; lia|cbn [MinimizerOptions mo_max_iter]; lia|].
  destruct (minimize_sim P W o users x0 (MinimizerOptions o) fuel lf) as [S1 _]. rewrite Hr in S1.
  unfold Solve. rewrite V. destruct (Minimize _ _ _ _ _ _ _ _) as [[[r1 m1]| |] ini]; [|discriminate|discriminate].
  destruct (IsSolutionUsable _); eauto.
Qed.
Print Assumptions gps_terminates.

(** ** GradientProblem::Evaluate *)
(** the cost is the function's, with and without gradient *)
Theorem gp_evaluate_cost P x b c g : sane_function P -> Evaluate P x b = Some (c, g) ->
  (exists ag, fn P x b = Some (c, ag)) /\ forall c' g', Evaluate P x (negb b) = Some (c', g') -> c' = c.
Proof.
  intros [_ SF] H. apply evaluate_cost in H. split; [exact H|]. intros c' g' H'. apply evaluate_cost in H'.
  destruct H as [a H]. destruct H' as [a' H']. destruct b; cbn [negb] in H'; [symmetry|]; eapply SF; eauto.
Qed.
Print Assumptions gp_evaluate_cost.

(** ** concrete runs *)
Definition P1 (f : dbl -> option (dbl * dbl)) : gradient_problem :=
  mkGP dbl dbl dbl (fun y _ => f y) (fun x v => Some (dadd x v)) (fun _ g => Some g) (Fin 7).
Definition W1 (f : dbl -> option (dbl * dbl)) : operations (P1 f) :=
  mkOps (P1 f) dmul dmul dabs (fun _ a b => dmul (dadd a b) (dq 1 2)) dneg (fun x y => dabs (dsub x y)) (fun x y => dabs (dsub x y)) dabs
    (fun _ g => Some (dneg g)) (fun _ => false).
(** the default options, with at most [n] iterations *)
Definition go (n : Z) (up : bool) : goptions :=
  mkGO EnumModel.LBFGS EnumModel.WOLFE 20 EnumModel.CUBIC (dq 1 1000000000) (dq 1 10000) (dq 1 1000) (dq 3 5) 20 5 (dq 9 10) (dz 10)
    n (dz (10 ^ 9)) (dq 1 1000000) (dq 1 10000000000) (dq 1 100000000) true up.
Example go_valid n up : 0 <= n -> all_hold (rules (go n up)).
Proof.
  intros Hn p Hp. unfold rules in Hp. cbn [In] in Hp.
  repeat (destruct Hp as [<-|Hp]; [first [exact Hn|vm_compute; reflexivity|vm_compute; discriminate|reflexivity|idtac]|]); destruct Hp.
Qed.
Example defaults_plain : plain_defaults OptionsProps.default_options.
Proof. split; reflexivity. Qed.
(** termination, initial and final cost, costs of the iterations, the user's array, what the callbacks saw *)
Definition gview {f} (r : outcome (gsummary * memory (point (P1 f)))) :=
  match r with
  | Done (s, m) => Some (g_term s, g_initial_cost s, g_final_cost s, map it_cost (g_iterations s), user m, map (fun e => (snd (fst e), snd e)) (seen m))
  | _ => None
  end.
Definition watch : list iter -> dbl -> cb_status := fun _ _ => SOLVER_CONTINUE.
(** aborts at the second iteration *)
Definition abort_at_1 : list iter -> dbl -> cb_status := fun its _ => if (2 <=? length its)%nat then SOLVER_ABORT else SOLVER_CONTINUE.

Example gps_square_run :
  gview (Solve OptionsProps.plain_build OptionsProps.default_options (P1 square) (W1 square) (go 3 true) [watch] 20 20 (dz (-2))) =
  Some (CONVERGENCE, dz 4, dz 0, [dz 4; dz 1; dz 0], dz 0, [(dz (-2), dz (-2)); (dz (-1), dz (-1))]).
Proof. vm_compute. reflexivity. Qed.
Example gps_square_no_update :
  gview (Solve OptionsProps.plain_build OptionsProps.default_options (P1 square) (W1 square) (go 3 false) [watch] 20 20 (dz (-2))) =
  Some (CONVERGENCE, dz 4, dz 0, [dz 4; dz 1; dz 0], dz 0, [(dz (-2), dz (-2)); (dz (-1), dz (-2))]).
Proof. vm_compute. reflexivity. Qed.
Example gps_aborted_no_update :
  gview (Solve OptionsProps.plain_build OptionsProps.default_options (P1 square) (W1 square) (go 3 false) [abort_at_1] 20 20 (dz (-2))) =
  Some (USER_FAILURE, dz 4, dz (-1), [dz 4; dz 1], dz (-2), [(dz (-2), dz (-2)); (dz (-1), dz (-2))]).
Proof. vm_compute. reflexivity. Qed.

Lemma some_fst {A B} (a a' : A) (b b' : B) : Some (a, b) = Some (a', b') -> a = a'.
Proof. congruence. Qed.
Lemma some_view {A B C D E F} (a a' : A) (b b' : B) (c c' : C) (d d' : D) (e e' : E) (f f' : F) :
  Some (a, b, c, d, e, f) = Some (a', b', c', d', e', f') -> a = a' /\ e = e'.
Proof. intro H. split; congruence. Qed.
(** a solve that fails does change the parameters if they are updated at every iteration *)
Theorem gps_failure_changes_parameters_refuted :
  exists b d P W o users fuel lf x0 s m, plain_defaults d /\ all_hold (rules o) /\ sane_function P /\ finite_start P x0 /\
    Solve b d P W o users fuel lf x0 = Done (s, m) /\ went_wrong (g_term s) /\ user m <> x0.
Proof.
  exists OptionsProps.plain_build, OptionsProps.default_options, (P1 square), (W1 square), (go 3 true), [abort_at_1], 20%nat, 20%nat, (dz (-2)).
  assert (E : gview (Solve OptionsProps.plain_build OptionsProps.default_options (P1 square) (W1 square) (go 3 true) [abort_at_1] 20 20 (dz (-2))) =
    Some (USER_FAILURE, dz 4, dz (-1), [dz 4; dz 1], dz (-1), [(dz (-2), dz (-2)); (dz (-1), dz (-1))])) by (vm_compute; reflexivity).
  destruct (Solve _ _ _ _ _ _ _ _ _) as [[s m]| |]; [|discriminate|discriminate]. exists s, m.
  split; [exact defaults_plain|]. split; [apply go_valid; lia|]. split.
  { destruct square_sane as [A B]. split; [exact A|exact B]. }
  split.
  { intros c [g Q]. cbn [fn P1] in Q. assert (Q' : square (dz (-2)) = Some (dz 4, dz (-4))) by (vm_compute; reflexivity).
    rewrite Q' in Q. rewrite <- (some_fst _ _ _ _ Q). vm_compute. reflexivity. }
  split; [reflexivity|]. cbn [gview] in E. apply some_view in E. destruct E as [E1 E5]. rewrite E1. split; [right; reflexivity|].
  rewrite E5. intro Q. assert (L : dlt (dz (-2)) (dz (-1)) = true) by (vm_compute; reflexivity). rewrite <- Q in L. rewrite dlt_irrefl in L. discriminate.
Qed.
Print Assumptions gps_failure_changes_parameters_refuted.

(** the hypotheses on the directions hold of that problem *)
Example square_good n up : good_directions (P1 square) (W1 square) (go n up).
Proof.
  assert (EV : forall y b v gr, Evaluate (P1 square) y b = Some (v, gr) -> exists gr', square y = Some (v, gr') /\ (b = true -> gr = gr')).
  { intros y b v gr. unfold Evaluate. destruct b; cbn [negb fn right_multiply P1]; destruct (square y) as [[c g]|]; try discriminate;
      intro Q; injection Q as <- <-; exists g; split; auto; discriminate. }
  split.
  - intros y v g E F. apply EV in E. destruct E as (g' & E & Q). rewrite (Q eq_refl). exact (square_descent y v g' E F).
  - destruct (square_searchable WOLFE 20 3) as (A1 & A2 & A3 & A4).
    assert (UD : forall dir, usable_direction (environment (P1 square) (W1 square) []) dir -> usable_direction (M1 square) dir).
    { intros dir (y & v & g & E & F & Q). apply EV in E. destruct E as (g' & E & Q'). rewrite (Q' eq_refl) in Q. exists y, v, g'. auto. }
    split; [exact A1|]. split; [exact A2|]. split.
    + intros x dir U x' y g v gr Hp He Hf. apply EV in He. destruct He as (g' & He & _). exact (A3 x dir (UD _ U) x' y g v g' Hp He Hf).
    + intros Ht dir U y v gr He Hf. apply EV in He. destruct He as (g' & He & Q). rewrite (Q eq_refl). exact (A4 eq_refl dir (UD _ U) y v g' He Hf).
Qed.
