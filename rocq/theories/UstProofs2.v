(** The parameter blocks during a trust region solve: the whole solve. *)
Require Import List ZArith Bool Lia.
From Verif Require Import Dbl DblArith DblArithProofs TrustRegionModel TrustRegionProofs UstModel UstSpec UstProofs.
Import ListNotations.
Open Scope Z_scope.
Opaque dz DBL_MAX.

Section P.
Variable E : tr_env.
Variable Op : tr_options.
Variable update ecb : bool.
Variable users : list (list iter_summary -> pt E -> cb_status).
Variable garble : pt E -> pt E -> pt E.

Lemma start_inv st p0 x c j g : evaluate_gradient E x = Some (c, j, g) ->
  inv E Op update ecb users p0 (start_state E Op st p0 x c j g) (evaluations E ecb [] (prepare E x true []) (mkMem E p0 [])).
Proof.
  intro G. pose proof (evaluate_gradient_jac E _ _ _ _ G) as J.
  assert (EV : evaluations E ecb [] (prepare E x true []) (mkMem E p0 []) =
     mkMem E (if ecb then (if ev_set E x then x else p0) else p0) (if ev_set E x then [Evaluated x true] else [])).
  { unfold prepare, evaluations. destruct (ev_set E x); cbn; destruct ecb; reflexivity. }
  rewrite EV. split.
  - split; cbn [start_state s_params s_min s_accepted s_iters s_trace events].
    + left. split; [reflexivity|]. split; [reflexivity|]. intros y d [].
    + unfold one_per_iteration. destruct (ev_set E x); reflexivity.
    + unfold prepare. destruct (ev_set E x); reflexivity.
    + intros l1 its p n l2 Q. destruct (ev_set E x); destruct l1 as [|e [|e' l1]]; discriminate.
    + split; cbn [user events].
      * intros _ ->. reflexivity.
      * intros _ -> [_ A]. rewrite (A _ _ _ J). exists [], true. reflexivity.
    + intros y d [].
  - apply start_counts.
  - exact J.
  - cbn [events]. intros its p n I. destruct (ev_set E x); [destruct I as [I|[]]; discriminate|destruct I].
Qed.

Lemma minimize_common fuel st p0 r m : Minimize E Op update ecb users garble fuel st p0 (mkMem E p0 []) = Some (r, m) ->
  best_of E p0 (r_accepted E r) (r_params E r) /\
  (forall y d, In (y, d) (r_accepted E r) -> exists j, ev_jac E y = Some (d, j)) /\
  one_per_iteration E (r_iters E r) (events E m) /\ evaluated_points E (events E m) = r_trace E r /\
  rounds_ok E update ecb users p0 (r_accepted E r) (events E m).
Proof.
  unfold Minimize. destruct (start_point E Op p0) as [x|].
  2:{ intro H. injection H as <- <-. cbn. split; [left; split; [reflexivity|intros y d []]|]. split; [intros y d []|].
      split; [reflexivity|]. split; [reflexivity|]. intros l1 its p n l2 Q. destruct l1; discriminate. }
  destruct (evaluate_gradient E x) as [[[c j] g]|] eqn:G.
  - destruct (mloop _ _ _ _ _ _ _ _ _) as [[s m']|] eqn:L; [|discriminate]. intro H. injection H as <- <-.
    destruct (mloop_inv E Op update ecb users garble p0 _ _ _ _ _ (start_inv st p0 x c j g G) L) as [[B R T K U V] CE].
    cbn [of_state r_accepted r_params r_iters r_trace]. split; [exact (fbest_of _ _ _ _ _ B)|]. auto.
  - intro H. injection H as <- <-. cbn [r_accepted r_params r_iters r_trace]. split; [left; split; [reflexivity|intros y d []]|]. split; [intros y d []|].
    unfold evaluations. cbn [events app length]. split; [|split].
    + unfold one_per_iteration. cbn [skipn]. rewrite rounds_map. reflexivity.
    + cbn [skipn]. apply points_map.
    + intros l1 its p n l2 Q. exfalso.
      assert (I : In (Called its p n) (map (fun e : pt E * bool => Evaluated (fst e) (snd e)) (skipn 0 (prepare E x true [])))) by (rewrite Q; apply in_app_iff; right; left; reflexivity).
      apply in_map_iff in I. destruct I as (? & I & _). discriminate.
Qed.

Lemma solve_minimize fuel st p0 r m : Solve E Op update ecb users garble fuel st p0 = Some (r, m) ->
  exists m', Minimize E Op update ecb users garble fuel st p0 (mkMem E p0 []) = Some (r, m') /\ events E m = events E m' /\
    user E m = write_state E garble (if usable (r_term E r) then r_params E r else p0) (user E m').
Proof.
  unfold Solve. destruct (Minimize _ _ _ _ _ _ _ _ _ _) as [[r' m']|]; [|discriminate]. intro H. injection H as <- <-. exists m'. auto.
Qed.

Lemma solve_final fuel st p0 r m : Solve E Op update ecb users garble fuel st p0 = Some (r, m) -> accepting E p0 ->
  user E m = if usable (r_term E r) then r_params E r else p0.
Proof.
  intros H [A1 A2]. destruct (solve_minimize _ _ _ _ _ H) as (m' & M & _ & ->). destruct (minimize_common _ _ _ _ _ M) as (B & V & _).
  unfold write_state. destruct (usable (r_term E r)); [|rewrite A1; reflexivity].
  replace (ev_set E (r_params E r)) with true; [reflexivity|]. symmetry.
  destruct B as [(-> & _)|(a1 & c & a2 & Q & _)]; [exact A1|]. destruct (V (r_params E r) c) as [j J]; [rewrite Q; apply in_app_iff; right; left; reflexivity|].
  exact (A2 _ _ _ J).
Qed.

Lemma solve_terminates st p0 : Solve E Op update ecb users garble (Z.to_nat (o_max_iter Op)) st p0 <> None.
Proof.
  unfold Solve, Minimize. destruct (start_point E Op p0) as [x|]; [|discriminate].
  destruct (evaluate_gradient E x) as [[[c j] g]|] eqn:G; [|discriminate].
  pose proof (mloop_terminates E Op update ecb users garble p0 (Z.to_nat (o_max_iter Op)) _ _ (start_inv st p0 x c j g G)) as T.
  destruct (mloop _ _ _ _ _ _ _ _ _) as [[s m']|] eqn:L; [discriminate|]. exfalso. apply T; [|reflexivity]. cbn [start_state s_iters length]. lia.
Qed.
End P.

(** ** the option does not matter *)
Section Q.
Variable E : tr_env.
Variable Op : tr_options.
Variable users : list (list iter_summary -> pt E -> cb_status).
Hypothesis IGN : forall u its p q, In u users -> u its p = u its q.

Lemma call_users_ign : forall its p q, call_users E users its p = call_users E users its q.
Proof.
  intros its p q. revert IGN. induction users as [|u us IH]; intro I; [reflexivity|]. cbn [call_users].
  rewrite (I u its p q (or_introl eq_refl)). rewrite IH; [reflexivity|]. intros v i a b V. apply I. right. exact V.
Qed.
Lemma run_ign up g up' g' its p m p' m' : fst (RunCallbacks E up users g its p m) = fst (RunCallbacks E up' users g' its p' m').
Proof.
  unfold RunCallbacks. cbv zeta. rewrite (call_users_ign its (StateUpdatingCallback E up g p (user E m)) (StateUpdatingCallback E up' g' p' (user E m'))).
  destruct (call_users E users its _). reflexivity.
Qed.
Lemma mfinalize_ign up g up' g' s m m' : let a := mfinalize E Op up users g s m in let b := mfinalize E Op up' users g' s m' in
  fst (fst a) = fst (fst b) /\ snd a = snd b.
Proof.
  cbv zeta. unfold mfinalize.
  pose proof (run_ign up g up' g' (s_iters E (finalize_book E s)) (s_params E (finalize_book E s)) m (s_params E (finalize_book E s)) m') as R.
  destruct (RunCallbacks _ _ _ _ _ _ m) as [st k]. destruct (RunCallbacks _ _ _ _ _ _ m') as [st' k']. cbn [fst] in R. subst st'.
  destruct st; cbn; auto.
  destruct (time_up E _); cbn; auto. destruct (negb _); cbn; auto. destruct (gradient_tolerance_reached _ _); cbn; auto. destruct (min_radius_reached _ _); cbn; auto.
Qed.
Lemma mloop_ign up e g up' e' g' : forall fuel s m m',
  option_map fst (mloop E Op up e users g fuel s m) = option_map fst (mloop E Op up' e' users g' fuel s m').
Proof.
  induction fuel as [|f IH]; intros s m m'; cbn [mloop]; pose proof (mfinalize_ign up g up' g' s m m') as F; cbv zeta in F;
    destruct (mfinalize E Op up users g s m) as [[s1 m1] go]; destruct (mfinalize E Op up' users g' s m') as [[s1' m1'] go']; cbn [fst snd] in F;
    destruct F as [<- <-]; destruct go; try reflexivity.
  destruct (body E Op s1) as [s2 go2]. destruct go2; [apply IH|reflexivity].
Qed.
Lemma solve_ign up e g up' e' g' fuel st p0 :
  option_map fst (Solve E Op up e users g fuel st p0) = option_map fst (Solve E Op up' e' users g' fuel st p0).
Proof.
  unfold Solve, Minimize. destruct (start_point E Op p0) as [x|]; [|reflexivity].
  destruct (evaluate_gradient E x) as [[[c j] gg]|] eqn:G; [|reflexivity].
  pose proof (mloop_ign up e g up' e' g' fuel (start_state E Op st p0 x c j gg) (evaluations E e [] (prepare E x true []) (mkMem E p0 []))
    (evaluations E e' [] (prepare E x true []) (mkMem E p0 []))) as L.
  destruct (mloop E Op up e _ _ _ _ _) as [[s m]|]; destruct (mloop E Op up' e' _ _ _ _ _) as [[s' m']|]; cbn in L |- *; try discriminate; [|reflexivity].
  injection L as ->. reflexivity.
Qed.
End Q.

(** ** with update_state_every_iteration the callbacks see what the model of the minimizer gives them *)
Section R.
Variable E : tr_env.
Variable Op : tr_options.
Variable ecb : bool.
Variable garble : pt E -> pt E -> pt E.

Lemma call_users_run : forall us its p, fst (call_users E us its p) = run_callbacks E us its p.
Proof.
  induction us as [|u us IH]; intros its p; [reflexivity|]. cbn [call_users run_callbacks]. destruct (u its p); try reflexivity.
  rewrite <- IH. destruct (call_users E us its p). reflexivity.
Qed.
Lemma finalize_params s m p0 : inv E Op true ecb (callbacks E) p0 s m -> accepting E p0 -> ev_set E (s_params E (finalize_book E s)) = true.
Proof.
  intros [[B R T K U V] C J A] [A1 A2].
  unfold finalize_book. cbn [s_params]. destruct (_ && _); [exact (A2 _ _ _ J)|].
  destruct B as [(_ & -> & _)|(a1 & a2 & Q & _)]; [exact A1|]. destruct (V (s_params E s) (s_min E s)) as [j Jj]; [rewrite Q; apply in_app_iff; right; left; reflexivity|].
  exact (A2 _ _ _ Jj).
Qed.
Lemma mfinalize_finalize s m p0 : inv E Op true ecb (callbacks E) p0 s m -> accepting E p0 ->
  let a := mfinalize E Op true (callbacks E) garble s m in (fst (fst a), snd a) = finalize E Op s.
Proof.
  intros I A. cbv zeta. pose proof (finalize_params s m p0 I A) as F. unfold mfinalize, finalize, RunCallbacks. cbv zeta.
  unfold StateUpdatingCallback, write_state. rewrite F. rewrite <- call_users_run.
  destruct (call_users E (callbacks E) _ _) as [st n]. cbn [fst]. destruct st; try reflexivity.
  destruct (time_up E _); try reflexivity. destruct (negb _); try reflexivity. destruct (gradient_tolerance_reached _ _); try reflexivity.
  destruct (min_radius_reached _ _); reflexivity.
Qed.
Lemma mloop_loop p0 : accepting E p0 -> forall fuel s m, inv E Op true ecb (callbacks E) p0 s m ->
  option_map fst (mloop E Op true ecb (callbacks E) garble fuel s m) = loop E Op fuel s.
Proof.
  intro A. induction fuel as [|f IH]; intros s m I; cbn [mloop loop]; pose proof (mfinalize_finalize s m p0 I A) as F; cbv zeta in F;
    rewrite <- F; destruct (mfinalize E Op true (callbacks E) garble s m) as [[s1 m1] go] eqn:G; cbn [fst snd]; destruct go; try reflexivity.
  destruct (body E Op s1) as [s2 go2] eqn:B. destruct go2; [|reflexivity].
  destruct (finalize_inv E Op true ecb (callbacks E) garble p0 _ _ _ _ _ I G) as (C & CE & J & H). destruct (H eq_refl) as [H1 H2].
  apply IH. apply body_inv; assumption.
Qed.
Lemma solve_is_minimize fuel st p0 : accepting E p0 ->
  option_map fst (Solve E Op true ecb (callbacks E) garble fuel st p0) = minimize_fuel E Op fuel st p0.
Proof.
  intro A. unfold Solve, Minimize, minimize_fuel. destruct (start_point E Op p0) as [x|]; [|reflexivity].
  destruct (evaluate_gradient E x) as [[[c j] gg]|] eqn:G; [|reflexivity].
  rewrite <- (mloop_loop p0 A fuel _ _ (start_inv E Op true ecb (callbacks E) st p0 x c j gg G)).
  destruct (mloop _ _ _ _ _ _ _ _ _) as [[s m]|]; reflexivity.
Qed.
End R.
