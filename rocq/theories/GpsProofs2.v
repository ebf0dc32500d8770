(** What the callbacks are shown is the iterate whose cost was reported last; the options. *)
Require Import List ZArith Bool Lia.
From Verif Require Import Dbl DblArith DblArithProofs DblArithProofs2 LineSearchModel LineSearchSpec LsMinimizerModel LsMinimizerSpec
  LsMinimizerProofs LsMinimizerProps GpsModel GpsSpec GpsProofs.
From Verif Require EnumModel OptionsModel.
Import ListNotations.
Open Scope Z_scope.

(** callbacks add entries for the current iterate only *)
Lemma run_adds {X} (cbs : list (callback X)) its x : forall m st m', RunCallbacks cbs its x m = (st, m') ->
  exists l, seen m' = seen m ++ l /\ forall e, In e l -> fst e = (its, x).
Proof.
  induction cbs as [|c cbs IH]; intros m st m' H.
  - injection H as _ <-. exists []. split; [now rewrite app_nil_r|intros ? []].
  - destruct c as [| |f]; cbn [RunCallbacks] in H.
    + exact (IH _ _ _ H).
    + destruct (IH _ _ _ H) as (l & Q1 & Q2). exists l. split; [|exact Q2]. rewrite Q1. destruct (step_is_successful its); reflexivity.
    + assert (B : forall st0, (st0, mkMem (user m) (seen m ++ [(its, x, user m)])) = (st, m') ->
        exists l, seen m' = seen m ++ l /\ forall e, In e l -> fst e = (its, x)).
      { intros st0 Q. injection Q as _ <-. exists [(its, x, user m)]. split; [reflexivity|]. intros e [<-|[]]; reflexivity. }
      destruct (f its (user m)); [|exact (B _ H)|exact (B _ H)].
      destruct (IH _ _ _ H) as (l & Q1 & Q2). cbn [seen] in Q1. exists ((its, x, user m) :: l).
      rewrite <- app_assoc in Q1. split; [exact Q1|]. intros e [<-|He]; [reflexivity|exact (Q2 e He)].
Qed.

Section Seen.
Variable P : gradient_problem.
Variable W : operations P.
Variable Op : lm_options.
Variable cbs : list (callback (point P)).
Notation M := (environment P W []).
Hypothesis SC : sane_costs M.

Definition shows (l : list (list iter * point P * point P)) : Prop := forall its x u, In (its, x, u) l -> reports M Op its x.

Lemma loop_shows lf : forall fuel k s m r m', invar M s -> reports M Op (st_iters M s) (st_x M s) -> shows (seen m) ->
  Loop P W Op cbs fuel lf k s m = Done (r, m') -> shows (seen m').
Proof.
  induction fuel as [|f IH]; intros k s m r m' Hi Hr Hs H; cbn [Loop] in H;
    destruct (RunCallbacks cbs (st_iters M s) (st_x M s) m) as [st m1] eqn:E;
    destruct (run_adds _ _ _ _ _ _ E) as (l & L1 & L2);
    (assert (A : shows (seen m1));
      [intros its x u Hin; rewrite L1 in Hin; apply in_app_or in Hin; destruct Hin as [Hin|Hin];
       [exact (Hs _ _ _ Hin)|pose proof (L2 _ Hin) as Q; cbn [fst] in Q; injection Q as -> ->; exact Hr]|]);
    (assert (F : forall t, finish_mem P W (finish M t s) m1 = Done (r, m') -> shows (seen m'));
      [intros t Q; cbn [finish_mem finish] in Q; injection Q as _ <-; exact A|]);
    (assert (FT : forall t tr, finish_mem P W (finish_trace M t s tr) m1 = Done (r, m') -> shows (seen m'));
      [intros t tr Q; cbn [finish_mem finish_trace] in Q; injection Q as _ <-; exact A|]);
    (destruct st; [|exact (F _ H)|exact (F _ H)]);
    (destruct (mo_max_iter Op <=? k); [exact (F _ H)|]);
    (destruct (lm_time_up M k); [exact (F _ H)|]); [discriminate|].
  cbv zeta in H. destruct (choose_direction M Op (k + 1) s) as [[[d status] restarts]|]; [|exact (F _ H)].
  destruct (dlt (initial_step M (k + 1) status s _) (Fin 0)); [exact (F _ H)|].
  destruct (search M Op lf (st_x M s) d (st_cost M s) _ _) as [sm| |] eqn:Es; [|discriminate|discriminate].
  destruct (su_success (lm_ls M) sm) eqn:Eok; cbn [negb] in H; [|exact (FT _ _ H)].
  destruct (fs_vector_x (lm_ls M) (su_optimal (lm_ls M) sm)) as [y|] eqn:Ey; [|discriminate].
  destruct (at_optimum M (su_optimal (lm_ls M) sm) y _) as [[[cost g]|] tr] eqn:Eo; [|exact (FT _ _ H)].
  destruct (gradient_norm M y g) as [gmax|]; [|exact (FT _ _ H)].
  pose proof (search_result M Op SC _ _ _ _ _ _ Hi Es Eok) as Hsr.
  destruct (at_optimum_ok M SC _ _ _ _ _ _ _ Hi Hsr Ey Eo) as (A1 & A2 & A3).
  destruct (converged _ _ _ _).
  - cbn [finish_mem finish] in H. injection H as _ <-. exact A.
  - eapply IH; [| | |exact H]; [split; [exact A1|exact A3]| |exact A].
    cbn [st_iters st_x]. do 4 eexists. split; [reflexivity|]. split; [exact A1|reflexivity].
Qed.

Lemma minimize_shows lf fuel x0 r m' : (forall c g, eval (lm_ls M) x0 true = Some (c, g) -> is_fin c = true) ->
  fst (Minimize P W Op cbs fuel lf x0 (mkMem x0 [])) = Done (r, m') -> shows (seen m').
Proof.
  intros H0 H. unfold Minimize in H. destruct (eval (lm_ls M) x0 true) as [[c g]|] eqn:Ee.
  2: { cbn [fst] in H. injection H as _ <-. intros ? ? ? []. }
  destruct (gradient_norm M x0 g) as [gm|]; cbn [fst] in H; [|injection H as _ <-; intros ? ? ? []].
  destruct (dle gm (mo_gtol Op)); [injection H as _ <-; intros ? ? ? []|].
  eapply loop_shows; [| | |exact H].
  - split; [exact Ee|]. exact (H0 c g eq_refl).
  - cbn [st_iters st_x]. exists [], (mkIt 0 (dadd c (mo_fixed Op)) (Fin 0) gm (Fin 0) (Fin 0)), c, g. split; [reflexivity|]. split; [exact Ee|reflexivity].
  - intros ? ? ? [].
Qed.
End Seen.

(** ** the evaluator *)
Lemma evaluate_cost P x b c g : Evaluate P x b = Some (c, g) -> exists ag, fn P x b = Some (c, ag).
Proof.
  unfold Evaluate. destruct b; cbn [negb]; destruct (fn P x _) as [[c' ag]|]; try discriminate.
  - destruct (right_multiply P x ag); [|discriminate]. intro H. injection H as -> _. eauto.
  - intro H. injection H as -> _. eauto.
Qed.
Lemma sane_evaluator P W cbs : sane_function P -> sane_costs (environment P W cbs).
Proof.
  intros [H1 H2]. split.
  - intros y b v gr H. apply evaluate_cost in H. destruct H as [ag H]. exact (H1 _ _ _ _ H).
  - intros y v gr v' gr' H H'. apply evaluate_cost in H. apply evaluate_cost in H'. destruct H as [a H]. destruct H' as [a' H']. exact (H2 _ _ _ _ _ H H').
Qed.
Lemma finite_evaluator P x0 : finite_start P x0 -> forall c g, Evaluate P x0 true = Some (c, g) -> is_fin c = true.
Proof. intros H c g He. apply evaluate_cost in He. exact (H c He). Qed.

Lemma dadd_fin0 c : dvalid c -> dadd c (Fin 0) = c.
Proof. destruct c as [| |z|]; cbn [dadd dvalid]; try reflexivity. intro H. rewrite Z.add_0_r. exact H. Qed.

(** ** the options *)
Lemma need_valid c t r : OptionsModel.need c t r = OptionsModel.Valid <-> c = true /\ r = OptionsModel.Valid.
Proof. unfold OptionsModel.need. destruct c; split; [auto|intros []; auto|discriminate|intros []; discriminate]. Qed.
Lemma need_fatal c t r : OptionsModel.need c t r = OptionsModel.Fatal -> r = OptionsModel.Fatal.
Proof. unfold OptionsModel.need. destruct c; [auto|discriminate]. Qed.

Theorem valid_iff b d o : OptionsModel.num_threads d = 1 -> OptionsModel.check_gradients d = false ->
  (IsValid b d o = OptionsModel.Valid <-> all_hold (rules o)) /\ IsValid b d o <> OptionsModel.Fatal.
Proof.
  intros Ht Hc. unfold IsValid, OptionsModel.IsValid, OptionsModel.andThen.
  cbn [ToSolverOptions OptionsModel.minimizer_type].
  change (EnumModel.LINE_SEARCH =? EnumModel.TRUST_REGION) with false. cbv iota.
  set (c := OptionsModel.CommonOptionsAreValid (ToSolverOptions d o)). set (l := OptionsModel.LineSearchOptionsAreValid (ToSolverOptions d o)).
  assert (C : c = OptionsModel.Valid <-> 0 <= max_num_iterations o /\ le (Fin 0) (max_solver_time_in_seconds o) /\ le (Fin 0) (function_tolerance o) /\
     le (Fin 0) (gradient_tolerance o) /\ le (Fin 0) (parameter_tolerance o)).
  { unfold c, OptionsModel.CommonOptionsAreValid.
    cbn [ToSolverOptions OptionsModel.max_num_iterations OptionsModel.max_solver_time_in_seconds OptionsModel.function_tolerance OptionsModel.gradient_tolerance
      OptionsModel.parameter_tolerance OptionsModel.num_threads OptionsModel.check_gradients]. rewrite Ht, Hc. cbv iota. rewrite !need_valid, Z.leb_le. unfold le. intuition. }
  assert (CF : c <> OptionsModel.Fatal).
  { unfold c, OptionsModel.CommonOptionsAreValid. cbn [ToSolverOptions OptionsModel.check_gradients]. rewrite Hc. intro Q. repeat (apply need_fatal in Q). discriminate. }
  assert (L : l = OptionsModel.Valid <-> 0 < max_lbfgs_rank o /\ lt (Fin 0) (min_line_search_step_size o) /\ lt (Fin 0) (max_line_search_step_contraction o) /\
     lt (max_line_search_step_contraction o) ONE /\ lt (max_line_search_step_contraction o) (min_line_search_step_contraction o) /\
     le (min_line_search_step_contraction o) ONE /\ 1 <= max_num_line_search_step_size_iterations o /\ lt (Fin 0) (line_search_sufficient_function_decrease o) /\
     lt (line_search_sufficient_function_decrease o) (line_search_sufficient_curvature_decrease o) /\ lt (line_search_sufficient_curvature_decrease o) ONE /\
     lt ONE (max_line_search_step_expansion o) /\
     (line_search_direction_type o = EnumModel.BFGS \/ line_search_direction_type o = EnumModel.LBFGS -> line_search_type o = EnumModel.WOLFE)).
  { unfold l, OptionsModel.LineSearchOptionsAreValid.
    cbn [ToSolverOptions OptionsModel.minimizer_type OptionsModel.max_lbfgs_rank OptionsModel.min_line_search_step_size OptionsModel.max_line_search_step_contraction
      OptionsModel.min_line_search_step_contraction OptionsModel.max_num_line_search_step_size_iterations OptionsModel.line_search_sufficient_function_decrease
      OptionsModel.line_search_sufficient_curvature_decrease OptionsModel.max_line_search_step_expansion OptionsModel.line_search_direction_type OptionsModel.line_search_type].
    change (EnumModel.LINE_SEARCH =? EnumModel.TRUST_REGION) with false. cbv iota.
    rewrite !need_valid. unfold lt, le, ONE, OptionsModel.ONE. rewrite Z.ltb_lt, Z.leb_le.
    assert (Q : negb (((line_search_direction_type o =? EnumModel.BFGS) || (line_search_direction_type o =? EnumModel.LBFGS)) && negb (line_search_type o =? EnumModel.WOLFE)) = true <->
      (line_search_direction_type o = EnumModel.BFGS \/ line_search_direction_type o = EnumModel.LBFGS -> line_search_type o = EnumModel.WOLFE)).
    { destruct (Z.eqb_spec (line_search_direction_type o) EnumModel.BFGS), (Z.eqb_spec (line_search_direction_type o) EnumModel.LBFGS),
        (Z.eqb_spec (line_search_type o) EnumModel.WOLFE); cbn; intuition congruence. }
    rewrite Q. clear. split; [intros (A1 & A2 & A3 & A4 & A5 & A6 & A7 & A8 & A9 & A10 & A11 & A12 & _); do 11 (split; [assumption|]); assumption|].
    intros (A1 & A2 & A3 & A4 & A5 & A6 & A7 & A8 & A9 & A10 & A11 & A12). do 12 (split; [assumption|]). reflexivity. }
  assert (LF : l <> OptionsModel.Fatal).
  { unfold l, OptionsModel.LineSearchOptionsAreValid. intro Q. repeat (apply need_fatal in Q). discriminate. }
  split.
  - transitivity (c = OptionsModel.Valid /\ l = OptionsModel.Valid).
    { destruct c; split; [auto|intros []; auto|discriminate|intros []; discriminate|congruence|intros []; discriminate]. }
    rewrite C, L. unfold all_hold, rules. cbn [In]. clear. split.
    + intros ((A1 & A2 & A3 & A4 & A5) & B1 & B2 & B3 & B4 & B5 & B6 & B7 & B8 & B9 & B10 & B11 & B12) p Hp.
      repeat (destruct Hp as [<-|Hp]; [assumption|]). destruct Hp.
    + intro H. split; [repeat apply conj|repeat apply conj]; apply H; tauto.
  - destruct c; [exact LF|discriminate|congruence].
Qed.

Lemma dlt_trans a b c : dlt a b = true -> dlt b c = true -> dlt a c = true.
Proof. destruct a, b, c; cbn [dlt]; try discriminate; try reflexivity; rewrite !Z.ltb_lt; lia. Qed.

(** accepted options are what the minimizer needs *)
Lemma rules_accepted o : all_hold (rules o) -> accepted_options (MinimizerOptions o).
Proof.
  intros H. unfold all_hold, rules in H. cbn [In] in H.
  assert (E : dz 1 = ONE) by (vm_compute; reflexivity).
  assert (H1 : lt (Fin 0) (line_search_sufficient_function_decrease o)) by (apply H; tauto).
  assert (H2 : lt (line_search_sufficient_function_decrease o) (line_search_sufficient_curvature_decrease o)) by (apply H; tauto).
  assert (H3 : lt (line_search_sufficient_curvature_decrease o) ONE) by (apply H; tauto).
  assert (H4 : lt ONE (max_line_search_step_expansion o)) by (apply H; tauto).
  assert (H5 : 1 <= max_num_line_search_step_size_iterations o) by (apply H; tauto).
  unfold lt in *. unfold accepted_options. cbn [MinimizerOptions mo_ls lo_decrease lo_max_iter lo_curvature lo_expansion]. rewrite E.
  split; [exact H1|]. split; [eapply dlt_trans; eauto|]. split; [lia|]. intros _. split; [exact H2|]. split; [exact H3|exact H4].
Qed.
