(** Proofs about the line searches. *)
Require Import List ZArith Bool Lia.
From Verif Require Import Dbl DblArith DblArithProofs DblArithProofs2 LineSearchModel LineSearchSpec.
Import ListNotations.
Open Scope Z_scope.

Lemma dlt_nan_r a : dlt a NaN = false.
Proof. destruct a; reflexivity. Qed.
Lemma dlt_irrefl a : dlt a a = false.
Proof. destruct a; try reflexivity. cbn. apply Z.ltb_irrefl. Qed.
Lemma dabs_neg a : dabs (dneg a) = dabs a.
Proof. destruct a; try reflexivity. cbn. now rewrite Z.abs_opp. Qed.

Section P.
Variable E : ls_env.
Variable Op : ls_options.
Variable position : pt E.
Variable direction : vec E.
Variable c0 g0 : dbl.
Notation smp := (sample E).
Notation sm := (summary E).
Notation ev := (ls_evaluate E position direction).
Notation ini := (initial_position E position c0 g0).
Notation evd := (evaluated E position direction).

Lemma ls_evaluate_x x g old : fs_x E (fst (ev x g old)) = x.
Proof.
  unfold ls_evaluate. destruct (plus _ _ _); [|reflexivity].
  destruct (eval _ _ _) as [[v gr]|]; [|reflexivity].
  destruct (negb (is_fin v)); [reflexivity|]. destruct (negb g); [reflexivity|].
  cbv zeta. destruct (negb (is_fin (dot E direction gr))); reflexivity.
Qed.
Lemma ls_evaluate_evaluated x g old : fs_value_valid E (fst (ev x g old)) = true -> evd g (fst (ev x g old)).
Proof.
  unfold ls_evaluate, evaluated. destruct (plus _ _ _) as [y|] eqn:Ep; [|discriminate].
  destruct (eval _ _ _) as [[v gr]|] eqn:Ee; [|discriminate].
  destruct (is_fin v) eqn:Ev; cbn [negb]; [|discriminate]. destruct g; cbn [negb].
  - cbv zeta. destruct (is_fin (dot E direction gr)) eqn:Ed; cbn [negb fst fs_x fs_vector_x fs_value fs_value_valid fs_gradient fs_gradient_valid fs_vector_gradient]; intros _.
    + split; [reflexivity|]. exists y, gr. split; [exact Ep|]. split; [reflexivity|split; [exact Ee|split; [exact Ev|]]].
      split; [|discriminate]. intros _. rewrite Ed. auto.
    + split; [reflexivity|]. exists y, gr. split; [exact Ep|]. split; [reflexivity|split; [exact Ee|split; [exact Ev|]]].
      split; [|discriminate]. intros _. rewrite Ed. auto.
  - cbn [fst fs_x fs_vector_x fs_value fs_value_valid fs_gradient fs_gradient_valid fs_vector_gradient]; intros _.
    split; [reflexivity|]. exists y, gr. split; [exact Ep|]. split; [reflexivity|split; [exact Ee|split; [exact Ev|]]].
    split; [discriminate|reflexivity].
Qed.
Lemma ls_evaluate_points x g old y : fs_vector_x E (fst (ev x g old)) = Some y -> snd (ev x g old) = [y].
Proof.
  unfold ls_evaluate. destruct (plus _ _ _); [|discriminate].
  destruct (eval _ _ _) as [[v gr]|]; [|cbn; congruence].
  destruct (negb (is_fin v)); [cbn; congruence|]. destruct (negb g); [cbn; congruence|].
  cbv zeta. destruct (negb (is_fin (dot E direction gr))); cbn; congruence.
Qed.

(** ** Armijo *)
Notation al := (armijo_loop E Op position direction c0 g0).
(** what a finished Armijo search looks like *)
Definition armijo_good (est : dbl) (s : sm) : Prop :=
  su_feval E s <= lo_max_iter Op /\ su_feval E s = Z.of_nat (length (su_steps E s)) /\
  su_iter E s <= lo_max_iter Op /\
  (su_success E s = false -> su_error E s = true) /\
  (su_success E s = true ->
     evd (cubic Op) (su_optimal E s) /\ sufficient_decrease E Op c0 g0 (su_optimal E s) /\
     (exists l, su_steps E s = l ++ [fs_x E (su_optimal E s)]) /\
     (exists l y, su_points E s = l ++ [y] /\ fs_vector_x E (su_optimal E s) = Some y) /\
     (fs_x E (su_optimal E s) = est \/
      dlt (dmul (fs_x E (su_optimal E s)) (inf_norm E direction)) (lo_min_step Op) = false)).

Lemma armijo_loop_good est : forall fuel previous current s r,
  al fuel previous current s = Done r ->
  su_success E s = false -> su_feval E s <= lo_max_iter Op -> su_feval E s = su_iter E s + 1 ->
  su_feval E s = Z.of_nat (length (su_steps E s)) ->
  (fs_value_valid E current = true -> evd (cubic Op) current) ->
  (exists l, su_steps E s = l ++ [fs_x E current]) ->
  (forall y, fs_vector_x E current = Some y -> exists l, su_points E s = l ++ [y]) ->
  (fs_x E current = est \/ dlt (dmul (fs_x E current) (inf_norm E direction)) (lo_min_step Op) = false) ->
  armijo_good est r.
Proof.
  induction fuel as [|f IH]; intros previous current s r Hr Hs Hle Hcnt Hlen Hev Hst Hpt Hx.
  - cbn [armijo_loop] in Hr.
    destruct (negb (fs_value_valid E current) || dlt (armijo_bound Op c0 g0 (fs_x E current)) (fs_value E current)) eqn:Eg; [discriminate|].
    apply orb_false_iff in Eg. destruct Eg as [Ev Ed]. apply negb_false_iff in Ev.
    injection Hr as <-. unfold armijo_good. cbn [su_feval su_steps su_iter su_success su_error su_optimal su_points succeed].
    split; [auto|split; [auto|split; [lia|split; [discriminate|]]]]. intros _.
    split; [auto|split; [exact Ed|split; [auto|split; [|auto]]]].
    destruct (Hev Ev) as (_ & y & gr & _ & Hy & _). destruct (Hpt y Hy) as [l El]. exists l, y. auto.
  - cbn [armijo_loop] in Hr.
    destruct (negb (fs_value_valid E current) || dlt (armijo_bound Op c0 g0 (fs_x E current)) (fs_value E current)) eqn:Eg.
    + cbv zeta in Hr. destruct (lo_max_iter Op <=? su_iter E (count_iter E s)) eqn:Em.
      * injection Hr as <-. cbn [su_iter count_iter] in Em. unfold armijo_good.
        cbn [su_feval su_steps su_iter su_success su_error su_optimal su_points set_error count_iter].
        split; [auto|split; [auto|split; [lia|split; [auto|congruence]]]].
      * cbn [su_iter count_iter] in Em.
        destruct (interp_step _ _ _ _ _ _ _) as [step|]; [|discriminate].
        unfold direction_norm in Hr.
        destruct (dlt (dmul step (inf_norm E direction)) (lo_min_step Op)) eqn:El.
        -- injection Hr as <-. unfold armijo_good.
           cbn [su_feval su_steps su_iter su_success su_error su_optimal su_points set_error count_iter].
           split; [auto|split; [auto|split; [lia|split; [auto|congruence]]]].
        -- destruct (ev step (cubic Op) current) as [next pts] eqn:En.
           assert (Hn : next = fst (ev step (cubic Op) current)) by (rewrite En; reflexivity).
           assert (Hp : pts = snd (ev step (cubic Op) current)) by (rewrite En; reflexivity).
           apply IH in Hr; auto.
           ++ cbn [su_feval count_eval count_iter]. lia.
           ++ cbn [su_feval su_iter count_eval count_iter]. lia.
           ++ cbn [su_feval su_steps count_eval count_iter]. rewrite app_length. cbn [length]. lia.
           ++ rewrite Hn. apply ls_evaluate_evaluated.
           ++ exists (su_steps E s). cbn [su_steps count_eval count_iter]. rewrite Hn, ls_evaluate_x. reflexivity.
           ++ intros y Hy. exists (su_points E s). cbn [su_points count_eval count_iter].
              rewrite Hp. f_equal. apply ls_evaluate_points. rewrite <- Hn. exact Hy.
           ++ right. rewrite Hn, ls_evaluate_x. exact El.
    + apply orb_false_iff in Eg. destruct Eg as [Ev Ed]. apply negb_false_iff in Ev.
      injection Hr as <-. unfold armijo_good. cbn [su_feval su_steps su_iter su_success su_error su_optimal su_points succeed].
      split; [auto|split; [auto|split; [lia|split; [discriminate|]]]]. intros _.
      split; [auto|split; [exact Ed|split; [auto|split; [|auto]]]].
      destruct (Hev Ev) as (_ & y & gr & _ & Hy & _). destruct (Hpt y Hy) as [l El]. exists l, y. auto.
Qed.

Lemma armijo_search_good fuel est r : armijo_search E Op position direction c0 g0 fuel est = Done r -> armijo_good est r.
Proof.
  unfold armijo_search. destruct (dle (Fin 0) est && _ && _ && (0 <? lo_max_iter Op)) eqn:Ec; [|discriminate].
  apply andb_prop in Ec. destruct Ec as [_ Em].
  destruct (ev est (cubic Op) (empty_sample E)) as [cur pts] eqn:En. intros Hr.
  assert (Hn : cur = fst (ev est (cubic Op) (empty_sample E))) by (rewrite En; reflexivity).
  assert (Hp : pts = snd (ev est (cubic Op) (empty_sample E))) by (rewrite En; reflexivity).
  eapply armijo_loop_good; try exact Hr; cbn [su_success su_feval su_iter su_steps su_points count_eval new_sum].
  - reflexivity.
  - lia.
  - lia.
  - reflexivity.
  - rewrite Hn. apply ls_evaluate_evaluated.
  - exists []. rewrite Hn, ls_evaluate_x. reflexivity.
  - intros y Hy. exists []. rewrite Hp. cbn [app]. apply ls_evaluate_points. rewrite <- Hn. exact Hy.
  - left. rewrite Hn, ls_evaluate_x. reflexivity.
Qed.

(** never out of fuel *)
Lemma armijo_loop_fuel : forall fuel previous current s,
  lo_max_iter Op - su_iter E s <= Z.of_nat fuel -> (fuel > 0)%nat -> al fuel previous current s <> Looping.
Proof.
  induction fuel as [|f IH]; intros previous current s Hf Hp; [lia|]. cbn [armijo_loop].
  destruct (negb _ || _); [|discriminate].
  cbv zeta. destruct (lo_max_iter Op <=? su_iter E (count_iter E s)) eqn:Em; [discriminate|].
  cbn [su_iter count_iter] in Em.
  destruct (interp_step _ _ _ _ _ _ _) as [step|]; [|discriminate].
  destruct (dlt _ _); [discriminate|]. destruct (ev step (cubic Op) current) as [next pts].
  apply IH; cbn [su_iter count_eval count_iter]; lia.
Qed.

(** ** Wolfe *)
(** a sample that was evaluated or is the start; meeting sufficient decrease *)
Definition stands (s : smp) : Prop := s = ini \/ evd true s.
Definition okay (s : smp) : Prop := stands s /\ sufficient_decrease E Op c0 g0 s.
Definition bad_slope : Prop := exists s, evd true s /\ fs_gradient_valid E s = false.
Definition at_ (steps : list dbl) (s : smp) (i : nat) : Prop := nth_error (Fin 0 :: steps) i = Some (fs_x E s).
Definition apart (steps : list dbl) (a b : smp) : Prop := exists i j, i <> j /\ at_ steps a i /\ at_ steps b j.
Definition seen (steps : list dbl) (s : smp) : Prop := exists i, at_ steps s i.
Notation narrow := (narrow_bracket E Op direction).

Hypothesis Hc0 : dvalid c0.
Lemma ini_okay : okay ini.
Proof.
  split; [left; reflexivity|]. unfold sufficient_decrease. cbn [fs_x fs_value initial_position].
  destruct (dmul (lo_decrease Op) g0) as [| |z|]; cbn [dmul inf_of_sign Z.opp]; try (destruct c0; reflexivity).
  rewrite Z.mul_0_r. change (rnd 0 ONEU) with (Fin 0).
  destruct c0 as [| |c|]; cbn [dadd]; try reflexivity.
  rewrite Z.add_0_r. cbn in Hc0. rewrite Hc0. apply dlt_irrefl.
Qed.

Lemma at_app steps l s i : at_ steps s i -> at_ (steps ++ l) s i.
Proof.
  unfold at_. intros H. rewrite app_comm_cons. rewrite nth_error_app1; auto.
  apply nth_error_Some. congruence.
Qed.
Lemma at_last steps s x : fs_x E s = x -> at_ (steps ++ [x]) s (S (length steps)).
Proof. intros <-. unfold at_. cbn [nth_error]. rewrite nth_error_app2 by lia. rewrite Nat.sub_diag. reflexivity. Qed.
Lemma at_lt steps s i : at_ steps s i -> (i < S (length steps))%nat.
Proof. unfold at_. intros H. change (S (length steps)) with (length (Fin 0 :: steps)). apply nth_error_Some. congruence. Qed.
Lemma apart_narrow steps a b : apart steps a b ->
  dlt (dmul (dabs (dsub (fs_x E a) (fs_x E b))) (inf_norm E direction)) (lo_min_step Op) = true -> narrow steps.
Proof. intros (i & j & Hij & Ha & Hb) H. exists i, j, (fs_x E a), (fs_x E b). auto. Qed.
Lemma apart_sym steps a b : apart steps a b -> apart steps b a.
Proof. intros (i & j & Hij & Ha & Hb). exists j, i. auto. Qed.

(** counters of the Wolfe search *)
Definition counted (s : sm) : Prop :=
  su_feval E s = su_iter E s /\ su_geval E s = su_iter E s /\ su_feval E s = Z.of_nat (length (su_steps E s)) /\
  su_iter E s <= Z.max 1 (lo_max_iter Op) /\ su_success E s = false.
Definition exhausted (s : sm) : Prop := lo_max_iter Op <= su_iter E s.

Definition bracket_good (b : bracket E) : Prop :=
  counted (br_sum E b) /\
  (br_ok E b = false -> su_error E (br_sum E b) = true) /\
  (br_ok E b = true ->
     okay (br_low E b) /\ seen (su_steps E (br_sum E b)) (br_low E b) /\
     (br_zoom E b = true -> stands (br_high E b) /\ apart (su_steps E (br_sum E b)) (br_low E b) (br_high E b)) /\
     (br_zoom E b = false ->
        strong_curvature E Op g0 (br_low E b) \/ exhausted (br_sum E b) \/ narrow (su_steps E (br_sum E b)))).

Lemma bracket_done_good low high zoom s b : bracket_done E Op direction low high zoom s = Done b ->
  counted s -> okay low -> seen (su_steps E s) low ->
  (zoom = true -> stands high /\ apart (su_steps E s) low high) ->
  (zoom = false -> strong_curvature E Op g0 low \/ exhausted s \/ narrow (su_steps E s)) ->
  bracket_good b.
Proof.
  unfold bracket_done. intros H Hc Ho Hse Hz Hn. injection H as <-.
  unfold bracket_good. cbn [br_ok br_low br_high br_zoom br_sum].
  split; [auto|split; [discriminate|]]. intros _. split; [auto|split; [auto|split]].
  - intros Hzz. apply andb_prop in Hzz. apply Hz. tauto.
  - intros Hzz. destruct zoom; [|auto]. cbn [andb] in Hzz. apply negb_false_iff in Hzz.
    right. right. apply apart_narrow with (a := high) (b := low); [|exact Hzz]. apply apart_sym. apply Hz. auto.
Qed.

Lemma bracket_loop_good : forall fuel low high previous current s b,
  bracket_loop E Op position direction c0 g0 fuel low high previous current s = Done b ->
  okay low -> seen (su_steps E s) low -> okay previous -> (fs_value_valid E current = true -> evd true current) ->
  su_feval E s = su_iter E s + 1 -> su_geval E s = su_iter E s + 1 ->
  su_feval E s = Z.of_nat (length (su_steps E s)) -> su_feval E s <= Z.max 1 (lo_max_iter Op) ->
  su_success E s = false ->
  at_ (su_steps E s) current (length (su_steps E s)) ->
  (exists i, (i < length (su_steps E s))%nat /\ at_ (su_steps E s) previous i) ->
  bracket_good b.
Proof.
  induction fuel as [|f IH]; intros low high previous current s b Hb Hlow Hsee Hprev Hcur Hf Hg Hlen Hmax Hsu Hat Hatp;
    cbn [bracket_loop] in Hb; cbv zeta in Hb;
    (assert (Hc : counted (count_iter E s))
       by (unfold counted; cbn [count_iter su_feval su_geval su_iter su_steps su_success];
           split; [lia|split; [lia|split; [lia|split; [lia|auto]]]]));
    (assert (Hap : apart (su_steps E s) previous current)
       by (destruct Hatp as (i & Hi & Hp); exists i, (length (su_steps E s)); split; [lia|auto]));
    (destruct (fs_value_valid E current &&
       (dlt (armijo_bound Op c0 g0 (fs_x E current)) (fs_value E current)
        || fs_value_valid E previous && dlt (fs_value E previous) (fs_value E current))) eqn:E1;
     [ apply andb_prop in E1; destruct E1 as [Ev _];
       eapply bracket_done_good; [exact Hb|exact Hc|exact Hprev|destruct Hap as (i & j & _ & A & B); exists i; exact A| |discriminate];
       intros _; split; [right; auto|exact Hap] |]);
    (assert (Hok : fs_value_valid E current = true -> okay current)
       by (intros Hv; rewrite Hv in E1; cbn [andb] in E1; apply orb_false_iff in E1; destruct E1 as [E1 _];
           split; [right; auto|exact E1]));
    (destruct (fs_value_valid E current && dle (dabs (fs_gradient E current)) (curvature_bound Op g0)) eqn:E2;
     [ apply andb_prop in E2; destruct E2 as [Ev E2];
       eapply bracket_done_good; [exact Hb|exact Hc|auto|eexists; exact Hat|discriminate|left; exact E2] |]);
    (destruct (fs_value_valid E current && dle (Fin 0) (fs_gradient E current)) eqn:E3;
     [ apply andb_prop in E3; destruct E3 as [Ev E3];
       eapply bracket_done_good; [exact Hb|exact Hc|auto|eexists; exact Hat| |discriminate];
       intros _; split; [apply Hprev|apply apart_sym; exact Hap] |]);
    (destruct (fs_value_valid E current && dlt (dmul (dabs (dsub (fs_x E current) (fs_x E previous)))
               (direction_norm E direction)) (lo_min_step Op)) eqn:E4;
     [ apply andb_prop in E4; destruct E4 as [Ev E4];
       eapply bracket_done_good; [exact Hb|exact Hc|auto|eexists; exact Hat|discriminate|];
       intros _; right; right; apply apart_narrow with (2 := E4); apply apart_sym; exact Hap |]);
    (destruct (lo_max_iter Op <=? su_iter E (count_iter E s)) eqn:E5;
     [ eapply bracket_done_good; [exact Hb|exact Hc| | |discriminate|];
       [ destruct (fs_value_valid E current && dlt (fs_value E current) (fs_value E low)) eqn:E6; [|exact Hlow];
         apply andb_prop in E6; apply Hok; tauto
       | cbn [set_error su_steps count_iter]; destruct (fs_value_valid E current && dlt (fs_value E current) (fs_value E low)); [eexists; exact Hat|exact Hsee]
       | intros _; right; left; unfold exhausted; cbn [set_error su_iter]; lia ] |]);
    [discriminate|].
  cbn [su_iter count_iter] in E5.
  destruct (interp_step _ _ _ _ _ _ _) as [step|]; [|discriminate].
  destruct (dlt (dmul step (direction_norm E direction)) (lo_min_step Op)).
  - injection Hb as <-. unfold bracket_good. cbn [br_ok br_sum]. split; [exact Hc|split; [auto|discriminate]].
  - destruct (ev step true current) as [next pts] eqn:En.
    assert (Hn : next = fst (ev step true current)) by (rewrite En; reflexivity).
    assert (Hnx : fs_x E next = step) by (rewrite Hn; apply ls_evaluate_x).
    apply IH in Hb; auto; cbn [su_feval su_geval su_iter su_steps su_success count_eval count_iter].
    + destruct Hsee as [i Hi]. exists i. apply at_app. exact Hi.
    + destruct (fs_value_valid E current) eqn:Ev; auto.
    + rewrite Hn. apply ls_evaluate_evaluated.
    + lia.
    + lia.
    + rewrite app_length. cbn [length]. lia.
    + lia.
    + rewrite app_length. cbn [length]. rewrite Nat.add_1_r. apply at_last. exact Hnx.
    + destruct (fs_value_valid E current) eqn:Ev.
      * exists (length (su_steps E s)). split; [rewrite app_length; cbn [length]; lia|]. apply at_app. exact Hat.
      * destruct Hatp as (i & Hi & Hp). exists i. split; [rewrite app_length; lia|]. apply at_app. exact Hp.
Qed.

Lemma bracketing_good fuel est b : bracketing_phase E Op position direction c0 g0 fuel est = Done b -> bracket_good b.
Proof.
  unfold bracketing_phase. destruct (ev est true (empty_sample E)) as [cur pts] eqn:En. intros H.
  assert (Hn : cur = fst (ev est true (empty_sample E))) by (rewrite En; reflexivity).
  assert (Hnx : fs_x E cur = est) by (rewrite Hn; apply ls_evaluate_x).
  eapply bracket_loop_good; [exact H|..]; cbn [su_feval su_geval su_iter su_steps su_success count_eval new_sum app length].
  - apply ini_okay.
  - exists 0%nat. reflexivity.
  - apply ini_okay.
  - rewrite Hn. apply ls_evaluate_evaluated.
  - lia.
  - lia.
  - reflexivity.
  - lia.
  - reflexivity.
  - unfold at_. cbn. congruence.
  - exists 0%nat. split; [lia|reflexivity].
Qed.

(** ** the zoom phase *)
Hypothesis Hc0f : is_fin c0 = true.
Lemma stands_fin s : stands s -> is_fin (fs_value E s) = true.
Proof. intros [->|(_ & y & gr & _ & _ & _ & H & _)]; auto. Qed.

Definition zoom_good (s0 : sm) (low0 : smp) (r : bool * smp * sm) : Prop :=
  let '(ok, sol, s) := r in
  counted s /\ (forall t, seen (su_steps E s0) t -> seen (su_steps E s) t) /\
  (fs_value_valid E sol = true -> seen (su_steps E s) sol) /\
  (ok = false -> su_error E s = true) /\
  (ok = true -> okay sol /\ strong_curvature E Op g0 sol /\ dlt (fs_value E low0) (fs_value E sol) = false) /\
  (ok = false -> fs_value_valid E sol = true ->
     (okay sol /\ (exhausted s \/ narrow (su_steps E s))) \/ (evd true sol /\ fs_gradient_valid E sol = false)).

Lemma zoom_loop_good low0 : forall fuel low high s r,
  zoom_loop E Op position direction c0 g0 fuel low high s = Done r ->
  counted s -> stands low0 -> okay low -> stands high -> apart (su_steps E s) low high ->
  dlt (fs_value E low0) (fs_value E low) = false ->
  zoom_good s low0 r.
Proof.
  induction fuel as [|f IH]; intros low high s r Hr Hc Hl0 Hlow Hhigh Hap Hle; cbn [zoom_loop] in Hr; cbv zeta in Hr;
    (destruct (lo_max_iter Op <=? su_iter E s) eqn:E1;
     [ injection Hr as <-; split; [exact Hc|split; [auto|split; [intros _; destruct Hap as (i & j & _ & A & B); exists i; exact A|split; [auto|split; [discriminate|]]]]]; intros _ _; left;
       split; [exact Hlow|]; left; unfold exhausted; cbn [set_error su_iter]; lia|]);
    (destruct (dlt (dmul (dabs (dsub (fs_x E high) (fs_x E low))) (direction_norm E direction)) (lo_min_step Op)) eqn:E2;
     [ injection Hr as <-; split; [exact Hc|split; [auto|split; [intros _; destruct Hap as (i & j & _ & A & B); exists i; exact A|split; [auto|split; [discriminate|]]]]]; intros _ _; left;
       split; [exact Hlow|]; right; apply apart_narrow with (2 := E2); apply apart_sym; exact Hap|]); [discriminate|].
  destruct (interp_step _ _ _ _ _ _ _) as [step|]; [|discriminate].
  destruct (ev step true low) as [sol pts] eqn:En.
  assert (Hn : sol = fst (ev step true low)) by (rewrite En; reflexivity).
  assert (Hnx : fs_x E sol = step) by (rewrite Hn; apply ls_evaluate_x).
  assert (Hev : fs_value_valid E sol = true -> evd true sol) by (rewrite Hn; apply ls_evaluate_evaluated).
  set (s' := count_eval E true step pts (count_iter E s)) in *.
  assert (Hc' : counted s').
  { destruct Hc as (A & B & C & D & F). unfold s', counted. cbn [su_feval su_geval su_iter su_steps su_success count_eval count_iter].
    rewrite app_length. cbn [length]. split; [lia|split; [lia|split; [lia|split; [lia|auto]]]]. }
  assert (Hst : su_steps E s' = su_steps E s ++ [step]) by reflexivity.
  assert (Hsl : at_ (su_steps E s') sol (S (length (su_steps E s)))) by (rewrite Hst; apply at_last; exact Hnx).
  assert (Hlt : forall t, (exists i, at_ (su_steps E s) t i) -> apart (su_steps E s') t sol).
  { intros t [i Hi]. exists i, (S (length (su_steps E s))). split.
    - apply at_lt in Hi. lia.
    - split; [rewrite Hst; apply at_app; exact Hi|exact Hsl]. }
  assert (Hll : exists i, at_ (su_steps E s) low i) by (destruct Hap as (i & j & _ & A & B); eauto).
  assert (Hhh : exists i, at_ (su_steps E s) high i) by (destruct Hap as (i & j & _ & A & B); eauto).
  assert (Hmon : forall t, seen (su_steps E s) t -> seen (su_steps E s') t)
    by (intros t [i Hi]; exists i; rewrite Hst; apply at_app; exact Hi).
  assert (Hrec : forall r, zoom_good s' low0 r -> zoom_good s low0 r)
    by (intros [[a b] c] (Q1 & Q2 & Q3 & Q4); split; [exact Q1|split; [auto|split; [exact Q3|exact Q4]]]).
  clearbody s'.
  destruct (negb (fs_value_valid E sol) || negb (fs_gradient_valid E sol)) eqn:E3.
  { injection Hr as <-. split; [exact Hc'|split; [exact Hmon|split; [intros _; eexists; exact Hsl|split; [auto|split; [discriminate|]]]]]. intros _ Hv. right.
    split; [auto|]. rewrite Hv in E3. cbn [negb orb] in E3. now apply negb_true_iff in E3. }
  apply orb_false_iff in E3. destruct E3 as [Ev Eg]. apply negb_false_iff in Ev.
  destruct (dlt (armijo_bound Op c0 g0 (fs_x E sol)) (fs_value E sol) || dle (fs_value E low) (fs_value E sol)) eqn:E4.
  { apply Hrec. apply IH in Hr; auto. right. auto. }
  apply orb_false_iff in E4. destruct E4 as [E4 E5].
  assert (Hsol : okay sol) by (split; [right; auto|exact E4]).
  assert (Hs0 : dlt (fs_value E low0) (fs_value E sol) = false).
  { pose proof (stands_fin _ Hl0). pose proof (stands_fin _ (proj1 Hlow)). pose proof (stands_fin _ (proj1 Hsol)).
    destruct (fs_value E low0), (fs_value E low), (fs_value E sol); try discriminate. cbn in *. lia. }
  destruct (dle (dabs (fs_gradient E sol)) (curvature_bound Op g0)) eqn:E6.
  { injection Hr as <-. split; [exact Hc'|split; [exact Hmon|split; [intros _; eexists; exact Hsl|split; [discriminate|split; [|discriminate]]]]]. intros _.
    split; [auto|split; [exact E6|auto]]. }
  destruct (dle (Fin 0) _).
  - apply Hrec. apply IH in Hr; auto. { apply Hlow. } apply apart_sym. auto.
  - apply Hrec. apply IH in Hr; auto. apply apart_sym. auto.
Qed.

Definition wolfe_good (s : sm) : Prop :=
  su_feval E s = su_iter E s /\ su_geval E s = su_iter E s /\ su_feval E s = Z.of_nat (length (su_steps E s)) /\
  su_iter E s <= Z.max 1 (lo_max_iter Op) /\
  (su_success E s = false -> su_error E s = true) /\
  (su_success E s = true ->
     let o := su_optimal E s in
     stands o /\ seen (su_steps E s) o /\
     (sufficient_decrease E Op c0 g0 o \/ fs_gradient_valid E o = false) /\
     (strong_curvature E Op g0 o \/ exhausted s \/ narrow (su_steps E s) \/ bad_slope) /\
     exists l, okay l /\ seen (su_steps E s) l /\ dlt (fs_value E l) (fs_value E o) = false).

Lemma wolfe_search_good fuel est r : wolfe_search E Op position direction c0 g0 fuel est = Done r -> wolfe_good r.
Proof.
  unfold wolfe_search. destruct (_ && _); [|discriminate].
  destruct (bracketing_phase _ _ _ _ _ _ _ _) as [b| |] eqn:Eb; [|discriminate|discriminate].
  apply bracketing_good in Eb. destruct Eb as (Hc & Hf & Ht).
  destruct (br_ok E b) eqn:Eok; cbn [negb].
  2: { intros H. injection H as <-. destruct Hc as (A & B & C & D & F). unfold wolfe_good.
       split; [auto|split; [auto|split; [auto|split; [auto|split; [auto|congruence]]]]]. }
  destruct (Ht eq_refl) as (Hlow & Hse & Hz & Hnz). clear Ht Hf.
  destruct (br_zoom E b) eqn:Ez; cbn [negb].
  2: { intros H. injection H as <-. destruct Hc as (A & B & C & D & F). unfold wolfe_good.
       cbn [su_feval su_geval su_iter su_steps su_success su_error su_optimal succeed].
       split; [auto|split; [auto|split; [auto|split; [auto|split; [discriminate|]]]]]. intros _. cbv zeta.
       split; [apply Hlow|split; [exact Hse|split; [left; apply Hlow|split]]].
       - destruct (Hnz eq_refl) as [Q|[Q|Q]]; auto.
       - exists (br_low E b). split; [auto|split; [auto|apply dlt_irrefl]]. }
  destruct (Hz eq_refl) as (Hhigh & Hap). clear Hz Hnz.
  unfold zoom_phase. destruct (_ && _); [|discriminate].
  destruct (dle (Fin 0) _).
  { cbn [negb andb fs_value_valid empty_sample]. intros H. injection H as <-.
    destruct Hc as (A & B & C & D & F). unfold wolfe_good.
    cbn [su_feval su_geval su_iter su_steps su_success su_error set_error].
    split; [auto|split; [auto|split; [auto|split; [auto|split; [auto|congruence]]]]]. }
  destruct (zoom_loop _ _ _ _ _ _ _ _ _ _) as [[[ok sol] s]| |] eqn:Eo; [|discriminate|discriminate].
  apply zoom_loop_good with (low0 := br_low E b) in Eo; auto.
  2: apply Hlow. 2: apply dlt_irrefl.
  destruct Eo as (Hc' & Hm & Hss & He & Hok & Hno).
  destruct (negb ok && negb (fs_value_valid E sol)) eqn:E1.
  { intros H. injection H as <-. apply andb_prop in E1. destruct E1 as [E1 _]. apply negb_true_iff in E1.
    destruct Hc' as (A & B & C & D & F). unfold wolfe_good.
    split; [auto|split; [auto|split; [auto|split; [auto|split; [auto|congruence]]]]]. }
  destruct Hc' as (A & B & C & D & F).
  destruct ok.
  - destruct (Hok eq_refl) as (Q1 & Q2 & Q3).
    assert (Hv : fs_value_valid E sol = true) by (destruct Q1 as [[->|[Q _]] _]; [reflexivity|exact Q]).
    rewrite Hv, Q3. cbn [negb orb]. intros H. injection H as <-. unfold wolfe_good.
    cbn [su_feval su_geval su_iter su_steps su_success su_error su_optimal succeed].
    split; [auto|split; [auto|split; [auto|split; [auto|split; [discriminate|]]]]]. intros _. cbv zeta.
    split; [apply Q1|split; [apply Hss; exact Hv|split; [left; apply Q1|split; [left; exact Q2|]]]]. exists (br_low E b). auto.
  - cbn [negb andb] in E1. apply negb_false_iff in E1. rewrite E1. cbn [negb orb].
    specialize (Hno eq_refl E1).
    destruct (dlt (fs_value E (br_low E b)) (fs_value E sol)) eqn:E2; intros H; injection H as <-; unfold wolfe_good;
      cbn [su_feval su_geval su_iter su_steps su_success su_error su_optimal succeed];
      (split; [auto|split; [auto|split; [auto|split; [auto|split; [discriminate|]]]]]); intros _; cbv zeta.
    + split; [apply Hlow|split; [auto|split; [left; apply Hlow|split]]].
      * right. destruct Hno as [[_ [Q|Q]]|Q]; [left; exact Q|right; left; exact Q|right; right; exists sol; exact Q].
      * exists (br_low E b). split; [auto|split; [auto|apply dlt_irrefl]].
    + split; [|split; [auto|split; [|split]]].
      * destruct Hno as [[Q _]|[Q _]]; [apply Q|right; exact Q].
      * destruct Hno as [[Q _]|[_ Q]]; [left; apply Q|right; exact Q].
      * right. destruct Hno as [[_ [Q|Q]]|Q]; [left; exact Q|right; left; exact Q|right; right; exists sol; exact Q].
      * exists (br_low E b). auto.
Qed.
End P.
