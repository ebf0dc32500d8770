(** Invariants of the trust region loop. *)
Require Import List ZArith Bool Lia.
From Verif Require Import Dbl DblArith DblArithProofs TrustRegionModel.
Import ListNotations.
Open Scope Z_scope.

Section P.
Variable E : tr_env.
Variable Op : tr_options.
Notation state := (state E).
Notation finalize := (finalize E Op).
Notation body := (body E Op).
Notation loop := (loop E Op).

(** Generic induction over the loop: [P] holds before each finalisation, [Q] of
    every state in which the loop stops. *)
Lemma loop_inv : forall (P Q : state -> Prop),
  (forall s s1, P s -> finalize s = (s1, false) -> Q s1) ->
  (forall s s1 s2, P s -> finalize s = (s1, true) -> body s1 = (s2, true) -> P s2) ->
  (forall s s1 s2, P s -> finalize s = (s1, true) -> body s1 = (s2, false) -> Q s2) ->
  forall fuel s r, P s -> loop fuel s = Some r -> Q r.
Proof.
  intros P Q F B1 B2 fuel. induction fuel as [|f IH]; intros s r Ps; cbn [TrustRegionModel.loop];
    destruct (finalize s) as [s1 go] eqn:Ef; destruct go; try discriminate.
  - intros X; inversion X; subst. eapply F; eauto.
  - destruct (body s1) as [s2 go2] eqn:Eb. destruct go2.
    + intros X. eapply IH; [|exact X]. eapply B1; eauto.
    + intros X; inversion X; subst. eapply B2; eauto.
  - intros X; inversion X; subst. eapply F; eauto.
Qed.

(** finalisation only changes the termination type on top of the bookkeeping *)
Lemma finalize_shape : forall s s1 go, finalize s = (s1, go) ->
  exists t, s1 = set_term E (finalize_book E s) t /\ (go = true -> t = s_term E s) /\
    (go = true -> is_iteration (s_cur E s) < o_max_iter Op).
Proof.
  intros s s1 go. unfold TrustRegionModel.finalize.
  assert (Same : forall s : state, s = set_term E s (s_term E s)) by (intros []; reflexivity).
  destruct (run_callbacks E _ _ _); [|intros X; inversion X; subst; eexists; split; [reflexivity|split; discriminate]..].
  destruct (time_up E _); [intros X; inversion X; subst; eexists; split; [reflexivity|split; discriminate]|].
  destruct (negb _) eqn:M; [intros X; inversion X; subst; eexists; split; [reflexivity|split; discriminate]|].
  destruct (gradient_tolerance_reached _ _); [intros X; inversion X; subst; eexists; split; [reflexivity|split; discriminate]|].
  destruct (min_radius_reached _ _); [intros X; inversion X; subst; eexists; split; [reflexivity|split; discriminate]|].
  intros X; inversion X; subst. exists (s_term E s). split; [exact (Same (finalize_book E s))|]. split; auto.
  intros _. apply negb_false_iff in M. apply Z.ltb_lt in M. exact M.
Qed.

(** The ways one pass of the loop body can end.  [k] is the new iteration number. *)
Inductive body_case (s : state) : state -> bool -> Prop :=
| BC_fatal : forall s2,
    s_x E s2 = s_x E s -> s_xcost E s2 = s_xcost E s -> s_jac E s2 = s_jac E s ->
    s_min E s2 = s_min E s -> s_se E s2 = s_se E s ->
    s_params E s2 = s_params E s -> s_iters E s2 = s_iters E s -> s_succ E s2 = s_succ E s ->
    s_unsucc E s2 = s_unsucc E s -> s_accepted E s2 = s_accepted E s -> s_trace E s2 = s_trace E s ->
    s_term E s2 = FAILURE ->
    body_case s s2 false
| BC_invalid : forall s2,
    s_x E s2 = s_x E s -> s_xcost E s2 = s_xcost E s -> s_jac E s2 = s_jac E s ->
    s_min E s2 = s_min E s -> s_se E s2 = s_se E s -> s_inner_on E s2 = s_inner_on E s ->
    s_once E s2 = s_once E s ->
    s_params E s2 = s_params E s -> s_iters E s2 = s_iters E s -> s_succ E s2 = s_succ E s ->
    s_unsucc E s2 = s_unsucc E s -> s_accepted E s2 = s_accepted E s -> s_trace E s2 = s_trace E s ->
    s_term E s2 = s_term E s ->
    is_iteration (s_cur E s2) = is_iteration (last (s_iters E s) (s_cur E s)) + 1 ->
    is_successful (s_cur E s2) = false -> is_valid (s_cur E s2) = false ->
    is_cost (s_cur E s2) = dadd (s_xcost E s) (o_fixed Op) ->
    s_invalid E s2 = s_invalid E s + 1 -> s_invalid E s2 < o_max_invalid Op ->
    body_case s s2 true
| BC_step : forall k st1 mcc0 d0 visited d y0 c0 t1 y c mcc on useful t2 s2 go,
    k = is_iteration (last (s_iters E s) (s_cur E s)) + 1 ->
    st_step E k (s_jac E s) (s_strat E s) = (st1, Step mcc0 d0) ->
    dlt (Fin 0) mcc0 = true ->
    (visited, d) = (if o_constrained Op && o_line_search Op
                    then line_search E k (s_x E s) (s_jac E s) (s_xcost E s) d0 else ([], d0)) ->
    compute_candidate E (s_x E s) d
      (fold_left (fun t z => prepare E z true t) visited (s_trace E s)) = (y0, c0, t1) ->
    do_inner E Op k (s_xcost E s) (s_inner_on E s) y0 c0 mcc0 t1 = (y, c, mcc, on, useful, t2) ->
    s_params E s2 = s_params E s -> s_iters E s2 = s_iters E s -> s_succ E s2 = s_succ E s ->
    s_unsucc E s2 = s_unsucc E s -> s_accepted E s2 = s_accepted E s -> s_min E s2 = s_min E s ->
    s_inner_on E s2 = on ->
    (   (* a tolerance was met *)
        (go = false /\ s_x E s2 = s_x E s /\ s_xcost E s2 = s_xcost E s /\ s_trace E s2 = t2 /\
         s_term E s2 = CONVERGENCE /\
         ((s_once E s = true /\ parameter_tolerance_reached E Op (s_x E s) y = true) \/
          function_tolerance_reached Op (s_xcost E s) c = true))
     \/ (* accepted, but the gradient cannot be evaluated *)
        (go = false /\ (useful = true \/ dlt (o_min_rel Op) (step_quality (s_se E s) c mcc) = true) /\
         evaluate_gradient E y = None /\ s_trace E s2 = prepare E y false t2 /\ s_term E s2 = FAILURE)
     \/ (* accepted *)
        (go = true /\ (useful = true \/ dlt (o_min_rel Op) (step_quality (s_se E s) c mcc) = true) /\
         exists xc j g, evaluate_gradient E y = Some (xc, j, g) /\ s_x E s2 = y /\ s_xcost E s2 = xc /\
         s_jac E s2 = j /\ s_trace E s2 = prepare E y false t2 /\ s_se E s2 = se_accept (s_se E s) c mcc /\
         s_once E s2 = true /\ s_term E s2 = s_term E s /\
         s_strat E s2 = st_accepted E (step_quality (s_se E s) c mcc) st1 /\
         is_iteration (s_cur E s2) = k /\ is_successful (s_cur E s2) = true /\ is_valid (s_cur E s2) = true /\
         is_cost (s_cur E s2) = dadd xc (o_fixed Op) /\ is_gmax (s_cur E s2) = g /\ s_invalid E s2 = 0)
     \/ (* rejected *)
        (go = true /\ useful = false /\ dlt (o_min_rel Op) (step_quality (s_se E s) c mcc) = false /\
         s_x E s2 = s_x E s /\ s_xcost E s2 = s_xcost E s /\ s_jac E s2 = s_jac E s /\
         s_trace E s2 = t2 /\ s_se E s2 = s_se E s /\ s_once E s2 = s_once E s /\ s_term E s2 = s_term E s /\
         s_strat E s2 = st_rejected E (step_quality (s_se E s) c mcc) st1 /\
         is_iteration (s_cur E s2) = k /\ is_successful (s_cur E s2) = false /\ is_valid (s_cur E s2) = true /\
         is_cost (s_cur E s2) = dadd c (o_fixed Op) /\ s_invalid E s2 = 0)) ->
    body_case s s2 go.

Lemma body_cases : forall s s2 go, body s = (s2, go) -> body_case s s2 go.
Proof.
  intros s s2 go. unfold TrustRegionModel.body. cbv zeta.
  destruct (st_step E _ (s_jac E s) (s_strat E s)) as [st1 r] eqn:Est.
  assert (Inv : forall m,
    (mkSt E (s_x E s) (s_xcost E s) (s_jac E s) (s_min E s) (s_cand E s) (s_candcost E s) m
       (if o_max_invalid Op <=? s_invalid E s + 1 then st1 else st_invalid E st1) (s_se E s)
       (mkIS (is_iteration (last (s_iters E s) (s_cur E s)) + 1) false false false
          (if o_max_invalid Op <=? s_invalid E s + 1 then Fin 0 else dadd (s_xcost E s) (o_fixed Op)) (Fin 0)
          (if o_max_invalid Op <=? s_invalid E s + 1 then Fin 0 else is_gmax (last (s_iters E s) (s_cur E s)))
          (Fin 0) (Fin 0) (Fin 0))
       (s_invalid E s + 1) (s_inner_on E s) (s_inner_useful E s) (s_once E s)
       (s_params E s) (s_iters E s) (s_succ E s) (s_unsucc E s)
       (if o_max_invalid Op <=? s_invalid E s + 1 then FAILURE else s_term E s) (s_accepted E s) (s_trace E s),
     negb (o_max_invalid Op <=? s_invalid E s + 1)) = (s2, go) -> body_case s s2 go).
  { intros m X. destruct (Z.leb_spec (o_max_invalid Op) (s_invalid E s + 1));
      inversion X; subst; [apply BC_fatal|apply BC_invalid]; auto. }
  destruct r as [| |mcc0 d0].
  - intros X; inversion X; subst. apply BC_fatal; auto.
  - apply Inv.
  - destruct (negb (dlt (Fin 0) mcc0)) eqn:Em; [apply Inv|]. clear Inv.
    apply negb_false_iff in Em.
    destruct (if o_constrained Op && o_line_search Op
              then line_search E _ (s_x E s) (s_jac E s) (s_xcost E s) d0 else ([], d0)) as [visited d] eqn:Els.
    destruct (compute_candidate E (s_x E s) d _) as [[y0 c0] t1] eqn:Ec.
    destruct (do_inner E Op _ (s_xcost E s) (s_inner_on E s) y0 c0 mcc0 t1) as [[[[[y c] mcc] on] useful] t2] eqn:Ei.
    destruct (s_once E s && parameter_tolerance_reached E Op (s_x E s) y) eqn:Ept.
    { apply andb_true_iff in Ept.
      intros X; inversion X; subst; eapply BC_step; eauto; simpl; auto 20. }
    destruct (function_tolerance_reached Op (s_xcost E s) c) eqn:Eft.
    { intros X; inversion X; subst; eapply BC_step; eauto; simpl; auto 20. }
    destruct (useful || dlt (o_min_rel Op) (step_quality (s_se E s) c mcc)) eqn:Eq.
    + apply orb_true_iff in Eq.
      destruct (evaluate_gradient E y) as [[[xc j] g]|] eqn:Eg.
      * intros X; inversion X; subst; eapply BC_step; eauto; simpl.
        right; right; left. split; auto. split; auto. exists xc, j, g. repeat (split; auto).
      * intros X; inversion X; subst; eapply BC_step; eauto; simpl.
        right; left. repeat (split; auto).
    + apply orb_false_iff in Eq. destruct Eq.
      intros X; inversion X; subst; eapply BC_step; eauto; simpl.
      right; right; right. repeat (split; auto).
Qed.

(** ** Counting (C24) *)
Definition numbered (l : list iter_summary) : Prop :=
  forall n, (n < length l)%nat -> is_iteration (nth n l (new_summary 0)) = Z.of_nat n.

Definition n_ok (l : list iter_summary) : Z := Z.of_nat (length (filter is_successful l)).
Definition n_bad (l : list iter_summary) : Z := Z.of_nat (length (filter (fun i => negb (is_successful i)) l)).

Record counts (s : state) : Prop := {
  ct_num : numbered (s_iters E s);
  ct_cur : is_iteration (s_cur E s) = Z.of_nat (length (s_iters E s));
  ct_ok : s_succ E s = n_ok (s_iters E s);
  ct_bad : s_unsucc E s = n_bad (s_iters E s);
  ct_acc : Z.of_nat (length (s_accepted E s)) = s_succ E s;
  ct_max : Z.of_nat (length (s_iters E s)) <= Z.max 0 (o_max_iter Op) }.

Record counts_end (s : state) : Prop := {
  ce_num : numbered (s_iters E s);
  ce_ok : s_succ E s = n_ok (s_iters E s);
  ce_bad : s_unsucc E s = n_bad (s_iters E s);
  ce_acc : Z.of_nat (length (s_accepted E s)) = s_succ E s;
  ce_max : 1 <= Z.of_nat (length (s_iters E s)) <= Z.max 0 (o_max_iter Op) + 1 }.

Lemma numbered_snoc : forall l i, numbered l -> is_iteration i = Z.of_nat (length l) -> numbered (l ++ [i]).
Proof.
  intros l i N I n L. rewrite app_length in L. simpl in L.
  destruct (Nat.lt_ge_cases n (length l)) as [X|X].
  - rewrite app_nth1 by auto. apply N; auto.
  - rewrite app_nth2 by auto. replace (n - length l)%nat with 0%nat by lia. simpl. rewrite I. lia.
Qed.

Lemma finalize_book_counts : forall s, counts s -> counts_end (finalize_book E s).
Proof.
  intros s [N C O B A M]. unfold finalize_book.
  assert (Len : forall i : iter_summary, length (s_iters E s ++ [i]) = S (length (s_iters E s))).
  { intros; rewrite app_length; simpl; lia. }
  split; cbn [TrustRegionModel.s_iters TrustRegionModel.s_succ TrustRegionModel.s_unsucc TrustRegionModel.s_accepted].
  - apply numbered_snoc; auto.
  - unfold n_ok in *. rewrite filter_app, app_length. simpl.
    destruct (is_successful (s_cur E s)); simpl; lia.
  - unfold n_bad in *. rewrite filter_app, app_length. simpl.
    destruct (is_successful (s_cur E s)); simpl; lia.
  - destruct (is_successful (s_cur E s)); [rewrite app_length; simpl|]; lia.
  - rewrite Len. lia.
Qed.

Lemma counts_end_term : forall s t, counts_end s -> counts_end (set_term E s t).
Proof. intros s t []. split; auto. Qed.

Lemma last_numbered : forall l d, numbered l -> l <> [] -> is_iteration (last l d) + 1 = Z.of_nat (length l).
Proof.
  intros l d N X. destruct (exists_last X) as [l' [i ->]].
  rewrite last_last. specialize (N (length l')). rewrite app_length in *. simpl in *.
  rewrite app_nth2 in N by lia. rewrite Nat.sub_diag in N. simpl in N. rewrite N by lia. lia.
Qed.

Lemma body_counts : forall s s2, counts_end s -> Z.of_nat (length (s_iters E s)) <= o_max_iter Op ->
  body s = (s2, true) -> counts s2.
Proof.
  intros s s2 [N O B A M] L H. apply body_cases in H.
  assert (Ne : s_iters E s <> []). { destruct (s_iters E s); simpl in *; [lia|discriminate]. }
  pose proof (last_numbered _ (s_cur E s) N Ne) as K.
  inversion H; subst.
  - split; repeat match goal with X : ?l = _ |- context [?l] => rewrite X end; auto. lia.
  - match goal with Z : _ \/ _ |- _ => destruct Z as [X|[X|[X|X]]] end.
    + destruct X; discriminate.
    + destruct X; discriminate.
    + destruct X as (_ & _ & xc & j & g & X). decompose [and] X.
      split; repeat match goal with X : ?l = _ |- context [?l] => rewrite X end; auto; lia.
    + decompose [and] X.
      split; repeat match goal with X : ?l = _ |- context [?l] => rewrite X end; auto; lia.
Qed.

Lemma body_counts_end : forall s s2, counts_end s -> body s = (s2, false) -> counts_end s2.
Proof.
  intros s s2 [N O B A M] H. apply body_cases in H.
  inversion H; subst; split; repeat match goal with X : ?l = _ |- context [?l] => rewrite X end; auto; lia.
Qed.

Lemma finalize_counts : forall s s1 go, counts s -> finalize s = (s1, go) ->
  counts_end s1 /\ (go = true -> Z.of_nat (length (s_iters E s1)) <= o_max_iter Op).
Proof.
  intros s s1 go C F. destruct (finalize_shape s s1 go F) as (t & -> & _ & G).
  split; [apply counts_end_term, finalize_book_counts; auto|].
  intros X. specialize (G X). rewrite (ct_cur s C) in G.
  unfold finalize_book. simpl. rewrite app_length. simpl. lia.
Qed.

Lemma loop_counts : forall fuel s r, counts s -> loop fuel s = Some r -> counts_end r.
Proof.
  apply (loop_inv counts counts_end).
  - intros s s1 C F. apply (finalize_counts s s1 false C F).
  - intros s s1 s2 C F B. destruct (finalize_counts s s1 true C F) as [X Y].
    eapply body_counts; eauto.
  - intros s s1 s2 C F B. destruct (finalize_counts s s1 true C F) as [X Y].
    eapply body_counts_end; eauto.
Qed.

(** enough fuel: one pass per iteration number below the maximum *)
Lemma loop_terminates : forall fuel s, counts s ->
  o_max_iter Op - Z.of_nat (length (s_iters E s)) <= Z.of_nat fuel -> loop fuel s <> None.
Proof.
  induction fuel as [|f IH]; intros s C L; cbn [TrustRegionModel.loop];
    destruct (finalize s) as [s1 go] eqn:Ef; destruct go; try discriminate.
  - destruct (finalize_shape s s1 true Ef) as (t & _ & _ & G). specialize (G eq_refl).
    rewrite (ct_cur s C) in G. lia.
  - destruct (body s1) as [s2 go2] eqn:Eb. destruct go2; [|discriminate].
    destruct (finalize_counts s s1 true C Ef) as [X Y].
    pose proof (body_counts s1 s2 X (Y eq_refl) Eb) as C2.
    apply IH; auto.
    assert (I2 : s_iters E s2 = s_iters E s1).
    { apply body_cases in Eb. inversion Eb; auto. }
    destruct (finalize_shape s s1 true Ef) as (t & -> & _ & _).
    rewrite I2. unfold finalize_book. simpl. rewrite app_length. simpl. lia.
Qed.

(** more fuel does not change the answer *)
Lemma loop_more_fuel : forall f g s r, (f <= g)%nat -> loop f s = Some r -> loop g s = Some r.
Proof.
  induction f as [|f IH]; intros g s r L; destruct g; try lia; cbn [TrustRegionModel.loop];
    destruct (finalize s) as [s1 go]; destruct go; try discriminate; auto.
  destruct (body s1) as [s2 go2]; destruct go2; auto. apply IH; lia.
Qed.

Lemma start_counts : forall st p0 x c j g, counts (start_state E Op st p0 x c j g).
Proof.
  intros. split; simpl; auto.
  - intros n L. simpl in L. lia.
  - lia.
Qed.

(** ** Best point (C23) *)
Lemma dlt_trans : forall a b c, dlt a b = true -> dlt b c = true -> dlt a c = true.
Proof. intros [| | |] [| | |] [| | |]; simpl; try congruence; auto. rewrite !Z.ltb_lt. lia. Qed.

Definition best (p0 : pt E) (p : pt E) (m : dbl) (acc : list (pt E * dbl)) : Prop :=
  (m = DBL_MAX /\ p = p0 /\ forall y d, In (y, d) acc -> dlt d DBL_MAX = false) \/
  (In (p, m) acc /\ dlt m DBL_MAX = true /\ forall y d, In (y, d) acc -> dlt d m = false).

Lemma best_snoc : forall p0 p m acc x c, best p0 p m acc ->
  best p0 (if dlt c m then x else p) (if dlt c m then c else m) (acc ++ [(x, c)]).
Proof.
  intros p0 p m acc x c [(-> & -> & A)|(I & M & A)]; destruct (dlt c _) eqn:L.
  - right. split; [apply in_app_iff; right; left; auto|]. split; auto.
    intros y d Y. apply in_app_iff in Y. destruct Y as [Y|[Y|[]]].
    + destruct (dlt d c) eqn:X; auto. rewrite <- (A y d Y). symmetry. eapply dlt_trans; eauto.
    + inversion Y; subst. destruct d; simpl; auto. apply Z.ltb_irrefl.
  - left. split; auto. split; auto. intros y d Y. apply in_app_iff in Y. destruct Y as [Y|[Y|[]]]; eauto.
    inversion Y; subst; auto.
  - right. split; [apply in_app_iff; right; left; auto|]. split; [eapply dlt_trans; eauto|].
    intros y d Y. apply in_app_iff in Y. destruct Y as [Y|[Y|[]]].
    + destruct (dlt d c) eqn:X; auto. rewrite <- (A y d Y). symmetry. eapply dlt_trans; eauto.
    + inversion Y; subst. destruct d; simpl; auto. apply Z.ltb_irrefl.
  - right. split; [apply in_app_iff; auto|]. split; auto.
    intros y d Y. apply in_app_iff in Y. destruct Y as [Y|[Y|[]]]; eauto. inversion Y; subst; auto.
Qed.

(** the cost recorded with an accepted point is the one evaluated there *)
Definition evaluated (acc : list (pt E * dbl)) : Prop :=
  forall y d, In (y, d) acc -> exists j, ev_jac E y = Some (d, j).

Lemma evaluate_gradient_jac : forall y c j g, evaluate_gradient E y = Some (c, j, g) -> ev_jac E y = Some (c, j).
Proof.
  intros y c j g. unfold evaluate_gradient. destruct (ev_jac E y) as [[c' j']|]; [|discriminate].
  destruct (ev_plus E y _) as [[] z]; [|discriminate]. intros X; inversion X; auto.
Qed.

Record bestinv (p0 x0 : pt E) (s : state) : Prop := {
  bi_best : best p0 (s_params E s) (s_min E s) (s_accepted E s);
  bi_ev : evaluated (s_accepted E s);
  bi_cur : ev_jac E (s_x E s) = Some (s_xcost E s, s_jac E s);
  bi_first : match s_accepted E s with [] => s_x E s = x0 /\ is_successful (s_cur E s) = true | (y, _) :: _ => y = x0 end }.

Lemma finalize_best : forall p0 x0 s s1 go, bestinv p0 x0 s -> finalize s = (s1, go) ->
  bestinv p0 x0 s1 /\ s_accepted E s1 <> [].
Proof.
  intros p0 x0 s s1 go [B V C F] H. destruct (finalize_shape s s1 go H) as (t & -> & _ & _).
  unfold finalize_book. destruct (is_successful (s_cur E s)) eqn:K; simpl.
  - split; [split; simpl|].
    + apply best_snoc; auto.
    + intros y d Y. apply in_app_iff in Y. destruct Y as [Y|[Y|[]]]; [eauto|].
      inversion Y; subst. eauto.
    + auto.
    + destruct (s_accepted E s) as [|[y d] r]; simpl; auto. apply F.
    + destruct (s_accepted E s); simpl; discriminate.
  - split; [split; simpl; auto|].
    destruct (s_accepted E s) as [|[y d] r]; [destruct F; discriminate|discriminate].
Qed.

Definition bestend (p0 x0 : pt E) (s : state) : Prop :=
  best p0 (s_params E s) (s_min E s) (s_accepted E s) /\ evaluated (s_accepted E s) /\
  exists c r, s_accepted E s = (x0, c) :: r.

Lemma first_end : forall p0 x0 s, bestinv p0 x0 s -> s_accepted E s <> [] -> bestend p0 x0 s.
Proof.
  intros p0 x0 s [B V C F] N. split; auto. split; auto.
  destruct (s_accepted E s) as [|[y d] r]; [congruence|]. subst. eauto.
Qed.

Lemma loop_best : forall p0 x0 fuel s r, bestinv p0 x0 s -> loop fuel s = Some r -> bestend p0 x0 r.
Proof.
  intros p0 x0. apply (loop_inv (bestinv p0 x0) (bestend p0 x0)).
  - intros s s1 B F. destruct (finalize_best _ _ _ _ _ B F). apply first_end; auto.
  - intros s s1 s2 B F H. destruct (finalize_best _ _ _ _ _ B F) as [[B1 V1 C1 F1] N1].
    assert (G : s_accepted E s2 = s_accepted E s1 ->
      match s_accepted E s2 with [] => s_x E s2 = x0 /\ is_successful (s_cur E s2) = true | (y, _) :: _ => y = x0 end).
    { intros ->. destruct (s_accepted E s1) as [|[yy d'] r]; auto. congruence. }
    apply body_cases in H. inversion H; subst.
    + split; [| | |apply G; auto]; repeat match goal with X : ?l = _ |- context [?l] => rewrite X end; auto.
    + match goal with Z : _ \/ _ |- _ => destruct Z as [X|[X|[X|X]]] end; try (destruct X; discriminate).
      * destruct X as (_ & _ & xc & j & g & X). decompose [and] X. split; [| | |apply G; auto];
          repeat match goal with X : ?l = _ |- context [?l] => rewrite X end; auto.
        eapply evaluate_gradient_jac; eauto.
      * decompose [and] X. split; [| | |apply G; auto]; repeat match goal with X : ?l = _ |- context [?l] => rewrite X end; auto.
  - intros s s1 s2 B F H. destruct (finalize_best _ _ _ _ _ B F) as [B1 N1].
    destruct (first_end _ _ _ B1 N1) as (P1 & P2 & P3).
    apply body_cases in H. inversion H; subst; unfold bestend;
    repeat match goal with X : _ E s2 = _ E s1 |- _ => rewrite X; clear X end; auto.
Qed.

End P.
