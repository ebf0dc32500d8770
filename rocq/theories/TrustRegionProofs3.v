(** Trust region loop: reported costs (C25) and termination types (C57). *)
Require Import List ZArith Bool Lia.
From Verif Require Import Dbl DblArith DblArithProofs TrustRegionModel TrustRegionSpec TrustRegionProofs TrustRegionProofs2.
Import ListNotations.
Open Scope Z_scope.
Opaque dz DBL_MAX.

(** ** Minimum of a list of doubles *)
Lemma dmin_cases : forall a b, (dmin a b = a /\ dlt b a = false) \/ (dmin a b = b /\ dlt b a = true).
Proof. intros. unfold dmin. destruct (dlt b a); auto. Qed.

Lemma dmin_nan : forall a b, a <> NaN -> b <> NaN -> dmin a b <> NaN.
Proof. intros. unfold dmin. destruct (dlt b a); auto. Qed.

Lemma final_cost_min : forall its init,
  init <> NaN -> (forall i, In i its -> is_cost i <> NaN) ->
  (final_cost init its = init \/ exists i, In i its /\ is_cost i = final_cost init its) /\
  leq (final_cost init its) init /\
  (forall i, In i its -> leq (final_cost init its) (is_cost i)).
Proof.
  unfold final_cost. induction its as [|i its IH]; intros init Ni Na.
  - simpl. split; auto. split; [apply leq_refl|]. intros i [].
  - simpl. assert (Nc : is_cost i <> NaN) by (apply Na; left; auto).
    destruct (IH (dmin (is_cost i) init)) as (A & B & C).
    { apply dmin_nan; auto. } { intros j J; apply Na; right; auto. }
    destruct (dmin_cases (is_cost i) init) as [[D L]|[D L]]; rewrite D in *.
    + assert (leq (is_cost i) init) by (apply nlt_leq; auto).
      split; [|split].
      * right. destruct A as [A|(j & J & A)]; [exists i; split; [left; auto|congruence]|exists j; split; [right; auto|auto]].
      * eapply leq_trans; eauto.
      * intros j [<-|J]; auto.
    + split; [|split]; auto.
      * destruct A as [A|(j & J & A)]; auto. right. exists j. split; [right; auto|auto].
      * intros j [<-|J]; auto. eapply leq_trans; [exact B|]. right; auto.
Qed.

Lemma leq_antisym_nlt : forall a b, leq a b -> dlt a b = false -> a = b.
Proof. intros a b [->|A] B; auto. congruence. Qed.

Lemma dadd_leq : forall a b z, leq a b -> a <> NaN -> b <> NaN -> leq (dadd a (Fin z)) (dadd b (Fin z)).
Proof.
  intros a b z [->|L] Na Nb; [apply leq_refl|].
  assert (N : forall a, a <> NaN -> dadd a (Fin z) <> NaN).
  { intros [| | x |] N; cbn [dadd]; try discriminate; auto. apply rnd_not_nan. }
  pose proof (dadd_mono a b (Fin z) ltac:(discriminate) (dlt_le _ _ L) (N a Na) (N b Nb)) as M.
  destruct (dlt (dadd b (Fin z)) (dadd a (Fin z))) eqn:X.
  - exfalso. destruct (dadd a (Fin z)), (dadd b (Fin z)); simpl in *; try discriminate.
    rewrite Z.leb_le in M. rewrite Z.ltb_lt in X. lia.
  - apply nlt_leq; auto.
Qed.

Section P.
Variable E : tr_env.
Variable Op : tr_options.
Notation state := (state E).
Notation finalize := (finalize E Op).
Notation body := (body E Op).
Notation loop := (loop E Op).

(** accepted points, including the one about to be finalised *)
Definition pend (s : state) : list (pt E * dbl) := s_accepted E (finalize_book E s).

(** each reported cost is that of an accepted point, unless the step was valid and rejected;
    each accepted point's cost is reported *)
Definition reported (its : list iter_summary) (acc : list (pt E * dbl)) : Prop :=
  (forall i, In i its -> (is_successful i = false /\ is_valid i = true) \/
      exists y d, In (y, d) acc /\ is_cost i = dadd d (o_fixed Op)) /\
  (forall y d, In (y, d) acc -> exists i, In i its /\ is_cost i = dadd d (o_fixed Op)).

Record repinv (s : state) : Prop := {
  ri_rep : reported (s_iters E s) (s_accepted E s);
  ri_last : exists l, pend s = l ++ [(s_x E s, s_xcost E s)];
  ri_once : s_once E s = true -> (2 <= length (pend s))%nat;
  ri_cur : (is_successful (s_cur E s) = false /\ is_valid (s_cur E s) = true) \/
           is_cost (s_cur E s) = dadd (s_xcost E s) (o_fixed Op);
  ri_succ : is_successful (s_cur E s) = true -> is_cost (s_cur E s) = dadd (s_xcost E s) (o_fixed Op) /\
            evaluate_gradient E (s_x E s) = Some (s_xcost E s, s_jac E s, is_gmax (s_cur E s)) }.

Lemma finalize_reported : forall s, repinv s ->
  reported (s_iters E (finalize_book E s)) (s_accepted E (finalize_book E s)).
Proof.
  intros s [[R1 R2] [l L] O C S].
  unfold pend in L.
  assert (I : In (s_x E s, s_xcost E s) (s_accepted E (finalize_book E s))).
  { rewrite L. apply in_app_iff; right; left; auto. }
  assert (Sub : forall p, In p (s_accepted E s) -> In p (s_accepted E (finalize_book E s))).
  { intros p P. unfold finalize_book. simpl. destruct (is_successful (s_cur E s)); auto. apply in_app_iff; auto. }
  split.
  - intros i J. unfold finalize_book in J. simpl in J. apply in_app_iff in J. destruct J as [J|[J|[]]].
    + destruct (R1 i J) as [X|(y & d & Y & X)]; auto. right. exists y, d. auto.
    + subst i. simpl. destruct C as [C|C]; auto. right. eauto.
  - intros y d D. unfold finalize_book in D |- *. simpl in *.
    destruct (is_successful (s_cur E s)) eqn:K.
    + apply in_app_iff in D. destruct D as [D|[D|[]]].
      * destruct (R2 y d D) as (i & A & B). exists i. split; auto. apply in_app_iff; auto.
      * inversion D; subst. eexists. split; [apply in_app_iff; right; left; reflexivity|]. simpl. apply S; auto.
    + destruct (R2 y d D) as (i & A & B). exists i. split; auto. apply in_app_iff; auto.
Qed.

Lemma body_rep : forall s s1 s2, repinv s -> finalize s = (s1, true) -> body s1 = (s2, true) -> repinv s2.
Proof.
  intros s s1 s2 R F B.
  pose proof (finalize_reported s R) as Rep. destruct R as [_ [l L] O C S].
  destruct (finalize_shape E Op s s1 true F) as (t & -> & _ & _).
  set (s1 := set_term E (finalize_book E s) t) in *.
  assert (A1 : s_accepted E s1 = pend s) by reflexivity.
  assert (X1 : s_x E s1 = s_x E s) by reflexivity.
  assert (C1 : s_xcost E s1 = s_xcost E s) by reflexivity.
  assert (O1 : s_once E s1 = s_once E s) by reflexivity.
  change (reported (s_iters E s1) (s_accepted E s1)) in Rep.
  clearbody s1.
  assert (NB : forall s2, is_successful (s_cur E s2) = false -> s_accepted E s2 = s_accepted E s1 ->
               pend s2 = pend s).
  { intros s' K Ac. unfold pend at 1, finalize_book. simpl. rewrite K. congruence. }
  apply body_cases in B. inversion B; subst.
  - split.
    + congruence.
    + rewrite (NB s2) by auto. exists l. congruence.
    + rewrite (NB s2) by auto. intros X. apply O. congruence.
    + right. congruence.
    + congruence.
  - match goal with Z : _ \/ _ |- _ => destruct Z as [X|[X|[X|X]]] end; try (destruct X; discriminate).
    + destruct X as (_ & Ac & xc & j & g & X). decompose [and] X. clear X.
      assert (Pd : pend s2 = pend s ++ [(s_x E s2, s_xcost E s2)]).
      { unfold pend at 1, finalize_book. simpl.
        match goal with X : is_successful _ = true |- _ => rewrite X end. congruence. }
      split.
      * congruence.
      * eauto.
      * rewrite Pd, L, !app_length. simpl. lia.
      * right. congruence.
      * intros _. split; congruence.
    + decompose [and] X. clear X. split.
      * congruence.
      * rewrite (NB s2) by auto. exists l. congruence.
      * rewrite (NB s2) by auto. intros X. apply O. congruence.
      * left. auto.
      * congruence.
Qed.

Lemma loop_reported : forall fuel s r, repinv s -> loop fuel s = Some r -> reported (s_iters E r) (s_accepted E r).
Proof.
  apply (loop_inv E Op repinv (fun r => reported (s_iters E r) (s_accepted E r))).
  - intros s s1 R F. pose proof (finalize_reported s R) as Rep.
    destruct (finalize_shape E Op s s1 false F) as (t & -> & _ & _). exact Rep.
  - apply body_rep.
  - intros s s1 s2 R F B. pose proof (finalize_reported s R) as Rep.
    destruct (finalize_shape E Op s s1 true F) as (t & -> & _ & _).
    apply body_cases in B. inversion B; subst;
    repeat match goal with X : _ E s2 = _ E _ |- _ => rewrite X; clear X end; exact Rep.
Qed.

(** ** Why the loop stopped *)
Definition why (r : state) : Prop :=
  exists i its l x xc, s_iters E r = its ++ [i] /\ s_accepted E r = l ++ [(x, xc)] /\
  match s_term E r with
  | USER_SUCCESS => run_callbacks E (callbacks E) (s_iters E r) (s_params E r) = SOLVER_TERMINATE_SUCCESSFULLY
  | USER_FAILURE => run_callbacks E (callbacks E) (s_iters E r) (s_params E r) = SOLVER_ABORT
  | NO_CONVERGENCE => time_up E (is_iteration i) = true \/ o_max_iter Op <= is_iteration i
  | CONVERGENCE =>
      (is_successful i = true /\ dlt (o_gtol Op) (is_gmax i) = false /\
         exists j y, ev_jac E x = Some (xc, j) /\ ev_plus E x (neg_gradient E j) = (true, y) /\ is_gmax i = max_dist E x y) \/
      dlt (o_min_radius Op) (is_radius i) = false \/
      (l <> [] /\ exists y, dlt (dmul (o_ptol Op) (dadd (norm E x) (o_ptol Op))) (dist E x y) = false) \/
      (exists y c, (dle DBL_MAX c = true \/ ev_cost E y = Some c) /\
         dlt (dmul (o_ftol Op) xc) (dabs (dsub xc c)) = false)
  | FAILURE => True
  end.

Lemma evaluate_gradient_inv : forall y c j g, evaluate_gradient E y = Some (c, j, g) ->
  ev_jac E y = Some (c, j) /\ exists z, ev_plus E y (neg_gradient E j) = (true, z) /\ g = max_dist E y z.
Proof.
  intros y c j g. unfold evaluate_gradient. destruct (ev_jac E y) as [[c' j']|]; [|discriminate].
  destruct (ev_plus E y (neg_gradient E j')) as [[] z] eqn:P; [|discriminate].
  intros X; inversion X; subst. split; auto. eauto.
Qed.

Lemma finalize_why : forall s s1, repinv s -> finalize s = (s1, false) -> why s1.
Proof.
  intros s s1 [R [l L] O C S] F. unfold TrustRegionModel.finalize in F.
  set (b := finalize_book E s) in *.
  assert (Ib : s_iters E b = s_iters E s ++ [s_cur E b]) by reflexivity.
  assert (Ab : s_accepted E b = l ++ [(s_x E s, s_xcost E s)]) by (exact L).
  assert (Gb : is_successful (s_cur E b) = is_successful (s_cur E s)) by reflexivity.
  assert (Mb : is_gmax (s_cur E b) = is_gmax (s_cur E s)) by reflexivity.
  clearbody b.
  exists (s_cur E b), (s_iters E s), l, (s_x E s), (s_xcost E s).
  destruct (run_callbacks E (callbacks E) (s_iters E b) (s_params E b)) eqn:Rc;
    [|inversion F; subst s1; simpl; auto..].
  destruct (time_up E (is_iteration (s_cur E b))) eqn:Tu; [inversion F; subst s1; simpl; auto|].
  destruct (negb (is_iteration (s_cur E b) <? o_max_iter Op)) eqn:Mi.
  { inversion F; subst s1; simpl. split; auto. split; auto. right.
    apply negb_true_iff, Z.ltb_ge in Mi. lia. }
  destruct (gradient_tolerance_reached Op (s_cur E b)) eqn:Gt.
  { inversion F; subst s1; simpl. split; auto. split; auto. left.
    unfold gradient_tolerance_reached in Gt. apply negb_true_iff, orb_false_iff in Gt.
    destruct Gt as [G1 G2]. apply negb_false_iff in G1. split; auto. split; auto.
    destruct (S ltac:(congruence)) as [_ Ev]. apply evaluate_gradient_inv in Ev.
    destruct Ev as [Ev (z & P & G)]. exists (s_jac E s), z. repeat split; auto. congruence. }
  destruct (min_radius_reached Op (s_cur E b)) eqn:Rr.
  { inversion F; subst s1; simpl. split; auto. split; auto. right; left.
    apply negb_true_iff in Rr. auto. }
  discriminate.
Qed.

Lemma inner_cost : forall k xc on y0 c0 mcc0 t1 y c mcc on' useful t2,
  dle DBL_MAX c0 = true \/ ev_cost E y0 = Some c0 ->
  do_inner E Op k xc on y0 c0 mcc0 t1 = (y, c, mcc, on', useful, t2) ->
  dle DBL_MAX c = true \/ ev_cost E y = Some c.
Proof.
  intros until t2. intros C D. unfold do_inner in D.
  destruct (negb on || dle DBL_MAX c0); [inversion D; subst; auto|].
  destruct (ev_cost E (inner E k y0)) eqn:X; inversion D; subst; auto.
Qed.

Lemma loop_why : forall fuel s r, repinv s -> loop fuel s = Some r -> why r.
Proof.
  apply (loop_inv E Op repinv why).
  - apply finalize_why.
  - apply body_rep.
  - intros s s1 s2 R F B. destruct R as [_ [l L] O C S].
    destruct (finalize_shape E Op s s1 true F) as (t & -> & _ & _).
    set (s1 := set_term E (finalize_book E s) t) in *.
    assert (A1 : s_accepted E s1 = l ++ [(s_x E s, s_xcost E s)]) by exact L.
    assert (I1 : s_iters E s1 = s_iters E s ++ [s_cur E s1]) by reflexivity.
    assert (X1 : s_x E s1 = s_x E s) by reflexivity.
    assert (C1 : s_xcost E s1 = s_xcost E s) by reflexivity.
    assert (O1 : s_once E s1 = s_once E s) by reflexivity.
    clearbody s1.
    exists (s_cur E s1), (s_iters E s), l, (s_x E s), (s_xcost E s).
    apply body_cases in B. inversion B; subst.
    + split; [congruence|]. split; [congruence|].
      match goal with X : s_term E s2 = _ |- _ => rewrite X end. auto.
    + split; [congruence|]. split; [congruence|].
      match goal with Z : _ \/ _ |- _ => destruct Z as [X|[X|[X|X]]] end; try (destruct X; discriminate).
      * decompose [and] X. clear X.
        match goal with X : s_term E s2 = _ |- _ => rewrite X end.
        match goal with Z : _ /\ _ \/ _ |- _ => destruct Z as [[X Y]|X] end.
        -- right; right; left. split.
           ++ rewrite O1 in X. specialize (O X). rewrite L in O. intros ->. simpl in O. lia.
           ++ exists y. unfold parameter_tolerance_reached in Y. apply negb_true_iff in Y. congruence.
        -- right; right; right. exists y, c. split.
           ++ eapply inner_cost; [eapply candidate_cost; eauto|eauto].
           ++ unfold function_tolerance_reached in X. apply negb_true_iff in X. congruence.
      * decompose [and] X. match goal with X : s_term E s2 = _ |- _ => rewrite X end. auto.
Qed.

Lemma start_rep : forall st p0 x c j g, evaluate_gradient E x = Some (c, j, g) ->
  repinv (start_state E Op st p0 x c j g).
Proof.
  intros. split; simpl; auto.
  - split; [intros i []|intros y d []].
  - exists []. reflexivity.
  - discriminate.
Qed.
End P.
