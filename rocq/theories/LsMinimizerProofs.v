(** Proofs about the line search minimizer. *)
Require Import List ZArith Bool Lia.
From Verif Require Import Dbl DblArith DblArithProofs DblArithProofs2 LineSearchModel LineSearchSpec LineSearchProofs LineSearchProofs2
  LineSearchProps LsMinimizerModel LsMinimizerSpec.
Import ListNotations.
Open Scope Z_scope.

Section P.
Variable M : lm_env.
Variable Op : lm_options.
Notation E := (lm_ls M).
Hypothesis SC : sane_costs M.

Definition invar (s : state M) : Prop :=
  eval E (st_x M s) true = Some (st_cost M s, st_grad M s) /\ is_fin (st_cost M s) = true.

(** the result of a successful search, without assumptions on the direction *)
Definition from_start (o : sample E) (s : state M) : Prop :=
  fs_vector_x E o = Some (st_x M s) /\ fs_value E o = st_cost M s /\ fs_vector_gradient E o = None.
Definition from_eval (o : sample E) : Prop :=
  exists y g gr, fs_vector_x E o = Some y /\ eval E y g = Some (fs_value E o, gr) /\ is_fin (fs_value E o) = true /\
    (fs_vector_gradient E o = None \/ (g = true /\ fs_vector_gradient E o = Some gr)).

Lemma evaluated_from_eval x d g o : evaluated E x d g o -> from_eval o.
Proof.
  intros (_ & y & gr & _ & H1 & H2 & H3 & H4 & H5). exists y, g, gr. split; [auto|split; [auto|split; [auto|]]].
  destruct g; [|left; auto]. destruct (H4 eq_refl) as (_ & _ & ->). destruct (is_fin (dot E d gr)); auto.
Qed.

Lemma search_result lf s d dd step r : invar s -> search M Op lf (st_x M s) d (st_cost M s) dd step = Done r ->
  su_success E r = true -> from_start (su_optimal E r) s \/ from_eval (su_optimal E r).
Proof.
  intros [He Hf] H Hs. unfold search in H. destruct (mo_type Op).
  - right. apply armijo_search_good in H. destruct H as (_ & _ & _ & _ & H). destruct (H Hs) as (H1 & _).
    eapply evaluated_from_eval; eauto.
  - apply wolfe_search_good in H; auto. 2: eapply (proj1 SC); eauto.
    destruct H as (_ & _ & _ & _ & _ & H). destruct (H Hs) as (H1 & _). destruct H1 as [H1|H1].
    + left. rewrite H1. split; [reflexivity|split; reflexivity].
    + right. eapply evaluated_from_eval; eauto.
Qed.

(** the state after a successful search: the cost recorded is that of the sample, at the sample's point *)
Lemma at_optimum_ok o s y tr c g tr' : invar s -> from_start o s \/ from_eval o -> fs_vector_x E o = Some y ->
  at_optimum M o y tr = (Some (c, g), tr') ->
  eval E y true = Some (c, g) /\ c = fs_value E o /\ is_fin c = true.
Proof.
  intros [He Hf] Ho Hy. unfold at_optimum. destruct Ho as [(H1 & H2 & H3)|(y' & b & gr & H1 & H2 & H3 & H4)].
  - rewrite H3. rewrite H1 in Hy. injection Hy as <-. intros Heq. injection Heq as Heq _.
    rewrite He in Heq. injection Heq as <- <-. split; [exact He|split; [auto|exact Hf]].
  - rewrite H1 in Hy. injection Hy as ->. destruct H4 as [H4|[-> H4]]; rewrite H4; intros Heq; [injection Heq as Heq _|].
    + assert (Hc : c = fs_value E o).
      { destruct b; [rewrite Heq in H2; congruence|]. eapply (proj2 SC); eauto. }
      split; [exact Heq|split; [exact Hc|rewrite Hc; exact H3]].
    + injection Heq as <- <- _. auto.
Qed.

(** a generic induction principle for the loop: [P] holds of the states at the head of the loop; [Q] of the results *)
Lemma lm_loop_ind (P : Z -> state M -> Prop) (Q : result M -> Prop) lf :
  (forall k s, P k s -> invar s) ->
  (forall k s t tr, P k s ->
     (t = USER_SUCCESS \/ t = USER_FAILURE ->
        tr = st_trace M s /\ run_callbacks M (lm_callbacks M) (st_iters M s) (st_x M s) =
          (if match t with USER_SUCCESS => true | _ => false end then SOLVER_TERMINATE_SUCCESSFULLY else SOLVER_ABORT)) ->
     (t = NO_CONVERGENCE -> tr = st_trace M s /\ (mo_max_iter Op <= k \/ lm_time_up M k = true)) -> t <> CONVERGENCE ->
     (t = FAILURE -> tr = st_trace M s \/
        exists d status rs dd r, choose_direction M Op (k + 1) s = Some (d, status, rs) /\ dd = dot E (st_grad M s) d /\
          search M Op lf (st_x M s) d (st_cost M s) dd (initial_step M (k + 1) status s dd) = Done r /\
          (tr = st_trace M s ++ map (fun y => (y, true)) (su_points E r) \/
           exists y, su_success E r = true /\ fs_vector_x E (su_optimal E r) = Some y /\
             tr = snd (at_optimum M (su_optimal E r) y (st_trace M s ++ map (fun y => (y, true)) (su_points E r))))) ->
     Q (mkRes M t (st_x M s) (st_iters M s) tr)) ->
  (forall k s d status rs dd step r y c g gmax tr,
     P k s -> k < mo_max_iter Op ->
     choose_direction M Op (k + 1) s = Some (d, status, rs) -> dd = dot E (st_grad M s) d ->
     step = initial_step M (k + 1) status s dd -> dlt step (Fin 0) = false ->
     search M Op lf (st_x M s) d (st_cost M s) dd step = Done r -> su_success E r = true ->
     fs_vector_x E (su_optimal E r) = Some y ->
     at_optimum M (su_optimal E r) y (st_trace M s ++ map (fun y => (y, true)) (su_points E r)) = (Some (c, g), tr) ->
     gradient_norm M y g = Some gmax ->
     eval E y true = Some (c, g) -> c = fs_value E (su_optimal E r) -> is_fin c = true ->
     let it := mkIt (k + 1) (dadd c (mo_fixed Op)) (dsub (st_cost M s) c) gmax (pdist M y (st_x M s)) (fs_x E (su_optimal E r)) in
     let s' := mkSt M y c g gmax (st_cost M s) rs (st_iters M s ++ [it]) tr in
     P (k + 1) s' /\ (converged Op it (pnorm M (st_x M s)) (st_cost M s) = true -> Q (mkRes M CONVERGENCE y (st_iters M s') tr))) ->
  forall fuel k s r, P k s -> lm_loop M Op fuel lf k s = Done r -> Q r.
Proof.
  intros HPI HQ HS. induction fuel as [|f IH]; intros k s r HP H; cbn [lm_loop] in H; cbv zeta in H;
    (destruct (run_callbacks _ _ _ _) eqn:Ecb;
     [ | injection H as <-; eapply HQ; eauto; try discriminate; intros [Q1|Q1]; try discriminate; auto
       | injection H as <-; eapply HQ; eauto; try discriminate; intros [Q1|Q1]; try discriminate; auto ]);
    (destruct (mo_max_iter Op <=? k) eqn:Ek;
     [ injection H as <-; eapply HQ; eauto; try discriminate; [intros [Q1|Q1]; discriminate|intros _; split; [reflexivity|left; lia]] |]);
    (destruct (lm_time_up M k) eqn:Et;
     [ injection H as <-; eapply HQ; eauto; try discriminate; intros [Q1|Q1]; discriminate |]); [discriminate|].
  assert (Hfail : forall tr, (tr = st_trace M s \/
        exists d status rs dd r, choose_direction M Op (k + 1) s = Some (d, status, rs) /\ dd = dot E (st_grad M s) d /\
          search M Op lf (st_x M s) d (st_cost M s) dd (initial_step M (k + 1) status s dd) = Done r /\
          (tr = st_trace M s ++ map (fun y => (y, true)) (su_points E r) \/
           exists y, su_success E r = true /\ fs_vector_x E (su_optimal E r) = Some y /\
             tr = snd (at_optimum M (su_optimal E r) y (st_trace M s ++ map (fun y => (y, true)) (su_points E r))))) ->
     Q (mkRes M FAILURE (st_x M s) (st_iters M s) tr)).
  { intros tr Htr. eapply HQ; eauto; try discriminate. intros [Q1|Q1]; discriminate. }
  destruct (choose_direction M Op (k + 1) s) as [[[d status] rs]|] eqn:Ed.
  2: { injection H as <-. apply Hfail. auto. }
  destruct (dlt (initial_step M (k + 1) status s (dot E (st_grad M s) d)) (Fin 0)) eqn:El.
  { injection H as <-. apply Hfail. auto. }
  destruct (search _ _ _ _ _ _ _ _) as [sm| |] eqn:Es; [|discriminate|discriminate].
  destruct (su_success E sm) eqn:Eok; cbn [negb] in H.
  2: { injection H as <-. apply Hfail. right. do 5 eexists. split; [reflexivity|split; [reflexivity|split; [exact Es|]]]. auto. }
  destruct (fs_vector_x E (su_optimal E sm)) as [y|] eqn:Ey; [|discriminate].
  destruct (at_optimum M (su_optimal E sm) y _) as [[[c g]|] tr] eqn:Eo.
  2: { injection H as <-. apply Hfail. right. do 5 eexists. split; [reflexivity|split; [reflexivity|split; [exact Es|]]].
       right. exists y. split; [auto|split; [auto|]]. rewrite Eo. reflexivity. }
  destruct (gradient_norm M y g) as [gmax|] eqn:Eg.
  2: { injection H as <-. apply Hfail. right. do 5 eexists. split; [reflexivity|split; [reflexivity|split; [exact Es|]]].
       right. exists y. split; [auto|split; [auto|]]. rewrite Eo. reflexivity. }
  pose proof (search_result _ _ _ _ _ _ (HPI _ _ HP) Es Eok) as Hr.
  destruct (at_optimum_ok _ _ _ _ _ _ _ (HPI _ _ HP) Hr Ey Eo) as (A1 & A2 & A3).
  assert (Hk : k < mo_max_iter Op) by lia.
  pose proof (HS k s d status rs _ _ sm y c g gmax tr HP Hk Ed eq_refl eq_refl El Es Eok Ey Eo Eg A1 A2 A3) as [HP' HQ'].
  destruct (converged _ _ _ _) eqn:Ec.
  - injection H as <-. apply HQ'. reflexivity.
  - eapply IH; eauto.
Qed.
End P.
