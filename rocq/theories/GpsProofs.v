(** The solver's loop with the user's array simulates the loop of C35. *)
Require Import List ZArith Bool Lia.
From Verif Require Import Dbl DblArith DblArithProofs DblArithProofs2 LineSearchModel LineSearchSpec LsMinimizerModel LsMinimizerSpec
  LsMinimizerProofs LsMinimizerProps GpsModel GpsSpec.
Import ListNotations.
Open Scope Z_scope.

Lemma successful_snoc its it : step_is_successful (its ++ [it]) = (0 <? it_number it).
Proof. unfold step_is_successful. rewrite rev_app_distr. reflexivity. Qed.

Section Sim.
Variable P : gradient_problem.
Variable W : operations P.
Variable o : goptions.
Variable users : list (list iter -> point P -> cb_status).
Variable x0 : point P.

(** what is in the user's array when the callbacks are called at x *)
Definition shown (x : point P) : point P := if update_state_every_iteration o then x else x0.
(** the user's callbacks, as functions of the iterate *)
Definition pure : list (list iter -> point P -> cb_status) := map (fun f its x => f its (shown x)) users.
Notation M := (environment P W []).
Notation M' := (environment P W pure).

Definition conv_state (s : state M) : state M' :=
  mkSt M' (st_x M s) (st_cost M s) (st_grad M s) (st_gmax M s) (st_prev_cost M s) (st_restarts M s) (st_iters M s) (st_trace M s).
Definition conv_result (r : result M) : result M' := mkRes M' (r_term M r) (r_x M r) (r_iters M r) (r_trace M r).
Definition conv (r : outcome (result M * memory (point P))) : outcome (result M') :=
  match r with Done (r, _) => Done (conv_result r) | Aborted => Aborted | Looping => Looping end.

(** what the callbacks have seen is right *)
Definition seen_ok (l : list (list iter * point P * point P)) : Prop := forall its x u, In (its, x, u) l -> u = shown x.

Lemma run_users its x us m : user m = shown x -> seen_ok (seen m) ->
  exists m', RunCallbacks (map User us) its x m = (run_callbacks M' (map (fun f its x => f its (shown x)) us) its x, m') /\
    user m' = shown x /\ seen_ok (seen m') /\ exists l, seen m' = seen m ++ l /\ forall e, In e l -> fst e = (its, x).
Proof.
  revert m. induction us as [|f us IH]; intros m Hu Hs.
  - exists m. split; [reflexivity|split; [exact Hu|split; [exact Hs|]]]. exists []. split; [now rewrite app_nil_r|intros ? []].
  - cbn [map RunCallbacks run_callbacks]. rewrite Hu.
    set (m1 := mkMem (shown x) (seen m ++ [(its, x, shown x)])).
    assert (Hs1 : seen_ok (seen m1)).
    { intros a b c Hin. cbn [m1 seen] in Hin. apply in_app_or in Hin. destruct Hin as [Hin|[Hin|[]]]; [exact (Hs a b c Hin)|congruence]. }
    destruct (f its (shown x)).
    + destruct (IH m1 eq_refl Hs1) as (m' & E1 & E2 & E3 & l & E4 & E5). exists m'. split; [exact E1|split; [exact E2|split; [exact E3|]]].
      exists ((its, x, shown x) :: l). split.
      * rewrite E4. cbn [m1 seen]. rewrite <- app_assoc. reflexivity.
      * intros e [<-|He]; [reflexivity|exact (E5 e He)].
    + exists m1. split; [reflexivity|split; [reflexivity|split; [exact Hs1|]]]. exists [(its, x, shown x)]. split; [reflexivity|].
      intros e [<-|[]]. reflexivity.
    + exists m1. split; [reflexivity|split; [reflexivity|split; [exact Hs1|]]]. exists [(its, x, shown x)]. split; [reflexivity|].
      intros e [<-|[]]. reflexivity.
Qed.

(** the user's array before the callbacks are called *)
Definition ready (its : list iter) (x : point P) (m : memory (point P)) : Prop :=
  seen_ok (seen m) /\ (update_state_every_iteration o = false -> user m = x0) /\
  (step_is_successful its = false -> user m = x0 /\ x = x0).

Lemma run_all its x m : ready its x m ->
  exists m', RunCallbacks (callbacks o users) its x m = (run_callbacks M' pure its x, m') /\
    user m' = shown x /\ seen_ok (seen m') /\ exists l, seen m' = seen m ++ l /\ forall e, In e l -> fst e = (its, x).
Proof.
  intros (H1 & H2 & H3). unfold callbacks.
  assert (L : forall m, RunCallbacks ((if logging o then [Logging] else []) ++ map User users) its x m = RunCallbacks (map User users) its x m).
  { intro m1. destruct (logging o); reflexivity. }
  unfold pure. destruct (update_state_every_iteration o) eqn:U.
  - cbn [app RunCallbacks]. rewrite L.
    destruct (step_is_successful its) eqn:E.
    + destruct (run_users its x users (mkMem x (seen m))) as (m' & Q); [unfold shown; rewrite U; reflexivity|exact H1|]. exists m'. exact Q.
    + destruct (H3 eq_refl) as [Q1 Q2]. apply run_users; [unfold shown; rewrite U; congruence|exact H1].
  - cbn [app]. rewrite L. apply run_users; [unfold shown; rewrite U; exact (H2 eq_refl)|exact H1].
Qed.

Variable Op : lm_options.

(** what the memory is when the minimizer returns *)
Definition after (r : result M) (m : memory (point P)) : Prop :=
  seen_ok (seen m) /\ (r_term M r <> CONVERGENCE -> user m = shown (r_x M r)).

Theorem loop_sim lf : forall fuel k s m, 0 <= k -> ready (st_iters M s) (st_x M s) m ->
  lm_loop M' Op fuel lf k (conv_state s) = conv (Loop P W Op (callbacks o users) fuel lf k s m) /\
  forall r m', Loop P W Op (callbacks o users) fuel lf k s m = Done (r, m') -> after r m'.
Proof.
  induction fuel as [|f IH]; intros k s m Hk Hr; cbn [Loop lm_loop];
    destruct (run_all _ _ _ Hr) as (m1 & E1 & E2 & E3 & _); rewrite E1;
    change (lm_callbacks M') with pure; change (st_iters M' (conv_state s)) with (st_iters M s); change (st_x M' (conv_state s)) with (st_x M s);
    (assert (F : forall t r m', finish_mem P W (finish M t s) m1 = Done (r, m') -> after r m');
     [intros t r m' Q; cbn [finish_mem finish] in Q; injection Q as <- <-; split; [exact E3|intros _; exact E2]|]);
    (assert (FT : forall t tr r m', finish_mem P W (finish_trace M t s tr) m1 = Done (r, m') -> after r m');
     [intros t tr r m' Q; cbn [finish_mem finish_trace] in Q; injection Q as <- <-; split; [exact E3|intros _; exact E2]|]);
    (destruct (run_callbacks M' pure (st_iters M s) (st_x M s));
     [|split; [reflexivity|exact (F USER_FAILURE)]|split; [reflexivity|exact (F USER_SUCCESS)]]);
    (destruct (mo_max_iter Op <=? k); [split; [reflexivity|exact (F NO_CONVERGENCE)]|]);
    change (lm_time_up M' k) with (lm_time_up M k);
    (destruct (lm_time_up M k); [split; [reflexivity|exact (F NO_CONVERGENCE)]|]).
  { split; [reflexivity|discriminate]. }
  cbv zeta. change (choose_direction M' Op (k + 1) (conv_state s)) with (choose_direction M Op (k + 1) s).
  destruct (choose_direction M Op (k + 1) s) as [[[d status] restarts]|]; [|split; [reflexivity|exact (F FAILURE)]].
  change (st_grad M' (conv_state s)) with (st_grad M s). change (lm_ls M') with (lm_ls M).
  set (dd := dot (lm_ls M) (st_grad M s) d).
  change (initial_step M' (k + 1) status (conv_state s) dd) with (initial_step M (k + 1) status s dd).
  destruct (dlt (initial_step M (k + 1) status s dd) (Fin 0)); [split; [reflexivity|exact (F FAILURE)]|].
  change (st_cost M' (conv_state s)) with (st_cost M s).
  change (search M' Op lf (st_x M s) d (st_cost M s) dd (initial_step M (k + 1) status s dd))
    with (search M Op lf (st_x M s) d (st_cost M s) dd (initial_step M (k + 1) status s dd)).
  destruct (search M Op lf (st_x M s) d (st_cost M s) dd (initial_step M (k + 1) status s dd)) as [sm| |]; [|split; [reflexivity|discriminate]|split; [reflexivity|discriminate]].
  change (st_trace M' (conv_state s)) with (st_trace M s).
  destruct (negb (su_success (lm_ls M) sm)); [split; [reflexivity|exact (FT FAILURE _)]|].
  destruct (fs_vector_x (lm_ls M) (su_optimal (lm_ls M) sm)) as [y|]; [|split; [reflexivity|discriminate]].
  set (tr0 := st_trace M s ++ map (fun y => (y, true)) (su_points (lm_ls M) sm)).
  change (at_optimum M' (su_optimal (lm_ls M) sm) y tr0) with (at_optimum M (su_optimal (lm_ls M) sm) y tr0).
  destruct (at_optimum M (su_optimal (lm_ls M) sm) y tr0) as [[[cost g]|] tr]; [|split; [reflexivity|exact (FT FAILURE _)]].
  change (gradient_norm M' y g) with (gradient_norm M y g).
  destruct (gradient_norm M y g) as [gmax|]; [|split; [reflexivity|exact (FT FAILURE _)]].
  change (pdist M' y (st_x M s)) with (pdist M y (st_x M s)). change (pnorm M' (st_x M s)) with (pnorm M (st_x M s)).
  set (it := mkIt (k + 1) (dadd cost (mo_fixed Op)) (dsub (st_cost M s) cost) gmax (pdist M y (st_x M s)) (fs_x (lm_ls M) (su_optimal (lm_ls M) sm))).
  set (cv := converged Op it (pnorm M (st_x M s)) (st_cost M s)).
  match goal with |- (if ?a then _ else _) = _ /\ _ => change a with cv end. destruct cv.
  - split; [reflexivity|]. intros r m' Q. cbn [finish_mem finish] in Q. injection Q as <- <-. split; [exact E3|]. cbn [r_term]. congruence.
  - set (s' := mkSt M y cost g gmax (st_cost M s) restarts (st_iters M s ++ [it]) tr).
    apply (IH (k + 1) s' m1); [lia|]. split; [exact E3|]. split.
    + intro U. rewrite E2. unfold shown. rewrite U. reflexivity.
    + cbn [s' st_iters]. rewrite successful_snoc. cbn [it it_number]. intro Q. apply Z.ltb_ge in Q. lia.
Qed.

Theorem minimize_sim fuel lf :
  minimize M' Op fuel lf x0 = conv (fst (Minimize P W Op (callbacks o users) fuel lf x0 (mkMem x0 []))) /\
  forall r m', fst (Minimize P W Op (callbacks o users) fuel lf x0 (mkMem x0 [])) = Done (r, m') -> after r m'.
Proof.
  assert (A : forall t tr r m', Done (mkRes M t x0 [] tr, mkMem x0 []) = Done (r, m') -> after r m').
  { intros t tr r m' Q. injection Q as <- <-. split; [intros ? ? ? []|]. cbn. unfold shown. destruct (update_state_every_iteration o); reflexivity. }
  unfold minimize, Minimize. change (eval (lm_ls M') x0 true) with (eval (lm_ls M) x0 true).
  destruct (eval (lm_ls M) x0 true) as [[c g]|]; [|split; [reflexivity|exact (A FAILURE _)]].
  change (gradient_norm M' x0 g) with (gradient_norm M x0 g).
  destruct (gradient_norm M x0 g) as [gm|]; [|split; [reflexivity|exact (A FAILURE _)]].
  cbn [fst]. destruct (dle gm (mo_gtol Op)); [split; [reflexivity|exact (A CONVERGENCE _)]|].
  apply loop_sim with (s := mkSt M x0 c g gm (Fin 0) 0 [mkIt 0 (dadd c (mo_fixed Op)) (Fin 0) gm (Fin 0) (Fin 0)] [(x0, true)]); [lia|].
  split; [intros ? ? ? []|]. split; [reflexivity|]. split; reflexivity.
Qed.
End Sim.
