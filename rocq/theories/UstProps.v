(** C78: what iteration callbacks find in the parameter blocks during a trust region solve.
    [Solve E Op update ecb users garble fuel st p0 = Some (r, m)]: the solve from parameter blocks holding [p0] ends with
    the result [r]; [events m] is what happened in order, [user m] what the parameter blocks hold afterwards. *)
Require Import List ZArith Bool Lia.
From Verif Require Import Dbl DblArith TrustRegionModel TrustRegionProofs TrustRegionProps UstModel UstSpec UstProofs UstProofs2.
Import ListNotations.
Open Scope Z_scope.

(** every solve ends *)
Theorem ust_terminates E Op update ecb users garble st p0 :
  exists r m, Solve E Op update ecb users garble (Z.to_nat (o_max_iter Op)) st p0 = Some (r, m).
Proof.
  pose proof (solve_terminates E Op update ecb users garble st p0) as T. destruct (Solve _ _ _ _ _ _ _ _ _) as [[r m]|]; [eauto|congruence].
Qed.
Print Assumptions ust_terminates.

(** one round of callbacks per iteration with the summaries so far, in order, until one does not continue, which is the
    last round *)
Theorem ust_rounds E Op update ecb users garble fuel st p0 r m :
  Solve E Op update ecb users garble fuel st p0 = Some (r, m) ->
  one_per_iteration E (r_iters E r) (events E m) /\ evaluated_points E (events E m) = r_trace E r /\
  forall l1 its p n l2, events E m = l1 ++ Called its p n :: l2 ->
    called E users its p n /\ (rounds E l2 <> [] -> n = length users).
Proof.
  intro H. destruct (solve_minimize _ _ _ _ _ _ _ _ _ _ _ H) as (m' & M & -> & _). destruct (minimize_common _ _ _ _ _ _ _ _ _ _ _ M) as (B & V & R & T & K).
  split; [exact R|]. split; [exact T|]. intros l1 its p n l2 Q. destruct (K _ _ _ _ _ Q) as [[K1 _] K2]. auto.
Qed.
Print Assumptions ust_rounds.

(** update_state_every_iteration: the best solution so far *)
Theorem ust_update_best E Op ecb users garble fuel st p0 r m :
  Solve E Op true ecb users garble fuel st p0 = Some (r, m) -> accepting E p0 ->
  forall its p n, In (Called its p n) (events E m) -> best_of E p0 (firstn (num_successful its) (r_accepted E r)) p.
Proof.
  intros H A its p n I. destruct (solve_minimize _ _ _ _ _ _ _ _ _ _ _ H) as (m' & M & Ev & _). rewrite Ev in I.
  destruct (minimize_common _ _ _ _ _ _ _ _ _ _ _ M) as (B & V & R & T & K).
  apply in_split in I. destruct I as (l1 & l2 & Q). destruct (K _ _ _ _ _ Q) as [(_ & K2 & _) _].
  destruct (K2 eq_refl A) as (a1 & a2 & -> & L & P). rewrite <- L, firstn_app, firstn_all, Nat.sub_diag. cbn [firstn]. rewrite app_nil_r. exact P.
Qed.
Print Assumptions ust_update_best.

(** without it: the initial values *)
Theorem ust_no_update E Op users garble fuel st p0 r m :
  Solve E Op false false users garble fuel st p0 = Some (r, m) ->
  forall its p n, In (Called its p n) (events E m) -> p = p0.
Proof.
  intros H its p n I. destruct (solve_minimize _ _ _ _ _ _ _ _ _ _ _ H) as (m' & M & Ev & _). rewrite Ev in I.
  destruct (minimize_common _ _ _ _ _ _ _ _ _ _ _ M) as (B & V & R & T & K).
  apply in_split in I. destruct I as (l1 & l2 & Q). destruct (K _ _ _ _ _ Q) as [(_ & _ & K3 & _) _]. auto.
Qed.
Print Assumptions ust_no_update.

(** without it but with an EvaluationCallback: the point evaluated last *)
Theorem ust_no_update_evaluation_callback E Op users garble fuel st p0 r m :
  Solve E Op false true users garble fuel st p0 = Some (r, m) -> accepting E p0 ->
  forall l1 its p n l2, events E m = l1 ++ Called its p n :: l2 -> evaluated_last E l1 p.
Proof.
  intros H A l1 its p n l2 Q. destruct (solve_minimize _ _ _ _ _ _ _ _ _ _ _ H) as (m' & M & Ev & _). rewrite Ev in Q.
  destruct (minimize_common _ _ _ _ _ _ _ _ _ _ _ M) as (B & V & R & T & K).
  destruct (K _ _ _ _ _ Q) as [(_ & _ & _ & K4) _]. auto.
Qed.
Print Assumptions ust_no_update_evaluation_callback.

(** after the solve *)
Theorem ust_after E Op update ecb users garble fuel st p0 r m :
  Solve E Op update ecb users garble fuel st p0 = Some (r, m) -> accepting E p0 ->
  (went_well (r_term E r) -> best_of E p0 (r_accepted E r) (user E m)) /\ (went_wrong (r_term E r) -> user E m = p0).
Proof.
  intros H A. pose proof (solve_final _ _ _ _ _ _ _ _ _ _ _ H A) as F. destruct (solve_minimize _ _ _ _ _ _ _ _ _ _ _ H) as (m' & M & _ & _).
  destruct (minimize_common _ _ _ _ _ _ _ _ _ _ _ M) as (B & _). split.
  - intros [W|[W|W]]; rewrite F, W; exact B.
  - intros [W|W]; rewrite F, W; reflexivity.
Qed.
Print Assumptions ust_after.

(** if the callbacks do not look at the parameter blocks, neither the option nor the EvaluationCallback changes the result *)
Theorem ust_no_influence E Op users update ecb garble update' ecb' garble' fuel st p0 :
  (forall u its p q, In u users -> u its p = u its q) ->
  option_map fst (Solve E Op update ecb users garble fuel st p0) = option_map fst (Solve E Op update' ecb' users garble' fuel st p0).
Proof. intro I. apply solve_ign. exact I. Qed.
Print Assumptions ust_no_influence.

(** with the option, the solve is the one of the model of the minimizer, whose callbacks are handed the best point directly
    (C21-C24) *)
Theorem ust_minimize E Op ecb garble fuel st p0 : accepting E p0 ->
  option_map fst (Solve E Op true ecb (callbacks E) garble fuel st p0) = minimize_fuel E Op fuel st p0.
Proof. apply solve_is_minimize. Qed.
Print Assumptions ust_minimize.

(** ** a concrete solve: costs 10, 4, 6 (rejected), a failed evaluation, 1; the second callback stops at iteration 4 if it
    finds 4 in the parameter blocks *)
Definition looker (its : list iter_summary) (p : Z) : cb_status := if p =? 4 then SOLVER_ABORT else SOLVER_CONTINUE.
Definition see (update ecb : bool) :=
  match Solve toy1 (toy_opts false false) update ecb [(fun _ _ => SOLVER_CONTINUE); looker; (fun _ _ => SOLVER_CONTINUE)] (fun p _ => p) 4 tt 0 with
  | Some (r, m) => Some (r_term toy1 r, user toy1 m,
      flat_map (fun e => match e with Called its p n => [(length its, p, n)] | _ => [] end) (events toy1 m))
  | None => None
  end.
Example ust_update_case : see true false = Some (USER_FAILURE, 0, [(1%nat, 0, 3%nat); (2%nat, 1, 3%nat); (3%nat, 1, 3%nat); (4%nat, 1, 3%nat); (5%nat, 4, 2%nat)]).
Proof. vm_compute. reflexivity. Qed.
Example ust_update_ecb_case : see true true = see true false.
Proof. vm_compute. reflexivity. Qed.
Example ust_no_update_case : see false false = Some (NO_CONVERGENCE, 4, [(1%nat, 0, 3%nat); (2%nat, 0, 3%nat); (3%nat, 0, 3%nat); (4%nat, 0, 3%nat); (5%nat, 0, 3%nat)]).
Proof. vm_compute. reflexivity. Qed.
(** the callbacks find the rejected points 2 and 3 *)
Example ust_no_update_ecb_case : see false true = Some (USER_FAILURE, 0, [(1%nat, 0, 3%nat); (2%nat, 1, 3%nat); (3%nat, 2, 3%nat); (4%nat, 3, 3%nat); (5%nat, 4, 2%nat)]).
Proof. vm_compute. reflexivity. Qed.
Example ust_accepting_case : accepting toy1 0.
Proof. split; reflexivity. Qed.

Definition look (o : option (result toy1 * smem toy1)) : option (list Z * bool) :=
  match o with
  | Some (r, m) => Some (map fst (r_accepted toy1 r), existsb (fun e : event toy1 => match e with Called _ p _ => p =? 2 | _ => false end) (events toy1 m))
  | None => None
  end.
Lemma look_spec o l : look o = Some (l, true) ->
  exists r m its n, o = Some (r, m) /\ In (Called (E := toy1) its 2 n) (events toy1 m) /\ map fst (r_accepted toy1 r) = l.
Proof.
  destruct o as [[r m]|]; [|discriminate]. cbn [look]. intro P. injection P as P1 P2. apply existsb_exists in P2. destruct P2 as (e & I & P2).
  destruct e as [x b|its p n]; [discriminate|]. apply Z.eqb_eq in P2. subst p. exists r, m, its, n. auto.
Qed.
Example look_case : look (Solve toy1 (toy_opts false false) false true [] (fun p _ => p) 4 tt 0) = Some ([0; 1; 4], true).
Proof. vm_compute. reflexivity. Qed.
(** ** finding: update_state_every_iteration = false does not mean that the parameter blocks stay untouched during the solve, nor
    that they hold an accepted point: with an EvaluationCallback they hold a rejected step *)
Theorem ust_untouched_refuted : exists E Op users garble fuel st p0 r m its p n,
  Solve E Op false true users garble fuel st p0 = Some (r, m) /\ accepting E p0 /\ In (Called its p n) (events E m) /\
  p <> p0 /\ ~ In p (map fst (r_accepted E r)).
Proof.
  destruct (look_spec _ _ look_case) as (r & m & its & n & X1 & X2 & X3).
  exists toy1, (toy_opts false false), [], (fun p _ => p), 4%nat, tt, 0, r, m, its, 2, n. split; [exact X1|]. split; [exact ust_accepting_case|].
  split; [exact X2|]. split; [discriminate|]. rewrite X3. intros [H|[H|[H|[]]]]; discriminate.
Qed.
Print Assumptions ust_untouched_refuted.
