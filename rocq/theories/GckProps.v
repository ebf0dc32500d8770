(** C75: gradient checking. *)
Require Import ZArith List Lia Bool Permutation Sorted Reals Lra.
From Verif Require Import ZMap Dbl ProblemModel ProblemSpec ProblemProofs1 ProblemProofs2 ProblemProofs3 ProblemProofs6 ProblemProofs8 ProblemProofs10 ProblemProps.
From Verif Require Import GckModel GckSpec GckProofs GckProofs2 GckProofs3.
Import ListNotations.

(** ** Probe *)
Section Probe.
Context {X : Type}.
Variable K : checker X.
Variable x : X.
Hypothesis U : usable_checker K x.

(** C75. Probe never stops the program, and returns true exactly when the
    function can be evaluated with Jacobians ([r], [J]) and without ([r']),
    numeric differentiation succeeds ([J']), the residuals agree, and all
    tangent space derivatives agree. *)
Theorem probe_verdict : forall p, exists ok R, Probe K x p = Ok (ok, R) /\
  (ok = true <->
   exists r J r' J', c_evaluate (k_cost K) x true = Some (r, J) /\
     plain K x = Some r' /\ k_ridders K (plain K) x = Some J' /\
     (forall i, (i < c_residuals (k_cost K))%nat -> agree p (r i) (r' i)) /\ derivatives_agree K x p J J').
Proof.
  intros p. pose proof (probe_cases K x U p) as C.
  assert (N : forall r' J', numeric K x = Some (r', J') <-> plain K x = Some r' /\ k_ridders K (plain K) x = Some J').
  { intros r' J'. unfold numeric. change (fun y => option_map fst (c_evaluate (k_cost K) y false)) with (plain K).
    change (option_map fst (c_evaluate (k_cost K) x false)) with (plain K x).
    destruct (plain K x) as [q|]; [|split; [discriminate|intros [H _]; discriminate]].
    destruct (k_ridders K (plain K) x) as [Q|]; split; try discriminate; try (intros [_ H]; discriminate).
    - intros H. inversion H; auto.
    - intros [H1 H2]. congruence. }
  destruct (c_evaluate (k_cost K) x true) as [[r J]|] eqn:E.
  - destruct (numeric K x) as [[r' J']|] eqn:E'.
    + destruct C as [L [L' [T1 [T2 C]]]]. pose proof (proj1 (N r' J') eq_refl) as [N1 N2].
      pose proof (residuals_close_iff (c_residuals (k_cost K)) 0 r r' p) as RC.
      pose proof (pairs_agree K x p J J' L L' T1 T2) as PA.
      do 2 eexists. split; [rewrite C; rewrite (surjective_pairing (if residuals_close _ _ _ _ _ then _ else _)); reflexivity|].
      destruct (residuals_close (c_residuals (k_cost K)) 0 r r' p) eqn:RE.
      * destruct (Nat.eqb_spec (pairs_bad p (all_pairs K L L')) 0) as [B|B]; cbn [fst].
        -- split; auto. intros _. exists r, J, r', J'. split; auto. split; auto. split; auto. split; [|apply PA; auto].
           intros i Hi. apply (proj1 RC eq_refl). lia.
        -- split; [discriminate|]. intros [r0 [J0 [r1 [J1 [H1 [H2 [H3 [_ H4]]]]]]]]. exfalso. apply B. apply PA.
           inversion H1; subst r0 J0. rewrite N2 in H3. inversion H3; subst J1. exact H4.
      * cbn [fst]. split; [discriminate|]. intros [r0 [J0 [r1 [J1 [H1 [H2 [H3 [H4 _]]]]]]]].
        apply RC. intros j Hj. inversion H1; subst. rewrite N1 in H2. inversion H2; subst. apply H4. lia.
    + destruct C as [R [C _]]. exists false, R. split; auto. split; [discriminate|].
      intros [r0 [J0 [r1 [J1 [_ [H2 [H3 _]]]]]]]. pose proof (proj2 (N r1 J1) (conj H2 H3)). discriminate.
  - assert (C' : exists R, Probe K x p = Ok (false, R)) by (destruct (numeric K x) as [[r' J']|]; destruct C as [R [C _]]; eauto).
    destruct C' as [R C']. exists false, R. split; auto. split; [discriminate|]. intros [r0 [J0 [r1 [J1 [H _]]]]]. discriminate.
Qed.

(** C75. What the results of Probe say: return_value is true exactly when both
    evaluations succeed; in that case the residuals and Jacobians are the
    user's; and if the residuals agree, maximum_relative_error bounds the
    relative error of every entry and is the error of one of them (or 0 if
    there are none).  Otherwise it is 0. *)
Theorem probe_results : forall p ok R, Probe K x p = Ok (ok, R) ->
  (r_return R = true <->
   exists v r' J', c_evaluate (k_cost K) x true = Some v /\ plain K x = Some r' /\ k_ridders K (plain K) x = Some J') /\
  (r_return R = true -> r_values R = c_evaluate (k_cost K) x true) /\
  forall r J r' J', c_evaluate (k_cost K) x true = Some (r, J) -> plain K x = Some r' -> k_ridders K (plain K) x = Some J' ->
    (forall i, (i < c_residuals (k_cost K))%nat -> agree p (r i) (r' i)) ->
    (forall k i j d d' e, entry K k i j -> tangent_is K x J k i j d -> tangent_is K x J' k i j d' -> error_is d d' e ->
       (e <= r_worst R)%R) /\
    ((forall k i j, ~ entry K k i j) /\ r_worst R = 0%R \/
     exists k i j d d', entry K k i j /\ tangent_is K x J k i j d /\ tangent_is K x J' k i j d' /\ error_is d d' (r_worst R)).
Proof.
  intros p ok R H. pose proof (probe_cases K x U p) as C.
  assert (N : forall r' J', numeric K x = Some (r', J') <-> plain K x = Some r' /\ k_ridders K (plain K) x = Some J').
  { intros r' J'. unfold numeric. change (fun y => option_map fst (c_evaluate (k_cost K) y false)) with (plain K).
    change (option_map fst (c_evaluate (k_cost K) x false)) with (plain K x).
    destruct (plain K x) as [q|]; [|split; [discriminate|intros [A _]; discriminate]].
    destruct (k_ridders K (plain K) x) as [Q|]; split; try discriminate; try (intros [_ A]; discriminate).
    - intros A. inversion A; auto.
    - intros [H1 H2]. congruence. }
  destruct (c_evaluate (k_cost K) x true) as [[r J]|] eqn:E.
  - destruct (numeric K x) as [[r' J']|] eqn:E'.
    + destruct C as [L [L' [T1 [T2 C]]]]. pose proof (proj1 (N r' J') eq_refl) as [N1 N2].
      pose proof (residuals_close_iff (c_residuals (k_cost K)) 0 r r' p) as RC.
      rewrite H in C.
      assert (B : r_return R = true /\ r_values R = Some (r, J)).
      { destruct (residuals_close (c_residuals (k_cost K)) 0 r r' p); [destruct (Nat.eqb (pairs_bad p (all_pairs K L L')) 0)|]; inversion C; auto. }
      split; [split; [eauto 8|intros _; apply B]|]. split; [intros _; apply B|].
      intros r0 J0 r1 J1 H1 H2 H3 H4. inversion H1; subst r0 J0. rewrite N1 in H2. inversion H2; subst r1. rewrite N2 in H3. inversion H3; subst J1.
      assert (RT : residuals_close (c_residuals (k_cost K)) 0 r r' p = true) by (apply RC; intros j Hj; apply H4; lia).
      rewrite RT in C.
      assert (WR : r_worst R = pairs_worst (all_pairs K L L')) by (destruct (Nat.eqb (pairs_bad p (all_pairs K L L')) 0); inversion C; auto).
      destruct (worst_max (all_pairs K L L')) as [M1 M2]. rewrite WR. split.
      * intros k i j d d' e En D D' Er.
        rewrite (error_unique d d' e (relerr d d') Er (relerr_is d d')). apply M1. apply in_all_pairs. exists k, i, j. split; auto.
        split; [eapply tangent_unique; eauto; apply T1; apply En|eapply tangent_unique; eauto; apply T2; apply En].
      * destruct M2 as [[M2 M3]|[d [d' [M2 M3]]]].
        -- left. split; auto. intros k i j En. assert (I : In (nth k L (fun _ _ => 0%R) i j, nth k L' (fun _ _ => 0%R) i j) (all_pairs K L L')).
           { apply in_all_pairs. eauto 6. } rewrite M2 in I. destruct I.
        -- right. apply in_all_pairs in M2. destruct M2 as [k [i [j [En [D D']]]]]. exists k, i, j, d, d'. split; auto.
           rewrite D, D' in M3 |- *. split; [apply T1; apply En|]. split; [apply T2; apply En|]. rewrite M3. apply relerr_is.
    + destruct C as [R' [C [C1 _]]]. assert (R' = R) by congruence. subst R'. split; [|split].
      * split; [congruence|]. intros [v [r1 [J1 [_ A]]]]. apply N in A. discriminate.
      * congruence.
      * intros r0 J0 r1 J1 _ H2 H3. pose proof (proj2 (N r1 J1) (conj H2 H3)). discriminate.
  - assert (C' : r_return R = false) by (destruct (numeric K x) as [[r' J']|]; destruct C as [R' [C [C1 _]]]; congruence).
    split; [|split].
    + split; [congruence|]. intros [v [r1 [J1 [A _]]]]. discriminate.
    + congruence.
    + intros r0 J0 r1 J1 H1. discriminate.
Qed.

(** C75. The cost function installed by Solve: without Jacobians it is the
    user's function and reports no error; with Jacobians it succeeds exactly
    when the user's function and numeric differentiation do, then returns the
    user's residuals and, for the blocks asked for, the user's Jacobians; an
    error is reported exactly if it succeeds and the probe fails. *)
Theorem wrapper_transparent : forall p,
  CheckedEvaluate K p x None = Ok (option_map (fun r => mkW r (fun _ => None)) (plain K x), false) /\
  forall wanted ok R, Probe K x p = Ok (ok, R) ->
    exists out err, CheckedEvaluate K p x (Some wanted) = Ok (out, err) /\
      (out <> None <-> exists v r' J', c_evaluate (k_cost K) x true = Some v /\ plain K x = Some r' /\ k_ridders K (plain K) x = Some J') /\
      (err = true <-> out <> None /\ ok = false) /\
      forall w r J, out = Some w -> c_evaluate (k_cost K) x true = Some (r, J) ->
        w_residuals w = r /\
        forall k, w_jacobians w k = if Nat.ltb k (length (c_sizes (k_cost K))) && wanted k then Some (J k) else None.
Proof.
  intros p. split.
  - unfold CheckedEvaluate, plain. destruct (c_evaluate (k_cost K) x false) as [[r J]|]; reflexivity.
  - intros wanted ok R H. pose proof (probe_results p ok R H) as [A [B _]]. unfold CheckedEvaluate. rewrite H. cbn [bind].
    destruct (r_return R) eqn:E.
    + rewrite (B eq_refl). destruct (proj1 A eq_refl) as [[r J] [r' [J' [Q1 [Q2 Q3]]]]]. rewrite Q1.
      do 2 eexists. split; [reflexivity|]. split; [split; [eauto 8|discriminate]|]. split.
      * destruct ok; cbn [negb]; split; try discriminate; auto. intros [_ H']; discriminate. split; [discriminate|auto].
      * intros w r0 J0 HW HJ. inversion HW; subst. inversion HJ; subst. split; auto.
    + exists None, false. split; auto. split; [split; [congruence|]|].
      * intros Q. apply A in Q. discriminate.
      * split; [split; [discriminate|intros [Q _]; congruence]|]. intros w r J Q. discriminate.
Qed.
End Probe.

(** C75. Only the part of the derivatives along the manifold counts: if the
    Jacobians are replaced by others ([J2]) with the same tangent space
    derivatives, the verdict is the same. *)
Definition with_jacobians {X} (K : checker X) (J2 : nat -> nat -> nat -> R) : checker X :=
  mkK (mkC (c_residuals (k_cost K)) (c_sizes (k_cost K))
           (fun y b => if b then option_map (fun v => (fst v, J2)) (c_evaluate (k_cost K) y true) else c_evaluate (k_cost K) y false))
      (k_manifolds K) (k_ridders K).
Theorem normal_errors_ignored : forall X (K : checker X) x, usable_checker K x -> forall J2 p ok R,
  (forall r J, c_evaluate (k_cost K) x true = Some (r, J) ->
     forall k i j d, entry K k i j -> (tangent_is K x J k i j d <-> tangent_is K x J2 k i j d)) ->
  Probe K x p = Ok (ok, R) -> exists R2, Probe (with_jacobians K J2) x p = Ok (ok, R2).
Proof.
  intros X K x U J2 p ok R HJ H.
  destruct (probe_verdict K x U p) as [ok1 [R1 [P1 V1]]]. rewrite H in P1. inversion P1; subst ok1 R1. clear P1.
  destruct (probe_verdict (with_jacobians K J2) x U p) as [ok2 [R2 [P2 V2]]]. exists R2. rewrite P2. f_equal. f_equal.
  apply eq_true_iff_eq. rewrite V1, V2. clear V1 V2 P2 H. split; intros [r [J [r' [J' [H1 [H2 [H3 [H4 H5]]]]]]]].
  - cbn [with_jacobians k_cost c_evaluate] in H1. destruct (c_evaluate (k_cost K) x true) as [[r0 J0]|] eqn:E; [|discriminate].
    cbn [option_map fst] in H1. inversion H1; subst r J. exists r0, J0, r', J'. split; auto. split; [exact H2|]. split; [exact H3|]. split; [exact H4|].
    intros k i j En d d' D D'. apply (H5 k i j En d d'); [|exact D']. apply (HJ r0 J0 eq_refl k i j d En). exact D.
  - exists r, J2, r', J'. split; [cbn [with_jacobians k_cost c_evaluate]; rewrite H1; reflexivity|]. split; [exact H2|]. split; [exact H3|]. split; [exact H4|].
    intros k i j En d d' D D'. apply (H5 k i j En d d'); [|exact D']. apply (HJ r J H1 k i j d En). exact D.
Qed.

(** ** The solve *)

Lemma minimize_checked : forall its, let '(n, d, t) := Minimize true false its in
  (forall i it, (i < n)%nat -> nth_error its i = Some it -> In true (it_errors it) -> n = S i /\ d = true) /\
  ((forall i it, (i < n)%nat -> nth_error its i = Some it -> ~ In true (it_errors it)) -> Minimize false false its = (n, false, t) /\ d = false).
Proof.
  induction its as [|it its IH]; cbn [Minimize].
  - split; [intros i it H; lia|auto].
  - assert (EX : existsb (fun b => b) (it_errors it) = true <-> In true (it_errors it)).
    { rewrite existsb_exists. split; [intros [b [H1 H2]]; subst; auto|eauto]. }
    assert (RC : forall cs c, RunCallbacks (cs ++ [checking_callback c]) =
      match RunCallbacks cs with Some t => Some t | None => if c then Some USER_FAILURE else None end).
    { induction cs as [|k cs IHc]; intros c; cbn [app RunCallbacks]; [destruct c; auto|]. destruct k; auto. }
    cbn [andb orb]. rewrite RC, app_nil_r.
    destruct (existsb (fun b => b) (it_errors it)) eqn:B.
    + assert (LAST : forall n (t : termination), n = 1%nat ->
         (forall i it0, (i < n)%nat -> nth_error (it :: its) i = Some it0 -> In true (it_errors it0) -> n = S i /\ true = true) /\
         ((forall i it0, (i < n)%nat -> nth_error (it :: its) i = Some it0 -> ~ In true (it_errors it0)) ->
            match it_stop it with Some t0 => (1%nat, false, t0) | None => match RunCallbacks (it_callbacks it) with
               Some t0 => (1%nat, false, t0) | None => let '(n0, d, t0) := Minimize false false its in (S n0, d, t0) end end = (n, false, t) /\ true = false)).
      { intros n t ->. split; [intros i it0 Hi _ _; split; [lia|auto]|]. intros H. exfalso. apply (H 0%nat it); auto. apply EX. auto. }
      destruct (it_stop it); [apply LAST; auto|]. destruct (RunCallbacks (it_callbacks it)); apply LAST; auto.
    + assert (NE : ~ In true (it_errors it)) by (intros H; apply EX in H; discriminate).
      destruct (it_stop it) as [t|].
      { split; [|auto]. intros i it0 Hi E T. assert (i = 0%nat) by lia. subst. inversion E; subst. contradiction. }
      destruct (RunCallbacks (it_callbacks it)) as [t|].
      { split; [|auto]. intros i it0 Hi E T. assert (i = 0%nat) by lia. subst. inversion E; subst. contradiction. }
      destruct (Minimize true false its) as [[n d] t]. destruct IH as [IH1 IH2]. split.
      * intros [|i] it0 Hi E T; [inversion E; subst; contradiction|]. destruct (IH1 i it0 ltac:(lia) E T). split; auto.
      * intros H. destruct IH2 as [E1 E2]; [intros i it0 Hi E; apply (H (S i) it0); [lia|exact E]|]. rewrite E1, E2. auto.
Qed.

(** C75. With check_gradients, whatever the minimizer and the user's callbacks
    do: the iteration in which an error is detected is the last one and Solve
    reports FAILURE; if none is detected in the iterations run, everything is
    as without check_gradients. *)
Theorem checked_solve : forall its, let out := Solve true its in
  (forall i it, (i < o_iterations out)%nat -> nth_error its i = Some it -> In true (it_errors it) ->
     o_iterations out = S i /\ o_termination out = FAILURE) /\
  ((forall i it, (i < o_iterations out)%nat -> nth_error its i = Some it -> ~ In true (it_errors it)) -> out = Solve false its).
Proof.
  intros its. unfold Solve. pose proof (minimize_checked its) as M. destruct (Minimize true false its) as [[n d] t]. destruct M as [M1 M2].
  cbn [o_iterations o_termination]. split.
  - intros i it Hi E T. destruct (M1 i it Hi E T) as [-> ->]. auto.
  - intros H. destruct (M2 H) as [-> ->]. auto.
Qed.

(** C75. The parameters are left alone when an error is found in an iteration
    that neither the minimizer nor a user callback ends. *)
Theorem error_keeps_parameters : forall its i it, (i < o_iterations (Solve true its))%nat -> nth_error its i = Some it ->
  In true (it_errors it) -> it_stop it = None -> RunCallbacks (it_callbacks it) = None -> o_updated (Solve true its) = false.
Proof.
  assert (G : forall its det i it, (i < fst (fst (Minimize true det its)))%nat -> nth_error its i = Some it ->
     In true (it_errors it) -> it_stop it = None -> RunCallbacks (it_callbacks it) = None -> snd (Minimize true det its) = USER_FAILURE \/ det = true).
  { induction its as [|x its IH]; intros det i it Hi E T S C; [destruct i; discriminate|]. cbn [Minimize] in *.
    assert (RC : forall cs c, RunCallbacks (cs ++ [checking_callback c]) =
      match RunCallbacks cs with Some t => Some t | None => if c then Some USER_FAILURE else None end).
    { induction cs as [|k cs IHc]; intros c; cbn [app RunCallbacks]; [destruct c; auto|]. destruct k; auto. }
    cbn [andb] in *. rewrite RC in *. destruct i as [|i].
    - inversion E; subst x. rewrite S, C in *. assert (B : existsb (fun b => b) (it_errors it) = true) by (apply existsb_exists; eauto).
      rewrite B, orb_true_r. auto.
    - destruct det; [auto|]. left. cbn [nth_error orb] in *.
      destruct (it_stop x); [cbn [fst] in Hi; lia|]. destruct (RunCallbacks (it_callbacks x)); [cbn [fst] in Hi; lia|].
      destruct (existsb (fun b => b) (it_errors x)); [cbn [fst] in Hi; lia|].
      specialize (IH false i it). destruct (Minimize true false its) as [[n d] t]. cbn [fst snd] in *.
      destruct (IH ltac:(lia) E T S C); auto. discriminate. }
  intros its i it Hi E T S C. unfold Solve in *. specialize (G its false i it).
  destruct (Minimize true false its) as [[n d] t]. cbn [fst snd o_iterations o_updated] in *.
  destruct (G Hi E T S C) as [->|]; [auto|discriminate].
Qed.

(** ** The copy *)
Open Scope Z_scope.
Section Copy.
Variables (cf_sizes : Z -> list Z) (mf_amb mf_tan : Z -> Z) (hash_order : list Z -> list Z) (plus_ok : Z -> bool).
Hypothesis Hperm : forall l, Permutation (hash_order l) l.

Lemma wrapper_sizes_in : forall ws w c ms, NoDup (map (fun e => fst (fst e)) ws) -> In (w, c, ms) ws ->
  wrapper_sizes cf_sizes ws w = cf_sizes c.
Proof.
  induction ws as [|[[w' c'] ms'] ws IH]; intros w c ms ND H; [destruct H|]. cbn [wrapper_sizes map fst] in *.
  inversion ND as [|? ? N1 N2]; subst. destruct H as [H|H].
  - inversion H; subst. rewrite Z.eqb_refl. auto.
  - destruct (Z.eqb_spec w w') as [->|]; [|eapply IH; eauto].
    exfalso. apply N1. apply in_map_iff. exists (w', c, ms). auto.
Qed.

Lemma sorted_same : forall l l', StronglySorted Z.lt l -> StronglySorted Z.lt l' -> (forall v, In v l <-> In v l') -> l = l'.
Proof.
  induction l as [|x l IH]; intros l' H H' E.
  - destruct l' as [|y l']; auto. destruct (proj2 (E y) (or_introl eq_refl)).
  - destruct l' as [|y l']; [destruct (proj1 (E x) (or_introl eq_refl))|].
    apply StronglySorted_inv in H. apply StronglySorted_inv in H'. destruct H as [H1 H2], H' as [H1' H2'].
    rewrite Forall_forall in H2, H2'.
    assert (x = y).
    { destruct (proj1 (E x) (or_introl eq_refl)) as [|A]; auto. destruct (proj2 (E y) (or_introl eq_refl)) as [|B]; auto.
      specialize (H2 y B). specialize (H2' x A). lia. }
    subst y. f_equal. apply IH; auto. intros v. split; intros Hv.
    + destruct (proj1 (E v) (or_intror Hv)) as [<-|]; auto. specialize (H2 x Hv). lia.
    + destruct (proj2 (E v) (or_intror Hv)) as [<-|]; auto. specialize (H2' x Hv). lia.
Qed.

(** C75. For a problem built by any accepted history of calls: the problem
    that is solved instead is a faithful copy; the wrappers are new objects,
    each wraps the cost function of its residual block with the manifolds of
    its parameter blocks; and destroying the copy destroys each wrapper once
    and nothing else. *)
Theorem problem_copied : forall o os s fresh, o_nochecks o = false -> accepted cf_sizes mf_amb mf_tan os empty_spec ->
  run cf_sizes mf_amb mf_tan hash_order os (new_problem o) = Ok s ->
  (forall v m, get_manifold v s = Ok m -> m <> 0 -> plus_ok v = true) ->
  length fresh = length (get_residual_blocks s) -> NoDup (map fst fresh) -> NoDup (map snd fresh) ->
  (forall e, In e fresh -> fst e <> 0 /\ snd e <> 0) ->
  exists s' ws, CreateGradientCheckingProblem cf_sizes mf_amb mf_tan hash_order plus_ok fresh s = Ok (s', ws) /\
    map (fun e => fst (fst e)) ws = map snd fresh /\
    copied mf_tan s s' (map fst fresh) ws /\
    NoDup (destroy s') /\ forall f, In f (destroy s') <-> exists w, In w (map snd fresh) /\ f = FCost w.
Proof.
  intros o os s fresh NC AC E PO FL ND1 ND2 NZ.
  destruct (reach cf_sizes mf_amb mf_tan hash_order Hperm o os s NC AC E) as [I [R O]].
  set (a := effects cf_sizes os empty_spec) in *.
  assert (WF : wf cf_sizes mf_amb mf_tan a) by (apply accepted_wf; [apply empty_wf|exact AC]). destruct WF as [WF1 WF2].
  assert (VW : forall p b, zfind p (p_pheap s) = Some b -> exists i, a_par a (b_addr b) = Some i /\ prel (Some b) (Some i)).
  { intros p b B. assert (V : view (b_addr b) s = Some b) by (apply view_pm; eauto). pose proof (proj1 R (b_addr b)) as Q. rewrite V in Q.
    destruct (a_par a (b_addr b)) as [i|]; [eauto|destruct Q]. }
  assert (HM : forall p b, zfind p (p_pheap s) = Some b ->
    (b_man b = 0 \/ mf_amb (b_man b) = b_size b /\ 0 <= mf_tan (b_man b)) /\ (b_man b <> 0 -> plus_ok (b_addr b) = true)).
  { intros p b B. destruct (VW p b B) as [i [A [P1 [P2 [P3 _]]]]]. split.
    - rewrite P1, P3. apply (proj2 (WF1 _ i A)).
    - intros M. apply PO with (b_man b); auto. rewrite P3. apply (accessors_ok mf_tan s a (b_addr b) i I R A). }
  assert (HR : forall r rb, zfind r (p_rheap s) = Some rb ->
    r_cost rb <> 0 /\ Forall2 (fun p z => exists b, zfind p (p_pheap s) = Some b /\ b_size b = z) (r_params rb) (cf_sizes (r_cost rb))).
  { intros r rb B. assert (Q : a_res a r = Some (r_cost rb, r_loss rb, map (addr_of s) (r_params rb))).
    { rewrite <- (proj2 R r). unfold rview. rewrite B. auto. }
    destruct (WF2 r _ Q) as [C1 [C2 C3]]. split; auto. pose proof (proj2 (proj2 (i_rp s I r rb B))) as PP.
    revert C3 PP. generalize (cf_sizes (r_cost rb)) as zs. generalize (r_params rb) as ps. clear - VW.
    induction ps as [|p ps IH]; intros zs F PP; inversion F as [|u z us zs' Hu F']; subst; constructor.
    - destruct (zfind p (p_pheap s)) as [b|] eqn:B; [|destruct (PP p (or_introl eq_refl) B)].
      exists b. split; auto. destruct Hu as [i [H1 H2]]. unfold addr_of in H1. rewrite B in H1.
      destruct (VW p b B) as [i' [A [P1 _]]]. congruence.
    - apply IH; auto. intros; apply PP; right; auto. }
  assert (PV : forall p, In p (p_pvec s) <-> zfind p (p_pheap s) <> None).
  { intros p. rewrite (indexed_in (p_pvec s) (pidx s) p (i_pv s I)). unfold pidx. destruct (zfind p (p_pheap s)); cbn; split; congruence. }
  assert (RV : forall r, In r (p_rvec s) -> zfind r (p_rheap s) <> None).
  { intros r Hr. apply (indexed_in (p_rvec s) (ridx s) r (i_rv s I)) in Hr. unfold ridx in Hr. destruct (zfind r (p_rheap s)); [discriminate|destruct (Hr eq_refl)]. }
  unfold CreateGradientCheckingProblem.
  destruct (residual_ops_good (fun _ => []) mf_amb mf_tan s I cf_sizes HR (p_rvec s) fresh FL RV ND1 NZ) as [rs [ws [T1 [T2 [T3 _]]]]].
  set (W := wrapper_sizes cf_sizes ws).
  destruct (residual_ops_good W mf_amb mf_tan s I cf_sizes HR (p_rvec s) fresh FL RV ND1 NZ) as [rs' [ws' [T1' [_ [_ T4]]]]].
  rewrite T1 in T1'. inversion T1'; subst rs' ws'. clear T1'.
  destruct (blocks_ops_good W mf_amb mf_tan plus_ok s I HM (p_pvec s) (indexed_nodup _ _ (i_pv s I)) (fun p H => proj1 (PV p) H) empty_spec)
    as [bs [B1 [B2 [B3 [B4 [B5 [B6 B7]]]]]]]; [reflexivity|intros v i H; discriminate|].
  rewrite B1. cbn [bind]. rewrite T1. cbn [bind]. fold W.
  set (a1 := effects W bs empty_spec) in *.
  assert (WS : forall e, In e ws -> W (fst (fst e)) = cf_sizes (snd (fst e))).
  { intros [[w c] ms] He. cbn [fst snd]. apply wrapper_sizes_in with ms; auto. rewrite T2. auto. }
  assert (FU : full s a1).
  { intros p b B. destruct (B7 p b (proj2 (PV p) ltac:(congruence)) B) as [i [A L]]. exists i. split; auto. apply L. }
  destruct (T4 WS a1 FU) as [G1 [G2 [G3 [G4 [G5 G6]]]]].
  { intros r _. rewrite B5. reflexivity. }
  destruct (run_order W mf_amb mf_tan hash_order Hperm (bs ++ rs) (new_problem checking_options) empty_spec (inv_new _) (rel_new _) eq_refl
             (goods_app W mf_amb mf_tan bs rs empty_spec B2 G1)) as [s' [E' [I' [R' [O' [OR [RR [LG MD]]]]]]]].
  rewrite E'. cbn [bind]. rewrite effects_app' in R'. fold a1 in R'. set (a2 := effects W rs a1) in *.
  exists s', ws. split; auto. split; auto.
  rewrite flat_map_app, B3, G2, app_nil_r in OR. rewrite flat_map_app, B4, G3 in RR. cbn [app] in RR.
  cbn [order new_problem p_pvec map app] in OR. cbn [new_problem p_rvec app] in RR.
  (* the parameter blocks of the copy *)
  assert (AP : forall v, match a_par a v with
     | Some i => exists p b j, zfind p (p_pheap s) = Some b /\ b_addr b = v /\ prel (Some b) (Some i) /\ a_par a2 v = Some j /\ like mf_tan b j
     | None => a_par a2 v = None end).
  { intros v. rewrite G4. destruct (a_par a v) as [i|] eqn:A.
    - pose proof (proj1 R v) as Q. rewrite A in Q. destruct (view v s) as [b|] eqn:V; [|destruct Q].
      apply (view_pm s v b I) in V. destruct V as [p [V1 V2]]. destruct (B7 p b (proj2 (PV p) ltac:(congruence)) V1) as [j [J1 J2]].
      exists p, b, j. subst v. auto.
    - rewrite B6; [reflexivity|]. intros p Hp EQ. apply PV in Hp. unfold addr_of in EQ. destruct (zfind p (p_pheap s)) as [b|] eqn:B; [|congruence].
      destruct (VW p b B) as [i [A' _]]. congruence. }
  assert (BL : get_parameter_blocks s' = get_parameter_blocks s).
  { apply sorted_same; [exact (i_sm s' I')|exact (i_sm s I)|]. intros v. rewrite (par_live s' a2 v I' R'), (par_live s a v I R).
    pose proof (AP v) as Q. destruct (a_par a v) as [i|]; [|rewrite Q; tauto].
    destruct Q as [p [b [j [_ [_ [_ [Q _]]]]]]]. rewrite Q. split; intros _; discriminate. }
  split; [constructor|].
  - exact BL.
  - rewrite (states_some (p_pvec s) s) by (intros p Hp; apply PV; auto). rewrite states_some; [f_equal; exact OR|].
    intros p Hp. apply (indexed_in (p_pvec s') (pidx s') p (i_pv s' I')) in Hp. unfold pidx in Hp. destruct (zfind p (p_pheap s')); [discriminate|destruct (Hp eq_refl)].
  - intros v Hv. apply (par_live s a v I R) in Hv. pose proof (AP v) as Q. destruct (a_par a v) as [i|] eqn:A; [|congruence].
    destruct Q as [p [b [j [Q1 [Q2 [[Q3 [Q4 [Q5 _]]] [Q6 [Q7 [Q8 [Q9 _]]]]]]]]]].
    destruct (accessors_ok mf_tan s a v i I R A) as [X1 [X2 [X3 [X4 _]]]].
    destruct (accessors_ok mf_tan s' a2 v j I' R' Q6) as [Y1 [Y2 [Y3 [Y4 _]]]].
    rewrite X1, X2, X3, X4, Y1, Y2, Y3, Y4, Q7, Q8, Q9, Q3, Q5. unfold is_constant, tangent_size. rewrite Q3, Q4, Q5.
    do 3 (split; auto). f_equal. destruct (i_const i); auto. rewrite orb_false_l. destruct ((if i_man i =? 0 then i_size i else mf_tan (i_man i)) =? 0); auto.
  - intros v n k HS Hk. pose proof (AP v) as Q. destruct (a_par a v) as [i|] eqn:A.
    2:{ destruct (accessors_abort mf_tan hash_order s a v I R A) as [A1 _]. congruence. }
    destruct Q as [p [b [j [Q1 [Q2 [[Q3 [Q4 [Q5 _]]] [Q6 [Q7 [Q8 [Q9 Q10]]]]]]]]]].
    destruct (accessors_ok mf_tan s a v i I R A) as [X1 _]. rewrite X1 in HS. inversion HS; subst n.
    destruct (accessors_ok mf_tan s' a2 v j I' R' Q6) as [_ [_ [_ [_ Y]]]]. destruct (Y k ltac:(lia)) as [y' [z' [Y1 [Y2 [Y3 Y4]]]]].
    destruct (Q10 k ltac:(lia)) as [U L].
    assert (FB : find_block v s = Ok (p, b)).
    { unfold find_block. assert (Q : zfind v (p_pmap s) = Some p) by (apply (i_pm s I); eauto). rewrite Q, Q1. auto. }
    exists (i_lo j (Z.of_nat k)), y', (i_hi j (Z.of_nat k)), z'. unfold get_lower at 1, get_upper at 1. rewrite FB. cbn [bind].
    rewrite U, L. cbn [deref]. do 2 (split; auto).
  - exact RR.
  - split; [rewrite map_length; exact FL|]. rewrite map_length, <- (map_length (fun e => fst (fst e)) ws), T2, map_length. auto.
  - intros i r id w c ms H1 H2 H3. destruct (T3 i r w c ms H1 H3) as [rb [D1 [D2 D3]]].
    rewrite nth_error_map in H2. destruct (nth_error fresh i) as [[id' w']|] eqn:F; [|discriminate]. cbn in H2. inversion H2; subst id'.
    assert (w' = w).
    { assert (Q : nth_error (map (fun e => fst (fst e)) ws) i = nth_error (map snd fresh) i) by (rewrite T2; auto).
      rewrite !nth_error_map, H3, F in Q. cbn in Q. congruence. }
    subst w'. destruct (G6 i r id w H1 F) as [rb' [D4 D5]]. assert (rb' = rb) by congruence. subst rb'.
    exists (r_loss rb), (map (addr_of s) (r_params rb)). split; [|split; [|exact D3]].
    + apply (get_residual_ok s a r); auto. rewrite <- (proj2 R r). unfold rview. rewrite D1, D2. auto.
    + apply (get_residual_ok s' a2 id); auto.
  - (* ownership *)
    assert (DS : destroy s' = map FCost (zkeys (p_cref s'))).
    { unfold destroy. rewrite LG, MD, O'. cbn [new_problem p_log p_mdel checking_options o_cost_own o_loss_own nodup map app]. rewrite !app_nil_r. auto. }
    assert (KY : forall c, In c (zkeys (p_cref s')) <-> In c (map snd fresh)).
    { intros c. pose proof (i_cr s' I') as RF. rewrite O' in RF. cbn [checking_options o_cost_own] in RF. specialize (RF c).
      assert (Q : In c (zkeys (p_cref s')) <-> (0 < ncost c s')%nat).
      { cbv beta in RF. destruct (Nat.eqb_spec (ncost c s') 0) as [Z0|Z0].
        - apply zfind_none_keys in RF. split; [contradiction|lia].
        - split; [lia|]. intros _. apply zfind_in_keys in RF. auto. }
      rewrite Q, (ncost_uses s' a2 c I' R'). split.
      - intros [r [l [vs H]]]. destruct (in_dec Z.eq_dec r (map fst fresh)) as [Hr|Hr].
        + apply In_nth_error in Hr. destruct Hr as [i Hi]. rewrite nth_error_map in Hi. destruct (nth_error fresh i) as [[id w]|] eqn:F; [|discriminate].
          cbn in Hi. inversion Hi; subst id. destruct (nth_error (p_rvec s) i) as [r0|] eqn:RN.
          * destruct (G6 i r0 r w RN F) as [rb [_ D]]. rewrite D in H. inversion H; subst. apply in_map_iff. exists (r, c). split; auto. eapply nth_error_In; eauto.
          * apply nth_error_None in RN. assert (i < length fresh)%nat by (apply nth_error_Some; congruence). unfold get_residual_blocks in FL. lia.
        + rewrite G5 in H by auto. rewrite B5 in H. discriminate.
      - intros H. apply In_nth_error in H. destruct H as [i Hi]. rewrite nth_error_map in Hi. destruct (nth_error fresh i) as [[id w]|] eqn:F; [|discriminate].
        cbn in Hi. inversion Hi; subst w. destruct (nth_error (p_rvec s) i) as [r0|] eqn:RN.
        + destruct (G6 i r0 id c RN F) as [rb [_ D]]. exists id. eauto.
        + apply nth_error_None in RN. assert (i < length fresh)%nat by (apply nth_error_Some; congruence). unfold get_residual_blocks in FL. lia. }
    rewrite DS. split.
    + apply FinFun.Injective_map_NoDup; [intros u v Q; inversion Q; auto|]. apply zsorted_nodup. exact (i_sc s' I').
    + intros f. rewrite in_map_iff. split.
      * intros [w [<- Hw]]. exists w. split; auto. apply KY. auto.
      * intros [w [Hw ->]]. exists w. split; auto. apply KY. auto.
Qed.
End Copy.

(** ** What is not kept *)

(** C75 (finding). The evaluation callback of the user's problem is not
    carried over to the copy, so that Solve never calls it. *)
Theorem callback_kept_refuted : ~ forall po, po_callback (checking_problem_options po) = po_callback po.
Proof. intros H. specialize (H (mkPO checking_options 7)). discriminate. Qed.

(** C75 (finding). A problem accepted with disable_all_safety_checks (here a
    residual block that names the same parameter block twice) stops the
    program when it is solved with check_gradients. *)
Theorem unchecked_problem_refuted : exists o os s,
  let sizes := fun _ : Z => [1; 1] in let id := fun l : list Z => l in
  run sizes (fun _ => 1) (fun _ => 1) id os (new_problem o) = Ok s /\ get_residual_blocks s = [1] /\
  CreateGradientCheckingProblem sizes (fun _ => 1) (fun _ => 1) id (fun _ => true) [(11, 12)] s = Abort.
Proof.
  exists (mkOpts false true true true true), [OAddResidual 1 50 0 [100; 100]]. eexists.
  split; [vm_compute; reflexivity|]. split; vm_compute; reflexivity.
Qed.

(** C75 (finding). FAILURE with parameters already updated: a user callback
    ends the solve successfully in the iteration of the error. *)
Theorem updated_despite_failure_refuted : exists its,
  o_termination (Solve true its) = FAILURE /\ o_updated (Solve true its) = true.
Proof. exists [mkIt [true] None [SOLVER_TERMINATE_SUCCESSFULLY]]. split; reflexivity. Qed.

(** C75 (finding). A manifold whose PlusJacobian fails is not noticed. *)
Theorem failing_manifold_refuted : exists (K : checker R) x, forall p, Probe K x p = Crash.
Proof.
  exists (mkK (mkC 1 [2%nat] (fun _ _ => Some (fun _ => 0%R, fun _ _ _ => 0%R))) [Some (mkM 2 1 (fun _ => None))] (fun _ _ => Some (fun _ _ _ => 0%R))), 0%R.
  intros p. reflexivity.
Qed.

Print Assumptions probe_verdict.
Print Assumptions probe_results.
Print Assumptions normal_errors_ignored.
Print Assumptions wrapper_transparent.
Print Assumptions checked_solve.
Print Assumptions error_keeps_parameters.
Print Assumptions problem_copied.
Print Assumptions callback_kept_refuted.
Print Assumptions unchecked_problem_refuted.
Print Assumptions updated_despite_failure_refuted.
Print Assumptions failing_manifold_refuted.

(** ** Concrete cases *)

(* one residual x^2 - 1 of a block of two coordinates (x, y) on a manifold that
   only moves x; the user's derivative is [slope] * x for x and [junk] for y *)
Definition ex_manifold : manifold R := mkM 2 1 (fun _ => Some (fun l _ => if Nat.eqb l 0 then 1%R else 0%R)).
Definition ex_jac (slope junk x : R) : nat -> nat -> nat -> R := fun _ _ l => if Nat.eqb l 0 then (slope * x)%R else junk.
Definition ex_checker (slope junk : R) : checker R :=
  mkK (mkC 1 [2%nat] (fun x _ => Some (fun _ => (x * x - 1)%R, ex_jac slope junk x)))
      [Some ex_manifold] (fun _ x => Some (ex_jac 2 0 x)).
Lemma ex_usable : forall s j x, usable_checker (ex_checker s j) x.
Proof.
  intros s j x. split; [discriminate|]. intros [|k] m Hk Hm; cbn in *; [|lia]. inversion Hm; subst. split; [reflexivity|discriminate].
Qed.
Lemma ex_tangent : forall s j x s' j' k i c d, entry (ex_checker s j) k i c ->
  (tangent_is (ex_checker s j) x (ex_jac s' j' x) k i c d <-> d = (s' * x)%R).
Proof.
  intros s j x s' j' k i c d [Hk [Hi Hc]]. cbn in Hk, Hi. assert (k = 0%nat) by lia. subst. cbn in Hc. assert (c = 0%nat) by lia. subst.
  unfold tangent_is. cbn [nth ex_checker k_manifolds ex_manifold m_ambient m_plus]. unfold total. cbn [seq map fold_right].
  unfold ex_jac. cbn [Nat.eqb]. split.
  - intros [P [HP ->]]. inversion HP; subst. cbn [Nat.eqb]. lra.
  - intros ->. eexists. split; [reflexivity|]. cbn [Nat.eqb]. lra.
Qed.

Example probe_verdict_case_right : forall junk, exists R, Probe (ex_checker 2 junk) 3%R (1 / 10) = Ok (true, R).
Proof.
  intros junk. destruct (probe_verdict (ex_checker 2 junk) 3%R (ex_usable 2 junk 3) (1 / 10)) as [ok [R [H V]]]. exists R. rewrite H. f_equal. f_equal.
  apply V. exists (fun _ => (3 * 3 - 1)%R), (ex_jac 2 junk 3), (fun _ => (3 * 3 - 1)%R), (ex_jac 2 0 3).
  assert (RF : forall u, agree (1 / 10) u u).
  { intros u. unfold agree. rewrite Rminus_diag_eq, Rabs_R0, (Rabs_pos_eq (1 / 10)) by lra.
    destruct (Req_dec u 0); [left; split; [auto|lra]|right]. split; [|split]; auto. pose proof (max_pos u u H0). nra. }
  do 3 (split; [reflexivity|]). split; [intros; apply RF|].
  intros k i c En d d' D D'. apply (ex_tangent 2 junk 3 2 junk) in D; auto. apply (ex_tangent 2 junk 3 2 0) in D'; auto. rewrite D, D'. apply RF.
Qed.
Example probe_verdict_case_wrong : exists R, Probe (ex_checker 3 0) 3%R (1 / 10) = Ok (false, R).
Proof.
  destruct (probe_verdict (ex_checker 3 0) 3%R (ex_usable 3 0 3) (1 / 10)) as [ok [R [H V]]]. exists R. rewrite H. f_equal. f_equal.
  destruct ok; auto. destruct (proj1 V eq_refl) as [r [J [r' [J' [H1 [H2 [H3 [_ H5]]]]]]]]. inversion H1; subst. inversion H3; subst.
  assert (En : entry (ex_checker 3 0) 0 0 0) by (split; [cbn; lia|split; cbn; lia]).
  specialize (H5 0%nat 0%nat 0%nat En (3 * 3)%R (2 * 3)%R). exfalso.
  assert (A : agree (1 / 10) (3 * 3) (2 * 3)).
  { apply H5; apply (ex_tangent 3 0 3); auto. }
  destruct A as [[[A|A] _]|[_ [_ A]]]; try lra.
  rewrite (Rabs_pos_eq (3 * 3 - 2 * 3)), (Rabs_pos_eq (1 / 10)), (Rabs_pos_eq (3 * 3)), (Rabs_pos_eq (2 * 3)), Rmax_left in A by lra. lra.
Qed.
Example probe_results_case : usable_checker (ex_checker 3 0) 3%R /\ entry (ex_checker 3 0) 0 0 0 /\ error_is (3 * 3) (2 * 3) (1 / 3).
Proof.
  split; [apply ex_usable|]. split; [split; [cbn; lia|split; cbn; lia]|]. right. split; [lra|]. split; [lra|].
  rewrite (Rabs_pos_eq (3 * 3 - 2 * 3)), (Rabs_pos_eq (3 * 3)), (Rabs_pos_eq (2 * 3)), Rmax_left by lra. lra.
Qed.
Example normal_errors_ignored_case : forall k i c d, entry (ex_checker 2 0) k i c ->
  (tangent_is (ex_checker 2 0) 3%R (ex_jac 2 0 3) k i c d <-> tangent_is (ex_checker 2 0) 3%R (ex_jac 2 5 3) k i c d) /\
  ex_jac 2 0 3 0 0 1 <> ex_jac 2 5 3 0 0 1%nat.
Proof.
  intros k i c d En. split; [|unfold ex_jac; cbn; lra]. rewrite !(ex_tangent 2 0 3) by auto. tauto.
Qed.
(* the wrapper reports the wrong derivative and still returns it *)
Example wrapper_transparent_case : exists w, CheckedEvaluate (ex_checker 3 0) (1 / 10) 3%R (Some (fun _ => true)) = Ok (Some w, true) /\
  w_residuals w 0%nat = 8%R /\ w_jacobians w 0 = Some (ex_jac 3 0 3 0%nat).
Proof.
  destruct probe_verdict_case_wrong as [R H].
  destruct (proj2 (wrapper_transparent (ex_checker 3 0) 3%R (ex_usable 3 0 3) (1 / 10)) (fun _ => true) false R H) as [out [err [C [O [E W]]]]].
  assert (NO : out <> None) by (apply O; do 3 eexists; split; [reflexivity|split; reflexivity]).
  destruct out as [w|]; [|congruence]. exists w. assert (ER : err = true) by (apply E; auto). subst err. split; auto.
  destruct (W w _ _ eq_refl eq_refl) as [W1 W2]. rewrite W1, W2. split; [lra|reflexivity].
Qed.

Example checked_solve_case :
  Solve true [mkIt [false] None [SOLVER_CONTINUE]; mkIt [false; true] None []; mkIt [] (Some CONVERGENCE) []] = mkOut 2 FAILURE false /\
  Solve false [mkIt [false] None [SOLVER_CONTINUE]; mkIt [false; true] None []; mkIt [] (Some CONVERGENCE) []] = mkOut 3 CONVERGENCE true.
Proof. split; reflexivity. Qed.
Example error_keeps_parameters_case :
  let its := [mkIt [false] None [SOLVER_CONTINUE]; mkIt [false; true] None [SOLVER_CONTINUE]; mkIt [] (Some CONVERGENCE) []] in
  (1 < o_iterations (Solve true its))%nat /\ o_updated (Solve true its) = false /\ o_updated (Solve false its) = true.
Proof. split; [cbn; lia|split; reflexivity]. Qed.

(* the problem of ProblemProps: three blocks, a manifold, a constant block,
   bounds, shared cost and loss functions *)
Definition ex_copy := CreateGradientCheckingProblem ex_sizes ex_amb ex_tan ex_order (fun _ => true) [(11, 91); (12, 92); (13, 93)] ex_state.
Example problem_copied_case :
  accepted ex_sizes ex_amb ex_tan ex_history empty_spec /\ ex_run ex_history (new_problem ex_opts) = Ok ex_state /\
  length [(11, 91); (12, 92); (13, 93)] = length (get_residual_blocks ex_state) /\
  exists s' ws, ex_copy = Ok (s', ws) /\ get_residual 12 s' = Ok (92, 60, [200]) /\ get_upper 200 1 s' = Ok (Fin 9) /\
    get_constant ex_tan 100 s' = Ok true /\ get_manifold 300 s' = Ok 70 /\ ws = [(91, 50, [0; 0]); (92, 51, [0]); (93, 51, [70])] /\
    destroy s' = [FCost 91; FCost 92; FCost 93].
Proof.
  split; [exact ex_accepted|]. split; [exact ex_runs|]. split; [reflexivity|].
  do 2 eexists. split; [vm_compute; reflexivity|]. vm_compute. auto 10.
Qed.
