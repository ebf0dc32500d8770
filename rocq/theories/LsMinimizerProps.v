(** Theorems about the line search minimizer (C35, C32, C59). *)
Require Import List ZArith Bool Lia.
From Verif Require Import Dbl DblArith DblArithProofs DblArithProofs2 LineSearchModel LineSearchSpec LineSearchProofs LineSearchProofs2
  LineSearchProps LsMinimizerModel LsMinimizerSpec LsMinimizerProofs.
Import ListNotations.
Open Scope Z_scope.

Lemma numbered_snoc its it : numbered its -> it_number it = Z.of_nat (length its) -> numbered (its ++ [it]).
Proof.
  intros H Hn i a Ha. destruct (Nat.lt_ge_cases i (length its)) as [Hi|Hi].
  - rewrite nth_error_app1 in Ha by lia. auto.
  - rewrite nth_error_app2 in Ha by lia. destruct (i - length its)%nat eqn:Ed.
    + cbn in Ha. injection Ha as <-. rewrite Hn. f_equal. lia.
    + cbn in Ha. destruct n; discriminate.
Qed.

(** ** C35: what is returned *)
(** whatever happens, the returned parameters are those of the last iteration reported and the cost reported
    is theirs; iterations are numbered from 0 and at most max_num_iterations are performed; if
    nothing is reported the parameters are the initial ones *)
Theorem lm_reports : forall M Op fuel lf x0 r,
  sane_costs M -> (forall c g, eval (lm_ls M) x0 true = Some (c, g) -> is_fin c = true) ->
  minimize M Op fuel lf x0 = Done r ->
  (r_iters M r = [] /\ r_x M r = x0 /\ (r_term M r = FAILURE \/ r_term M r = CONVERGENCE)) \/
  (reports M Op (r_iters M r) (r_x M r) /\ numbered (r_iters M r) /\
   Z.of_nat (length (r_iters M r)) <= Z.max 0 (mo_max_iter Op) + 1).
Proof.
  intros M Op fuel lf x0 r SC H0 H. unfold minimize in H.
  destruct (eval (lm_ls M) x0 true) as [[c g]|] eqn:Ee.
  2: { injection H as <-. left. auto. }
  destruct (gradient_norm M x0 g) as [gm|] eqn:Eg; [|injection H as <-; left; auto].
  destruct (dle gm (mo_gtol Op)) eqn:Et; [injection H as <-; left; auto|]. right.
  eapply lm_loop_ind with
    (P := fun k s => invar M s /\ numbered (st_iters M s) /\ Z.of_nat (length (st_iters M s)) = k + 1 /\
                     k <= Z.max 0 (mo_max_iter Op) /\ reports M Op (st_iters M s) (st_x M s))
    (Q := fun r => reports M Op (r_iters M r) (r_x M r) /\ numbered (r_iters M r) /\
                   Z.of_nat (length (r_iters M r)) <= Z.max 0 (mo_max_iter Op) + 1); [exact SC| | | | |exact H].
  - intros k s (A & _). exact A.
  - intros k s t tr (A & B & C & D & F) _ _ _ _. cbn [r_iters r_x]. split; [auto|split; [auto|lia]].
  - intros k s d status rs dd step r' y c' g' gmax tr (A & B & C & D & F) Hk _ _ _ _ _ _ _ _ _ A1 A2 A3 it s'.
    assert (R : reports M Op (st_iters M s ++ [it]) y) by (exists (st_iters M s), it, c', g'; split; [auto|split; [auto|reflexivity]]).
    assert (N : numbered (st_iters M s ++ [it])) by (apply numbered_snoc; [auto|cbn [it_number it]; lia]).
    assert (L : Z.of_nat (length (st_iters M s ++ [it])) = k + 2) by (rewrite app_length; cbn [length]; lia).
    split; [|intros _; cbn [r_iters r_x s' st_iters]; split; [auto|split; [auto|lia]]].
    unfold s'. cbn [st_iters st_x]. split; [split; [exact A1|exact A3]|split; [auto|split; [lia|split; [lia|auto]]]].
  - cbn [st_iters st_x]. split; [split; [exact Ee|eapply H0; reflexivity]|split; [|split; [reflexivity|split; [lia|]]]].
    + intros [|[|i]] it Hi; try discriminate. cbn in Hi. injection Hi as <-. reflexivity.
    + exists [], (mkIt 0 (dadd c (mo_fixed Op)) (Fin 0) gm (Fin 0) (Fin 0)), c, g. auto.
Qed.
Print Assumptions lm_reports.

(** ** costs *)
Lemma choose_usable M Op k s d status rs : invar M s -> choose_direction M Op k s = Some (d, status, rs) -> usable_direction M d.
Proof.
  intros [He Hf] Hd. exists (st_x M s), (st_cost M s), (st_grad M s). split; [exact He|split; [exact Hf|]].
  unfold choose_direction in Hd. destruct (k =? 1); [injection Hd as <- _ _; auto|].
  destruct (next_direction M k (st_grad M s)) as [d'|] eqn:En; [injection Hd as <- _ _; eauto|].
  destruct (mo_max_restarts Op <=? st_restarts M s); [discriminate|]. injection Hd as <- _ _. auto.
Qed.
Lemma search_descends M Op lf s d dd step r :
  sane_costs M -> searchable M Op -> invar M s -> descent_slope dd -> usable_direction M d ->
  (Z.to_nat (lo_max_iter (mo_ls Op)) <= lf)%nat ->
  search M Op lf (st_x M s) d (st_cost M s) dd step = Done r -> su_success _ r = true ->
  dle (fs_value _ (su_optimal _ r)) (st_cost M s) = true.
Proof.
  intros SC (GO & HP & HF & HW) [He Hf] (D1 & D2 & D3) HU Hfu H Hs.
  assert (Hv : dvalid (st_cost M s)) by (eapply (proj1 SC); eauto).
  unfold search in H. destruct (mo_type Op) eqn:Et.
  - eapply armijo_descends in H; eauto. apply H.
  - pose proof H as H'. eapply wolfe_descends in H'; eauto.
    assert (Hc : dle (Fin 0) step && dlt (Fin 0) (lo_decrease (mo_ls Op)) && dlt (lo_decrease (mo_ls Op)) (lo_curvature (mo_ls Op))
     && dlt (lo_curvature (mo_ls Op)) (dz 1) && dlt (dz 1) (lo_expansion (mo_ls Op)) = true).
    { unfold wolfe_search in H. destruct (_ && dlt (dz 1) _); [reflexivity|discriminate]. }
    destruct (wolfe_search_total _ (mo_ls Op) (st_x M s) d (st_cost M s) dd GO HP (HW eq_refl d HU) lf step Hfu Hc) as (r' & Hr' & Hst).
    rewrite H in Hr'. injection Hr' as <-. exact Hst.
Qed.

Lemma non_increasing_snoc l a b : non_increasing (l ++ [a]) -> dle (it_cost b) (it_cost a) = true ->
  non_increasing ((l ++ [a]) ++ [b]).
Proof.
  intros H H1 l1 x y l2 Heq. destruct l2 as [|z l2] using rev_ind.
  - assert (Hy : l1 ++ [x; y] = (l1 ++ [x]) ++ [y]) by (now rewrite <- app_assoc). rewrite Hy in Heq.
    apply app_inj_tail in Heq. destruct Heq as [Heq <-]. apply app_inj_tail in Heq. destruct Heq as [_ <-]. auto.
  - clear IHl2. eapply H with (l1 := l1) (l2 := l2).
    assert (Hy : l1 ++ x :: y :: l2 ++ [z] = (l1 ++ x :: y :: l2) ++ [z]) by (now rewrite <- app_assoc). rewrite Hy in Heq.
    apply app_inj_tail in Heq. apply Heq.
Qed.

Lemma dadd_fin_mono a b c : is_fin a = true -> is_fin b = true -> is_fin c = true -> dle a b = true ->
  dle (dadd a c) (dadd b c) = true.
Proof.
  intros Ha Hb Hc H. destruct a as [| |a|], b as [| |b|], c as [| |c|]; try discriminate.
  apply dadd_mono; auto; try discriminate; cbn [dadd]; apply rnd_not_nan.
Qed.

(** with descent directions the costs reported never increase *)
Theorem lm_monotone : forall M Op fuel lf x0 r,
  sane_costs M -> (forall c g, eval (lm_ls M) x0 true = Some (c, g) -> is_fin c = true) -> is_fin (mo_fixed Op) = true ->
  searchable M Op -> descent_directions M -> (Z.to_nat (lo_max_iter (mo_ls Op)) <= lf)%nat ->
  minimize M Op fuel lf x0 = Done r -> non_increasing (r_iters M r).
Proof.
  intros M Op fuel lf x0 r SC H0 Hfix SE DD Hlf H. unfold minimize in H.
  destruct (eval (lm_ls M) x0 true) as [[c g]|] eqn:Ee.
  2: { injection H as <-. intros [|? [|? ?]] a b l2 Hl; discriminate. }
  destruct (gradient_norm M x0 g) as [gm|] eqn:Eg; [|injection H as <-; intros [|? [|? ?]] a b l2 Hl; discriminate].
  destruct (dle gm (mo_gtol Op)) eqn:Et; [injection H as <-; intros [|? [|? ?]] a b l2 Hl; discriminate|].
  eapply lm_loop_ind with
    (P := fun k s => invar M s /\ non_increasing (st_iters M s) /\
                     exists l it, st_iters M s = l ++ [it] /\ it_cost it = dadd (st_cost M s) (mo_fixed Op))
    (Q := fun r => non_increasing (r_iters M r)); [exact SC| | | | |exact H].
  - intros k s (A & _). exact A.
  - intros k s t tr (A & B & C) _ _ _ _. exact B.
  - intros k s d status rs dd step r' y c' g' gmax tr (A & B & l & it0 & C & D) Hk Hd Hdd _ _ Hse Hsu _ _ _ A1 A2 A3 it s'.
    assert (Hle : dle c' (st_cost M s) = true).
    { rewrite A2. eapply search_descends; eauto; [|eapply choose_usable; eauto]. rewrite Hdd. destruct A as [He Hf].
      unfold choose_direction in Hd. destruct (DD _ _ _ He Hf) as [D1 D2].
      destruct (k + 1 =? 1); [injection Hd as <- _ _; exact D1|].
      destruct (next_direction M (k + 1) (st_grad M s)) as [d'|] eqn:En.
      - injection Hd as <- _ _. eapply D2; eauto.
      - destruct (mo_max_restarts Op <=? st_restarts M s); [discriminate|]. injection Hd as <- _ _. exact D1. }
    assert (N : non_increasing (st_iters M s ++ [it])).
    { rewrite C in *. apply non_increasing_snoc; auto. rewrite D. cbn [it_cost it]. apply dadd_fin_mono; auto. apply A. }
    split; [|intros _; exact N].
    split; [split; [exact A1|exact A3]|split; [exact N|]]. exists (st_iters M s), it. auto.
  - cbn [st_iters st_x]. split; [split; [exact Ee|eapply H0; reflexivity]|split].
    + intros [|? [|? ?]] a b l2 Hl; discriminate.
    + exists []. eexists. split; reflexivity.
Qed.
Print Assumptions lm_monotone.

Lemma non_increasing_last its : non_increasing its -> forall l a l2 b, its = l ++ a :: l2 ++ [b] -> dle (it_cost b) (it_cost a) = true.
Proof.
  intros H l a l2. revert l a. induction l2 as [|c l2 IH]; intros l a b Heq.
  - eapply (H l a b []). exact Heq.
  - assert (H1 : dle (it_cost b) (it_cost c) = true).
    { apply (IH (l ++ [a])). rewrite <- app_assoc. exact Heq. }
    assert (H2 : dle (it_cost c) (it_cost a) = true).
    { apply (H l a c (l2 ++ [b])). exact Heq. }
    eapply dle_trans; eauto.
Qed.

(** so the returned parameters are the best ones: their cost is at most that of every iteration reported,
    the initial one included *)
Theorem lm_best : forall M Op fuel lf x0 r,
  sane_costs M -> (forall c g, eval (lm_ls M) x0 true = Some (c, g) -> is_fin c = true) -> is_fin (mo_fixed Op) = true ->
  searchable M Op -> descent_directions M -> (Z.to_nat (lo_max_iter (mo_ls Op)) <= lf)%nat ->
  minimize M Op fuel lf x0 = Done r ->
  (r_iters M r = [] /\ r_x M r = x0) \/
  exists c g, eval (lm_ls M) (r_x M r) true = Some (c, g) /\
    forall it, In it (r_iters M r) -> it_cost it = dadd c (mo_fixed Op) \/ dle (dadd c (mo_fixed Op)) (it_cost it) = true.
Proof.
  intros M Op fuel lf x0 r SC H0 Hfix SE DD Hlf H.
  pose proof (lm_monotone _ _ _ _ _ _ SC H0 Hfix SE DD Hlf H) as Hm.
  destruct (lm_reports _ _ _ _ _ _ SC H0 H) as [(A & B & _)|[(l & it & c & g & Hl & He & Hc) _]]; [auto|]. right.
  exists c, g. split; [exact He|]. intros a Ha. rewrite Hl in Ha. apply in_app_iff in Ha. destruct Ha as [Ha|[<-|[]]]; [|auto].
  right. rewrite <- Hc. apply in_split in Ha. destruct Ha as (l1 & l2 & ->).
  eapply (non_increasing_last _ Hm l1 a l2 it). rewrite Hl, <- app_assoc. reflexivity.
Qed.
Print Assumptions lm_best.

(** ** it always ends, and never in a CHECK failure *)
Theorem lm_terminates : forall M Op fuel lf x0,
  sane_costs M -> (forall c g, eval (lm_ls M) x0 true = Some (c, g) -> is_fin c = true) ->
  searchable M Op -> accepted_options Op ->
  (Z.to_nat (lo_max_iter (mo_ls Op)) <= lf)%nat -> (Z.to_nat (mo_max_iter Op) <= fuel)%nat ->
  exists r, minimize M Op fuel lf x0 = Done r.
Proof.
  intros M Op fuel lf x0 SC H0 (GO & HP & HF & HW) (O1 & O2 & O3 & O4) Hlf Hfu. unfold minimize.
  destruct (eval (lm_ls M) x0 true) as [[c g]|] eqn:Ee; [|eauto].
  destruct (gradient_norm M x0 g) as [gm|]; [|eauto].
  destruct (dle gm (mo_gtol Op)); [eauto|].
  assert (Hmain : forall fuel k s, invar M s -> mo_max_iter Op - k <= Z.of_nat fuel -> exists r, lm_loop M Op fuel lf k s = Done r).
  { clear Hfu. induction fuel0 as [|f IH]; intros k s Hi Hk; cbn [lm_loop]; cbv zeta; unfold finish, finish_trace;
      (destruct (run_callbacks _ _ _ _); [|eauto|eauto]);
      (destruct (mo_max_iter Op <=? k) eqn:Ek; [eauto|]); (destruct (lm_time_up M k); [eauto|]); [exfalso; lia|].
    destruct (choose_direction M Op (k + 1) s) as [[[d status] rs]|] eqn:Ed; [|eauto].
    pose proof (choose_usable _ _ _ _ _ _ _ Hi Ed) as HU.
    set (step := initial_step M (k + 1) status s (dot (lm_ls M) (st_grad M s) d)).
    destruct (dlt step (Fin 0)) eqn:El; [eauto|].
    assert (Hst : dle (Fin 0) step = true).
    { apply dlt_false_le; auto; [|discriminate]. unfold step, initial_step.
      assert (Q : forall b, dmin (dz 1) b <> NaN).
      { intros b. unfold dmin. destruct (dlt b (dz 1)) eqn:Eb; [intros ->; discriminate|].
        assert (Q : dz 1 = Fin ONEU) by (vm_compute; reflexivity). rewrite Q. discriminate. }
      destruct (_ || _); apply Q. }
    clearbody step.
    assert (Hs : exists sm, search M Op lf (st_x M s) d (st_cost M s) (dot (lm_ls M) (st_grad M s) d) step = Done sm).
    { unfold search. destruct (mo_type Op) eqn:Et.
      - destruct (armijo_terminates _ (mo_ls Op) (st_x M s) d (st_cost M s) (dot (lm_ls M) (st_grad M s) d) lf step) as (r & Hr & _); eauto.
      - destruct (O4 eq_refl) as (P1 & P2 & P3).
        destruct (wolfe_terminates _ (mo_ls Op) (st_x M s) d (st_cost M s) (dot (lm_ls M) (st_grad M s) d) lf step) as (r & Hr & _); eauto. }
    destruct Hs as [sm Hs]. rewrite Hs.
    destruct (su_success _ sm) eqn:Eok; cbn [negb]; [|eauto].
    pose proof (search_result _ _ SC _ _ _ _ _ _ Hi Hs Eok) as Hr.
    assert (Hy : exists y, fs_vector_x _ (su_optimal _ sm) = Some y).
    { destruct Hr as [(Q & _)|(y & ? & ? & Q & _)]; eauto. }
    destruct Hy as [y Hy]. rewrite Hy.
    destruct (at_optimum M (su_optimal _ sm) y _) as [[[c' g']|] tr] eqn:Eo; [|eauto].
    destruct (at_optimum_ok _ SC _ _ _ _ _ _ _ Hi Hr Hy Eo) as (A1 & A2 & A3).
    destruct (gradient_norm M y g') as [gmax|]; [|eauto].
    destruct (converged _ _ _ _); [eauto|]. apply IH; [split; assumption|lia]. }
  apply Hmain; [|lia]. split; [exact Ee|]. eapply H0. reflexivity.
Qed.
Print Assumptions lm_terminates.

(** ** C59: the termination type is justified *)
Theorem lm_termination_justified : forall M Op fuel lf x0 r,
  sane_costs M -> (forall c g, eval (lm_ls M) x0 true = Some (c, g) -> is_fin c = true) ->
  minimize M Op fuel lf x0 = Done r ->
  (r_term M r = NO_CONVERGENCE ->
     exists l it, r_iters M r = l ++ [it] /\ (mo_max_iter Op <= it_number it \/ lm_time_up M (it_number it) = true)) /\
  (r_term M r = USER_SUCCESS -> run_callbacks M (lm_callbacks M) (r_iters M r) (r_x M r) = SOLVER_TERMINATE_SUCCESSFULLY) /\
  (r_term M r = USER_FAILURE -> run_callbacks M (lm_callbacks M) (r_iters M r) (r_x M r) = SOLVER_ABORT) /\
  (r_term M r = CONVERGENCE ->
     (exists c g gmax, r_iters M r = [] /\ r_x M r = x0 /\ eval (lm_ls M) x0 true = Some (c, g) /\
        gradient_norm M x0 g = Some gmax /\ dle gmax (mo_gtol Op) = true) \/
     (exists l it c g gmax xp cp gp, r_iters M r = l ++ [it] /\
        eval (lm_ls M) (r_x M r) true = Some (c, g) /\ gradient_norm M (r_x M r) g = Some gmax /\
        eval (lm_ls M) xp true = Some (cp, gp) /\
        (dle (pdist M (r_x M r) xp) (dmul (mo_ptol Op) (dadd (pnorm M xp) (mo_ptol Op))) = true \/
         dle gmax (mo_gtol Op) = true \/
         dle (dabs (dsub cp c)) (dmul (mo_ftol Op) (dabs cp)) = true))).
Proof.
  intros M Op fuel lf x0 r SC H0 H. unfold minimize in H.
  destruct (eval (lm_ls M) x0 true) as [[c g]|] eqn:Ee.
  2: { injection H as <-. cbn [r_term]. split; [|split; [|split]]; discriminate. }
  destruct (gradient_norm M x0 g) as [gm|] eqn:Eg.
  2: { injection H as <-. cbn [r_term]. split; [|split; [|split]]; discriminate. }
  destruct (dle gm (mo_gtol Op)) eqn:Et.
  { injection H as <-. cbn [r_term]. split; [|split; [|split]]; try discriminate. intros _. left. exists c, g, gm. auto. }
  rewrite <- Ee.
  eapply lm_loop_ind with
    (P := fun k s => invar M s /\ exists l it, st_iters M s = l ++ [it] /\ it_number it = k)
    (Q := fun r =>
  (r_term M r = NO_CONVERGENCE ->
     exists l it, r_iters M r = l ++ [it] /\ (mo_max_iter Op <= it_number it \/ lm_time_up M (it_number it) = true)) /\
  (r_term M r = USER_SUCCESS -> run_callbacks M (lm_callbacks M) (r_iters M r) (r_x M r) = SOLVER_TERMINATE_SUCCESSFULLY) /\
  (r_term M r = USER_FAILURE -> run_callbacks M (lm_callbacks M) (r_iters M r) (r_x M r) = SOLVER_ABORT) /\
  (r_term M r = CONVERGENCE ->
     (exists c g gmax, r_iters M r = [] /\ r_x M r = x0 /\ eval (lm_ls M) x0 true = Some (c, g) /\
        gradient_norm M x0 g = Some gmax /\ dle gmax (mo_gtol Op) = true) \/
     (exists l it c g gmax xp cp gp, r_iters M r = l ++ [it] /\
        eval (lm_ls M) (r_x M r) true = Some (c, g) /\ gradient_norm M (r_x M r) g = Some gmax /\
        eval (lm_ls M) xp true = Some (cp, gp) /\
        (dle (pdist M (r_x M r) xp) (dmul (mo_ptol Op) (dadd (pnorm M xp) (mo_ptol Op))) = true \/
         dle gmax (mo_gtol Op) = true \/
         dle (dabs (dsub cp c)) (dmul (mo_ftol Op) (dabs cp)) = true)))); [exact SC| | | | |exact H].
  - intros k s (A & _). exact A.
  - intros k s t tr (A & l & it & Hl & Hn) HU HN HC _. cbn [r_term r_iters r_x].
    split; [|split; [|split]].
    + intros ->. exists l, it. split; [auto|]. rewrite Hn. apply HN. reflexivity.
    + intros ->. apply HU. auto.
    + intros ->. apply HU. auto.
    + congruence.
  - intros k s d status rs dd step r' y c' g' gmax tr (A & l & it0 & Hl & Hn) Hk _ _ _ _ _ _ _ _ Hg A1 A2 A3 it s'.
    split.
    + split; [split; [exact A1|exact A3]|]. exists (st_iters M s), it. split; reflexivity.
    + intros Hc. cbn [r_term r_iters r_x]. split; [|split; [|split]]; try discriminate. intros _. right.
      exists (st_iters M s), it, c', g', gmax, (st_x M s), (st_cost M s), (st_grad M s).
      split; [reflexivity|split; [exact A1|split; [exact Hg|split; [apply A|]]]].
      unfold converged in Hc. cbn [it_step_norm it_gmax it_cost_change it] in Hc.
      apply orb_prop in Hc. destruct Hc as [Hc|Hc]; [|auto]. apply orb_prop in Hc. destruct Hc as [Hc|Hc]; auto.
  - cbn [st_iters st_x]. split; [split; [exact Ee|eapply H0; reflexivity]|].
    exists []. eexists. split; reflexivity.
Qed.
Print Assumptions lm_termination_justified.

(** ** C32: the evaluation callback, Armijo line search *)
Lemma contract_true M tr l : callback_contract M tr -> callback_contract M (tr ++ map (fun y => (y, true)) l).
Proof.
  intros H. induction l as [|a l IH] using rev_ind; [cbn [map]; rewrite app_nil_r; exact H|].
  rewrite map_app, app_assoc. cbn [map]. intros l1 y l2 Heq.
  destruct l2 as [|z l2 _] using rev_ind.
  - apply app_inj_tail in Heq. destruct Heq as [_ Heq]. discriminate.
  - eapply (IH l1 y l2). assert (Hx : l1 ++ (y, false) :: l2 ++ [z] = (l1 ++ (y, false) :: l2) ++ [z]) by (now rewrite <- app_assoc).
    rewrite Hx in Heq. apply app_inj_tail in Heq. apply Heq.
Qed.
Lemma contract_false M tr y b : callback_contract M (tr ++ [(y, b)]) -> callback_contract M ((tr ++ [(y, b)]) ++ [(y, false)]).
Proof.
  intros H l1 z l2 Heq. destruct l2 as [|w l2 _] using rev_ind.
  - apply app_inj_tail in Heq. destruct Heq as [Heq1 Heq2]. injection Heq2 as <-. exists tr, b. auto.
  - eapply (H l1 z l2). assert (Hx : l1 ++ (z, false) :: l2 ++ [w] = (l1 ++ (z, false) :: l2) ++ [w]) by (now rewrite <- app_assoc).
    rewrite Hx in Heq. apply app_inj_tail in Heq. apply Heq.
Qed.
Lemma contract_search M Op lf s d dd step r y : mo_type Op = ARMIJO ->
  search M Op lf (st_x M s) d (st_cost M s) dd step = Done r -> su_success _ r = true ->
  fs_vector_x _ (su_optimal _ r) = Some y -> callback_contract M (st_trace M s) ->
  callback_contract M (snd (at_optimum M (su_optimal _ r) y (st_trace M s ++ map (fun y => (y, true)) (su_points _ r)))).
Proof.
  intros Ht H Hs Hy HC. unfold search in H. rewrite Ht in H.
  apply armijo_search_good in H. destruct H as (_ & _ & _ & _ & H). destruct (H Hs) as (_ & _ & _ & (l & y' & Hp & Hy') & _).
  rewrite Hy in Hy'. injection Hy' as <-.
  unfold at_optimum. destruct (fs_vector_gradient _ _); cbn [snd]; [apply contract_true; auto|].
  rewrite Hp, map_app. cbn [map]. rewrite app_assoc. apply contract_false. rewrite <- app_assoc.
  change [(y, true)] with (map (fun y => (y, true)) [y]). rewrite <- map_app. apply contract_true. auto.
Qed.

Theorem lm_callback_contract_armijo : forall M Op fuel lf x0 r,
  sane_costs M -> (forall c g, eval (lm_ls M) x0 true = Some (c, g) -> is_fin c = true) ->
  mo_type Op = ARMIJO -> minimize M Op fuel lf x0 = Done r -> callback_contract M (r_trace M r).
Proof.
  intros M Op fuel lf x0 r SC H0 Ht H. unfold minimize in H.
  assert (HI : callback_contract M [(x0, true)]) by (intros [|? [|? ?]] y l2 Heq; discriminate).
  destruct (eval (lm_ls M) x0 true) as [[c g]|] eqn:Ee; [|injection H as <-; exact HI].
  destruct (gradient_norm M x0 g) as [gm|] eqn:Eg; [|injection H as <-; exact HI].
  destruct (dle gm (mo_gtol Op)); [injection H as <-; exact HI|].
  eapply lm_loop_ind with
    (P := fun k s => invar M s /\ callback_contract M (st_trace M s))
    (Q := fun r => callback_contract M (r_trace M r)); [exact SC| | | | |exact H].
  - intros k s (A & _). exact A.
  - intros k s t tr (A & B) HU HN HC HF. cbn [r_trace]. destruct t.
    + congruence.
    + destruct (HN eq_refl) as [-> _]. exact B.
    + destruct (HF eq_refl) as [->|(d & status & rs & dd & r' & _ & _ & Hse & [->|(y & Hs & Hy & ->)])]; auto.
      * apply contract_true. exact B.
      * eapply contract_search; eauto.
    + destruct HU as [-> _]; auto.
    + destruct HU as [-> _]; auto.
  - intros k s d status rs dd step r' y c' g' gmax tr (A & B) Hk _ _ _ _ Hse Hsu Hy Ho _ A1 A2 A3 it s'.
    assert (HC : callback_contract M tr).
    { change tr with (snd (Some (c', g'), tr)). rewrite <- Ho. eapply contract_search; eauto. }
    split; [split; [split; [exact A1|exact A3]|exact HC]|intros _; exact HC].
  - split; [split; [exact Ee|eapply H0; reflexivity]|exact HI].
Qed.
Print Assumptions lm_callback_contract_armijo.

(** ** concrete runs *)
(** y^2 on the line, from -2, the direction being minus the gradient *)
Definition M1 (f : dbl -> option (dbl * dbl)) : lm_env :=
  mkLM (E1 f) dneg (fun x y => dabs (dsub x y)) (fun x y => dabs (dsub x y)) dabs (fun _ g => Some (dneg g)) [] (fun _ => false).
Definition lopts (t : ls_type) (n m : Z) : lm_options :=
  mkLMO t (opts CUBIC n) m 5 (dq 1 10000000000) (dq 1 1000000) (dq 1 100000000) (Fin 0).
(** termination, x, (number, cost) of the iterations, evaluations *)
Definition rview {f} (o : outcome (result (M1 f))) : option (termination * dbl * list (Z * dbl) * list (dbl * bool)) :=
  match o with
  | Done r => Some (r_term _ r, r_x _ r, map (fun it => (it_number it, it_cost it)) (r_iters _ r), r_trace _ r)
  | _ => None
  end.

(** one bracketing and one zoom step: y^2 is minimized in two iterations *)
Example lm_wolfe_case :
  rview (minimize (M1 square) (lopts WOLFE 20 3) 20 20 (dz (-2))) =
  Some (CONVERGENCE, dz 0, [(0, dz 4); (1, dz 1); (2, dz 0)],
        [(dz (-2), true); (dz (-1), true); (dz 1, true); (dz 0, true)]).
Proof. vm_compute. reflexivity. Qed.
(** bisection-like Armijo search stopped by the iteration limit *)
Example lm_armijo_case :
  rview (minimize (M1 square) (lopts ARMIJO 20 1) 20 20 (dz (-2))) =
  Some (NO_CONVERGENCE, dz (-1), [(0, dz 4); (1, dz 1)], [(dz (-2), true); (dz (-1), true)]).
Proof. vm_compute. reflexivity. Qed.

(** ** the hypotheses hold of that problem *)
Lemma square_inv y g v gr : eval (E1 square) y g = Some (v, gr) ->
  exists z, y = Fin z /\ Z.abs z < 4 * ONEU /\ v = dmul y y /\ gr = dmul (dz 2) y.
Proof.
  cbn [eval E1]. unfold square. destruct (dlt (dabs y) (dz 4)) eqn:E; [|discriminate].
  intros H. assert (H4 : dz 4 = Fin (4 * ONEU)) by (vm_compute; reflexivity). rewrite H4 in E.
  apply dlt_abs_fin in E. destruct E as (z & E1' & E2). exists z. split; [exact E1'|split; [exact E2|]].
  clear - H. revert H. generalize (dz 2). intros t H. inversion H. auto.
Qed.
Lemma rnd_range k n : 0 < k -> - (k * ONEU * ONEU) <= n <= k * ONEU * ONEU -> rnd (k * ONEU) 1 = Fin (k * ONEU) ->
  exists z, rnd n ONEU = Fin z /\ - (k * ONEU) <= z <= k * ONEU.
Proof.
  intros Hk Hn Hr. pose proof ONEU_pos as P.
  assert (U : dle (rnd n ONEU) (rnd (k * ONEU) 1) = true) by (apply rnd_mono; lia).
  assert (L : dle (rnd (- (k * ONEU)) 1) (rnd n ONEU) = true) by (apply rnd_mono; lia).
  rewrite rnd_opp in L by lia. rewrite Hr in U, L. cbn [dneg] in L. exact (dle_fin _ _ _ L U).
Qed.
Lemma square_slope y : Z.abs y < 4 * ONEU -> exists z, dmul (dz 2) (Fin y) = Fin z /\ - (8 * ONEU) <= z <= 8 * ONEU.
Proof.
  intros H. assert (H2 : dz 2 = Fin (2 * ONEU)) by (vm_compute; reflexivity). rewrite H2. pose proof ONEU_pos.
  change (dmul (Fin (2 * ONEU)) (Fin y)) with (rnd (2 * ONEU * y) ONEU).
  apply rnd_range; [lia|nia|vm_compute; reflexivity].
Qed.

Example square_sane : sane_costs (M1 square).
Proof.
  split.
  - intros y g v gr H. apply square_inv in H. destruct H as (z & _ & _ & -> & _). apply dmul_valid.
  - intros y v gr v' gr' H H'. apply square_inv in H. apply square_inv in H'.
    destruct H as (_ & _ & _ & -> & _). destruct H' as (_ & _ & _ & -> & _). reflexivity.
Qed.
Example square_descent : descent_directions (M1 square).
Proof.
  intros y v g H _. apply square_inv in H. destruct H as (z & -> & Hz & _ & ->).
  destruct (square_slope z Hz) as (w & -> & Hw).
  assert (D : descent_slope (dmul (Fin w) (dneg (Fin w)))).
  { change (dmul (Fin w) (dneg (Fin w))) with (rnd (w * - w) ONEU). pose proof ONEU_pos as P.
    destruct (rnd_range 64 (w * - w)) as (u & Hu & _); [lia|nia|vm_compute; reflexivity|].
    split; [rewrite Hu; reflexivity|split; [apply rnd_valid; exact P|]].
    replace (Fin 0) with (rnd 0 ONEU) by (vm_compute; reflexivity). apply rnd_mono; try lia; nia. }
  split; [exact D|]. intros k d Hd. cbn [next_direction M1] in Hd.
  assert (Q : dneg (Fin w) = d) by congruence. rewrite <- Q. exact D.
Qed.
Lemma square_usable d : usable_direction (M1 square) d -> exists w, d = Fin w /\ - (8 * ONEU) <= w <= 8 * ONEU.
Proof.
  intros (y & v & g & H & _ & Hd). apply square_inv in H. destruct H as (z & -> & Hz & _ & ->).
  destruct (square_slope z Hz) as (w & Hw & Hb). exists (- w).
  assert (Q : d = dneg (dmul (dz 2) (Fin z))).
  { destruct Hd as [->|[k Hk]]; [reflexivity|]. cbn [next_direction M1] in Hk. congruence. }
  rewrite Q, Hw. split; [reflexivity|lia].
Qed.
Example square_searchable t n m : searchable (M1 square) (lopts t n m).
Proof.
  split; [apply opts_good|split; [apply E1_nonneg|split]].
  - intros x d HU x' y g v gr Hp He _. apply square_inv in He. destruct He as (z & -> & _).
    destruct (square_usable d HU) as (w & -> & _).
    cbn [plus scale E1 lm_ls M1] in Hp. assert (Q : dadd x (dmul x' (Fin w)) = Fin z) by congruence. clear Hp.
    destruct x' as [| |x'|]; try reflexivity; exfalso.
    + destruct x; discriminate.
    + cbn [dmul] in Q. destruct w; cbn [inf_of_sign Z.opp] in Q; destruct x; discriminate.
    + cbn [dmul] in Q. destruct w; cbn [inf_of_sign Z.opp] in Q; destruct x; discriminate.
  - intros _ d HU y v gr He _. apply square_inv in He. destruct He as (z & -> & Hz & _ & ->).
    destruct (square_slope z Hz) as (u & -> & Hu). destruct (square_usable d HU) as (w & -> & Hw).
    change (is_fin (rnd (w * u) ONEU) = true). pose proof ONEU_pos as P.
    destruct (rnd_range 64 (w * u)) as (q & -> & _); [lia|nia|vm_compute; reflexivity|]. reflexivity.
Qed.
Example lopts_accepted t m : accepted_options (lopts t 20 m).
Proof. split; [|split; [|split; [reflexivity|intros _; split; [|split]]]]; vm_compute; reflexivity. Qed.

(** ** findings *)
(** the objective can be evaluated at the start only: both Wolfe trial steps fail, yet the search reports
    success with step 0; the minimizer reports CONVERGENCE, and re-evaluates the start with
    new_evaluation_point = false although another point was evaluated last *)
Definition only_start (y : dbl) : option (dbl * dbl) := if dle y (dz (-2)) then Some (dz 4, dz (-4)) else None.
Theorem lm_failed_search_converges_refuted :
  rview (minimize (M1 only_start) (lopts WOLFE 2 3) 20 20 (dz (-2))) =
  Some (CONVERGENCE, dz (-2), [(0, dz 4); (1, dz 4)],
        [(dz (-2), true); (dz (-1), true); (dq (-3) 2, true); (dz (-2), false)]).
Proof. vm_compute. reflexivity. Qed.
Print Assumptions lm_failed_search_converges_refuted.

Theorem lm_callback_contract_wolfe_refuted :
  exists M Op x0 r, mo_type Op = WOLFE /\ minimize M Op 20 20 x0 = Done r /\ ~ callback_contract M (r_trace M r).
Proof.
  exists (M1 only_start), (lopts WOLFE 2 3), (dz (-2)).
  pose proof lm_failed_search_converges_refuted as H.
  destruct (minimize (M1 only_start) (lopts WOLFE 2 3) 20 20 (dz (-2))) as [r| |]; [|discriminate|discriminate].
  exists r. split; [reflexivity|split; [reflexivity|]]. intros HC.
  assert (Ht : r_trace _ r = [(dz (-2), true); (dz (-1), true); (dq (-3) 2, true)] ++ (dz (-2), false) :: []).
  { revert H. cbn [rview app]. generalize (dz (-2)) (dz (-1)) (dz 4) (dq (-3) 2). intros; congruence. }
  destruct (HC _ _ _ Ht) as (l0 & b & Hl).
  assert (Hq : dq (-3) 2 = dz (-2)).
  { revert Hl. generalize (dz (-2)) (dz (-1)) (dq (-3) 2). intros p q u Hl.
    change [(p, true); (q, true); (u, true)] with ([(p, true); (q, true)] ++ [(u, true)]) in Hl.
    apply app_inj_tail in Hl. destruct Hl as [_ Hl]. congruence. }
  assert (Hne : dlt (dz (-2)) (dq (-3) 2) = true) by (vm_compute; reflexivity).
  rewrite Hq in Hne. rewrite dlt_irrefl in Hne. discriminate.
Qed.
Print Assumptions lm_callback_contract_wolfe_refuted.
