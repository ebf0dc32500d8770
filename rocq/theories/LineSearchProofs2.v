(** Line searches: no abort, termination, non negative steps, descent. *)
Require Import List ZArith Bool Lia.
From Verif Require Import Dbl DblArith DblArithProofs DblArithProofs2 LineSearchModel LineSearchSpec LineSearchProofs.
Import ListNotations.
Open Scope Z_scope.

Lemma nonneg_cases a : nonneg a -> a = PInf \/ exists z, a = Fin z /\ 0 <= z.
Proof. unfold nonneg. destruct a; cbn; try discriminate; auto. intros H. right. eexists. split; [reflexivity|lia]. Qed.
Lemma nonneg_nn a : nonneg a -> a <> NaN.
Proof. intros H ->. discriminate. Qed.
Lemma dmul_nonneg c x : dlt (Fin 0) c = true -> is_fin c = true -> nonneg x -> nonneg (dmul c x).
Proof.
  intros Hc Hf Hx. destruct c as [| |c|]; try discriminate. cbn in Hc. apply Z.ltb_lt in Hc.
  destruct (nonneg_cases x Hx) as [->|(z & -> & Hz)]; cbn [dmul].
  - destruct c; try lia. reflexivity.
  - unfold nonneg. replace (Fin 0) with (rnd 0 ONEU) by (vm_compute; reflexivity). apply rnd_mono; try apply ONEU_pos.
    assert (0 <= c * z) by nia. pose proof ONEU_pos. nia.
Qed.
Lemma dmul_comm a b : dmul a b = dmul b a.
Proof. destruct a, b; try reflexivity. cbn [dmul]. now rewrite Z.mul_comm. Qed.
Lemma dmul_le_mono c c' x : dle c c' = true -> dlt (Fin 0) c = true -> is_fin c' = true -> nonneg x ->
  dle (dmul c x) (dmul c' x) = true.
Proof.
  intros Hcc Hc Hf Hx. destruct c as [| |c|], c' as [| |c'|]; try discriminate. cbn in Hc, Hcc. apply Z.ltb_lt in Hc. apply Z.leb_le in Hcc.
  destruct (nonneg_cases x Hx) as [->|(z & -> & Hz)]; cbn [dmul].
  - destruct c, c'; try lia. reflexivity.
  - apply rnd_mono; try apply ONEU_pos. pose proof ONEU_pos. assert (c * z <= c' * z) by nia. nia.
Qed.
Lemma dmax_nonneg a b : nonneg a -> nonneg b -> nonneg (dmax a b).
Proof. unfold dmax. destruct (dlt a b); auto. Qed.
Lemma dmin_nonneg a b : nonneg a -> nonneg b -> nonneg (dmin a b).
Proof. unfold dmin. destruct (dlt b a); auto. Qed.
Lemma half_nonneg x : nonneg x -> nonneg (dmul x (dq 1 2)).
Proof. intros H. rewrite dmul_comm. apply dmul_nonneg; auto; vm_compute; reflexivity. Qed.
Lemma clamp_in x a b : nonneg x -> nonneg a -> dle a b = true -> dle a (dmin (dmax x a) b) = true /\ dle (dmin (dmax x a) b) b = true.
Proof.
  intros Hx Ha Hab. assert (Hb : nonneg b) by (unfold nonneg in *; eapply dle_trans; eauto).
  assert (Hm : dle a (dmax x a) = true).
  { unfold dmax. destruct (dlt x a) eqn:El; [apply dle_refl; now apply nonneg_nn|].
    apply dlt_false_le; auto using nonneg_nn. }
  unfold dmin. destruct (dlt b (dmax x a)) eqn:El.
  - split; [auto|apply dle_refl; now apply nonneg_nn].
  - split; [exact Hm|]. apply dlt_false_le; auto. apply nonneg_nn; auto. apply nonneg_nn. apply dmax_nonneg; auto.
Qed.

(** the bound of sufficient decrease is below the initial cost *)
Lemma dadd_comm a b : dadd a b = dadd b a.
Proof. destruct a, b; try reflexivity. cbn [dadd]. now rewrite Z.add_comm. Qed.
Lemma fin_between c m : dlt (Fin 0) c = true -> dlt c (Fin m) = true -> exists z, c = Fin z /\ 0 < z < m.
Proof.
  destruct c as [| |z|]; try discriminate. cbn. intros A B. apply Z.ltb_lt in A. apply Z.ltb_lt in B. exists z. auto.
Qed.
Lemma slope_fin c g : dlt (Fin 0) c = true -> dlt c (dz 1) = true -> is_fin g = true -> dvalid g -> dle g (Fin 0) = true ->
  exists z, dmul c g = Fin z /\ z <= 0.
Proof.
  intros Hc Hc1 Hf Hv Hg.
  assert (Hd : dz 1 = Fin ONEU) by (vm_compute; reflexivity). rewrite Hd in Hc1.
  destruct (fin_between _ _ Hc Hc1) as (k & -> & Hk). clear Hc Hc1 Hd. rename k into c.
  destruct g as [| |g|]; try discriminate.
  cbn [dle] in Hg. apply Z.leb_le in Hg. cbn in Hv.
  pose proof ONEU_pos.
  assert (A : dle (Fin g) (rnd (c * g) ONEU) = true).
  { rewrite <- Hv. apply rnd_mono; try lia. rewrite Z.mul_1_r. nia. }
  assert (B : dle (rnd (c * g) ONEU) (Fin 0) = true).
  { replace (Fin 0) with (rnd 0 ONEU) by (vm_compute; reflexivity). apply rnd_mono; try lia; nia. }
  cbn [dmul]. destruct (rnd (c * g) ONEU) as [| |z|]; try discriminate. exists z. split; [reflexivity|]. cbn in B. lia.
Qed.

Section P2.
Variable E : ls_env.
Variable Op : ls_options.
Variable position : pt E.
Variable direction : vec E.
Variable c0 g0 : dbl.
Notation smp := (sample E).
Notation sm := (summary E).
Notation ev := (ls_evaluate E position direction).
Notation ini := (initial_position E position c0 g0).
Notation evd := (evaluated E position direction).
Notation al := (armijo_loop E Op position direction c0 g0).

Lemma bound_not_nan x : is_fin c0 = true -> is_fin g0 = true -> dvalid g0 -> dle g0 (Fin 0) = true ->
  dlt (Fin 0) (lo_decrease Op) = true -> dlt (lo_decrease Op) (dz 1) = true -> is_fin x = true ->
  armijo_bound Op c0 g0 x <> NaN.
Proof.
  intros H0 Hg Hv Hle A B Hx. unfold armijo_bound.
  destruct (slope_fin _ _ A B Hg Hv Hle) as (z & -> & _).
  destruct x as [| |x|]; try discriminate. destruct c0 as [| |c|]; try discriminate. cbn [dmul].
  pose proof (rnd_not_nan (z * x) ONEU). destruct (rnd (z * x) ONEU); try congruence; cbn [dadd]; try discriminate.
  apply rnd_not_nan.
Qed.
Lemma bound_le x : is_fin c0 = true -> dvalid c0 -> is_fin g0 = true -> dvalid g0 -> dle g0 (Fin 0) = true ->
  dlt (Fin 0) (lo_decrease Op) = true -> dlt (lo_decrease Op) (dz 1) = true -> is_fin x = true -> nonneg x ->
  dle (armijo_bound Op c0 g0 x) c0 = true.
Proof.
  intros H0 Hv0 Hg Hv Hle A B Hx Hn. pose proof (bound_not_nan x H0 Hg Hv Hle A B Hx) as Hnn. unfold armijo_bound in *.
  destruct (slope_fin _ _ A B Hg Hv Hle) as (z & Hz & Hz0). rewrite Hz in *.
  destruct x as [| |x|]; try discriminate. destruct c0 as [| |c|]; try discriminate.
  unfold nonneg in Hn. cbn [dle] in Hn. apply Z.leb_le in Hn.
  assert (M : dle (dmul (Fin z) (Fin x)) (Fin 0) = true).
  { cbn [dmul]. replace (Fin 0) with (rnd 0 ONEU) by (vm_compute; reflexivity). pose proof ONEU_pos. apply rnd_mono; try lia; nia. }
  rewrite dadd_comm in *. assert (Hz' : dadd (Fin 0) (Fin c) = Fin c) by (cbn [dadd]; rewrite Z.add_0_l; exact Hv0).
  rewrite <- Hz' at 2. apply dadd_mono; auto; try discriminate. rewrite Hz'. discriminate.
Qed.

Hypothesis GO : good_options Op.
Hypothesis HP : poly_min_nonneg E.

Lemma interp_total lower previous current lo hi : nonneg (fs_x E current) -> nonneg lo -> nonneg hi ->
  fs_value_valid E lower = true -> exists st, interp_step E Op lower previous current lo hi = Some st /\ nonneg st.
Proof.
  intros Hc Hl Hh Hv. unfold interp_step. cbv zeta.
  pose proof (half_nonneg _ Hc) as Hhf.
  assert (Hb : nonneg (dmin (dmax (dmul (fs_x E current) (dq 1 2)) lo) hi)) by (apply dmin_nonneg; [apply dmax_nonneg|]; auto).
  destruct (negb (fs_value_valid E current)); [eauto|].
  destruct (lo_interpolation Op).
  - destruct (dle hi (fs_x E current)) eqn:E1; [eauto|]. destruct (dlt (fs_x E current) hi) eqn:E2; [eauto|].
    apply dlt_false_le in E2; auto using nonneg_nn. congruence.
  - rewrite Hv. cbn [negb]. eauto.
  - rewrite Hv. cbn [negb]. eauto.
Qed.

Lemma armijo_loop_total : forall fuel previous current s, nonneg (fs_x E current) ->
  (forall x, In x (su_steps E s) -> nonneg x) ->
  al fuel previous current s <> Aborted /\
  (forall r, al fuel previous current s = Done r -> forall x, In x (su_steps E r) -> nonneg x).
Proof.
  induction fuel as [|f IH]; intros previous current s Hc Hs; cbn [armijo_loop]; cbv zeta;
    (destruct (negb _ || _);
     [|split; [discriminate|]; intros r Hr; injection Hr as <-; exact Hs]).
  - split; discriminate.
  - destruct (lo_max_iter Op <=? _); [split; [discriminate|]; intros r Hr; injection Hr as <-; exact Hs|].
    destruct GO as [[A A'] [B B'] C D].
    destruct (interp_total ini previous current (dmul (lo_max_contraction Op) (fs_x E current))
                (dmul (lo_min_contraction Op) (fs_x E current))) as (st & -> & Hst); auto using dmul_nonneg.
    destruct (dlt (dmul st _) _); [split; [discriminate|]; intros r Hr; injection Hr as <-; exact Hs|].
    destruct (ev st (cubic Op) current) as [next pts] eqn:En.
    assert (Hn : next = fst (ev st (cubic Op) current)) by (rewrite En; reflexivity).
    apply IH.
    + rewrite Hn, ls_evaluate_x. exact Hst.
    + cbn [su_steps count_eval count_iter]. intros x Hx. apply in_app_iff in Hx. destruct Hx as [Hx|[<-|[]]]; auto.
Qed.

(** each Armijo step is a contraction of the step before *)
Hypothesis HI : poly_min_in E.
Lemma interp_in lower previous current lo hi st : nonneg (fs_x E current) -> nonneg lo -> dle lo hi = true ->
  interp_step E Op lower previous current lo hi = Some st -> dle lo st = true /\ dle st hi = true.
Proof.
  intros Hc Hl Hh. unfold interp_step. cbv zeta.
  pose proof (clamp_in _ _ _ (half_nonneg _ Hc) Hl Hh) as Hb.
  assert (Hhn : nonneg hi) by (unfold nonneg in *; eapply dle_trans; eauto).
  destruct (negb (fs_value_valid E current)); [intros H; injection H as <-; exact Hb|].
  destruct (lo_interpolation Op).
  - destruct (dle hi (fs_x E current)); [intros H; injection H as <-; exact Hb|].
    destruct (dlt (fs_x E current) hi); [intros H; injection H as <-|discriminate].
    split; [exact Hh|apply dle_refl, nonneg_nn, Hhn].
  - destruct (negb _); [discriminate|]. intros H; injection H as <-. apply HI. exact Hh.
  - destruct (negb _); [discriminate|]. intros H; injection H as <-. apply HI. exact Hh.
Qed.
Lemma contracting_snoc l a b : contracting Op (l ++ [a]) ->
  dle (dmul (lo_max_contraction Op) a) b = true -> dle b (dmul (lo_min_contraction Op) a) = true ->
  contracting Op (l ++ [a] ++ [b]).
Proof.
  intros H H1 H2 l1 x y l2 Heq. destruct l2 as [|z l2] using rev_ind.
  - assert (Hx : l ++ [a] ++ [b] = (l ++ [a]) ++ [b]) by (now rewrite <- app_assoc). rewrite Hx in Heq.
    assert (Hy : l1 ++ [x; y] = (l1 ++ [x]) ++ [y]) by (now rewrite <- app_assoc). rewrite Hy in Heq.
    apply app_inj_tail in Heq. destruct Heq as [Heq <-]. apply app_inj_tail in Heq. destruct Heq as [_ <-]. auto.
  - clear IHl2. eapply H with (l1 := l1) (l2 := l2).
    assert (Hx : l ++ [a] ++ [b] = (l ++ [a]) ++ [b]) by (now rewrite <- app_assoc). rewrite Hx in Heq.
    assert (Hy : l1 ++ x :: y :: l2 ++ [z] = (l1 ++ x :: y :: l2) ++ [z]) by (now rewrite <- app_assoc). rewrite Hy in Heq.
    apply app_inj_tail in Heq. apply Heq.
Qed.
Lemma armijo_loop_contracting : forall fuel previous current s r, nonneg (fs_x E current) ->
  (exists l, su_steps E s = l ++ [fs_x E current]) -> contracting Op (su_steps E s) ->
  al fuel previous current s = Done r -> contracting Op (su_steps E r).
Proof.
  induction fuel as [|f IH]; intros previous current s r Hc [l Hl] Hs; cbn [armijo_loop]; cbv zeta;
    (destruct (negb _ || _); [|intros Hr; injection Hr as <-; exact Hs]); [discriminate|].
  destruct (lo_max_iter Op <=? _); [intros Hr; injection Hr as <-; exact Hs|].
  destruct GO as [[A A'] [B B'] C D].
  destruct (interp_step _ _ _ _ _ _ _) as [st|] eqn:Ei; [|discriminate].
  apply interp_in in Ei; auto using dmul_nonneg, dmul_le_mono. destruct Ei as [E1 E2].
  destruct (dlt (dmul st _) _); [intros Hr; injection Hr as <-; exact Hs|].
  destruct (ev st (cubic Op) current) as [next pts] eqn:En. intros Hr.
  assert (Hn : next = fst (ev st (cubic Op) current)) by (rewrite En; reflexivity).
  apply IH in Hr; auto.
  - rewrite Hn, ls_evaluate_x. unfold nonneg in *. eapply dle_trans; [|exact E1]. apply dmul_nonneg; auto.
  - exists (su_steps E s). cbn [su_steps count_eval count_iter]. rewrite Hn, ls_evaluate_x. reflexivity.
  - cbn [su_steps count_eval count_iter]. rewrite Hl in *. rewrite <- app_assoc. apply contracting_snoc; auto.
Qed.

(** the bracketing phase *)
Hypothesis HS : finite_slopes E direction.
Lemma evaluate_gradient_valid x old : fs_value_valid E (fst (ev x true old)) = true -> fs_gradient_valid E (fst (ev x true old)) = true.
Proof.
  intros H. apply ls_evaluate_evaluated in H. destruct H as (_ & y & gr & _ & _ & He & Hf & Hg & _).
  destruct (Hg eq_refl) as (_ & -> & _). eapply HS; eauto.
Qed.

Definition solid (s : smp) : Prop :=
  nonneg (fs_x E s) /\ (fs_value_valid E s = true -> fs_gradient_valid E s = true).
Definition steps_ok (s : sm) : Prop := forall x, In x (su_steps E s) -> nonneg x.

Lemma bracket_loop_total : forall fuel low high previous current s,
  lo_max_iter Op - su_iter E s <= Z.of_nat fuel + 1 ->
  solid low -> fs_value_valid E low = true ->
  solid previous -> fs_value_valid E previous = true -> solid current -> steps_ok s ->
  exists b, bracket_loop E Op position direction c0 g0 fuel low high previous current s = Done b /\
    steps_ok (br_sum E b) /\
    lo_max_iter Op - su_iter E (br_sum E b) <= Z.of_nat fuel /\
    (br_ok E b = true -> br_zoom E b = true ->
       solid (br_low E b) /\ fs_value_valid E (br_low E b) = true /\
       solid (br_high E b) /\ fs_value_valid E (br_high E b) = true).
Proof.
  induction fuel as [|f IH]; intros low high previous current s Hf Hlow Hlv Hprev Hpv Hcur Hs; cbn [bracket_loop]; cbv zeta;
    unfold bracket_done;
    (destruct (fs_value_valid E current && (_ || _)) eqn:E1;
     [ apply andb_prop in E1; destruct E1 as [Ev _];
       eexists; split; [reflexivity|split; [exact Hs|split; [cbn [br_sum su_iter count_iter set_error]; lia|]]]; cbn [br_ok br_zoom br_low br_high]; intros _ _; auto |]);
    (destruct (fs_value_valid E current && dle (dabs (fs_gradient E current)) (curvature_bound Op g0)) eqn:E2;
     [ eexists; split; [reflexivity|split; [exact Hs|split; [cbn [br_sum su_iter count_iter set_error]; lia|]]]; cbn [br_ok br_zoom andb]; discriminate |]);
    (destruct (fs_value_valid E current && dle (Fin 0) (fs_gradient E current)) eqn:E3;
     [ apply andb_prop in E3; destruct E3 as [Ev _];
       eexists; split; [reflexivity|split; [exact Hs|split; [cbn [br_sum su_iter count_iter set_error]; lia|]]]; cbn [br_ok br_zoom br_low br_high]; intros _ _; auto |]);
    (destruct (fs_value_valid E current && dlt (dmul (dabs (dsub (fs_x E current) (fs_x E previous))) (direction_norm E direction)) (lo_min_step Op)) eqn:E4;
     [ eexists; split; [reflexivity|split; [exact Hs|split; [cbn [br_sum su_iter count_iter set_error]; lia|]]]; cbn [br_ok br_zoom andb]; discriminate |]);
    (destruct (lo_max_iter Op <=? su_iter E (count_iter E s)) eqn:E5;
     [ eexists; split; [reflexivity|split; [exact Hs|split; [cbn [br_sum su_iter count_iter set_error]; lia|]]]; cbn [br_ok br_zoom andb]; discriminate |]);
    cbn [su_iter count_iter] in E5; [exfalso; lia|].
  destruct GO as [A B C [D D']].
  destruct (interp_total previous (empty_sample E) current
              (if fs_value_valid E current then fs_x E current else fs_x E previous)
              (if fs_value_valid E current then dmul (fs_x E current) (lo_expansion Op) else fs_x E current)) as (st & -> & Hst); auto.
  { apply Hcur. }
  { destruct (fs_value_valid E current); [apply Hcur|apply Hprev]. }
  { destruct (fs_value_valid E current); [rewrite dmul_comm; apply dmul_nonneg; auto|]; apply Hcur. }
  destruct (dlt (dmul st _) _).
  { eexists; split; [reflexivity|split; [exact Hs|split; [cbn [br_sum su_iter count_iter set_error]; lia|]]]; cbn [br_ok]; discriminate. }
  destruct (ev st true current) as [next pts] eqn:En.
  assert (Hn : next = fst (ev st true current)) by (rewrite En; reflexivity).
  destruct (IH low high (if fs_value_valid E current then current else previous) next (count_eval E true st pts (count_iter E s)))
    as (b & Hb & P1 & P2 & P3); auto.
  - cbn [su_iter count_eval count_iter]. lia.
  - destruct (fs_value_valid E current); auto.
  - destruct (fs_value_valid E current) eqn:Q; auto.
  - split; [rewrite Hn, ls_evaluate_x; exact Hst|]. rewrite Hn. apply evaluate_gradient_valid.
  - intros x Hx. cbn [su_steps count_eval count_iter] in Hx. apply in_app_iff in Hx. destruct Hx as [Hx|[<-|[]]]; auto.
  - exists b. split; [exact Hb|split; [exact P1|split; [lia|exact P3]]].
Qed.

Lemma zoom_loop_total : forall fuel low high s,
  lo_max_iter Op - su_iter E s <= Z.of_nat fuel ->
  solid low -> fs_value_valid E low = true -> solid high -> fs_value_valid E high = true -> steps_ok s ->
  exists ok sol s', zoom_loop E Op position direction c0 g0 fuel low high s = Done (ok, sol, s') /\ steps_ok s'.
Proof.
  induction fuel as [|f IH]; intros low high s Hf Hl Hlv Hh Hhv Hs; cbn [zoom_loop]; cbv zeta;
    (destruct (lo_max_iter Op <=? su_iter E s) eqn:E1; [do 3 eexists; split; [reflexivity|exact Hs]|]);
    (destruct (dlt _ (lo_min_step Op)); [do 3 eexists; split; [reflexivity|exact Hs]|]); [exfalso; lia|].
  set (lower := if dlt (fs_x E low) (fs_x E high) then low else high).
  set (upper := if dlt (fs_x E low) (fs_x E high) then high else low).
  assert (Hlo : solid lower /\ fs_value_valid E lower = true) by (unfold lower; destruct (dlt _ _); auto).
  assert (Hup : solid upper) by (unfold upper; destruct (dlt _ _); auto).
  destruct (interp_total lower (empty_sample E) upper (fs_x E lower) (fs_x E upper)) as (st & -> & Hst).
  { apply Hup. } { apply Hlo. } { apply Hup. } { apply Hlo. }
  destruct (ev st true low) as [sol pts] eqn:En.
  assert (Hn : sol = fst (ev st true low)) by (rewrite En; reflexivity).
  assert (Hsol : solid sol) by (split; [rewrite Hn, ls_evaluate_x; exact Hst|rewrite Hn; apply evaluate_gradient_valid]).
  assert (Hs' : steps_ok (count_eval E true st pts (count_iter E s))).
  { intros x Hx. cbn [su_steps count_eval count_iter] in Hx. apply in_app_iff in Hx. destruct Hx as [Hx|[<-|[]]]; auto. }
  destruct (negb _ || _) eqn:E3; [do 3 eexists; split; [reflexivity|exact Hs']|].
  apply orb_false_iff in E3. destruct E3 as [Ev _]. apply negb_false_iff in Ev.
  assert (Hfu : lo_max_iter Op - su_iter E (count_eval E true st pts (count_iter E s)) <= Z.of_nat f)
    by (cbn [su_iter count_eval count_iter]; lia).
  destruct (_ || _); [apply IH; auto|].
  destruct (dle _ _); [do 3 eexists; split; [reflexivity|exact Hs']|].
  destruct (dle _ _); apply IH; auto.
Qed.

Lemma wolfe_search_total fuel est : (Z.to_nat (lo_max_iter Op) <= fuel)%nat ->
  dle (Fin 0) est && dlt (Fin 0) (lo_decrease Op) && dlt (lo_decrease Op) (lo_curvature Op)
     && dlt (lo_curvature Op) (dz 1) && dlt (dz 1) (lo_expansion Op) = true ->
  exists r, wolfe_search E Op position direction c0 g0 fuel est = Done r /\ forall x, In x (su_steps E r) -> nonneg x.
Proof.
  intros Hf Ho. unfold wolfe_search. rewrite Ho.
  assert (He : nonneg est). { unfold nonneg. destruct (dle (Fin 0) est); [reflexivity|discriminate]. }
  unfold bracketing_phase. destruct (ev est true (empty_sample E)) as [cur pts] eqn:En.
  assert (Hn : cur = fst (ev est true (empty_sample E))) by (rewrite En; reflexivity).
  destruct (bracket_loop_total fuel ini (empty_sample E) ini cur (count_eval E true est pts (new_sum E))) as (b & -> & P1 & P2 & P3); try reflexivity.
  - cbn [su_iter count_eval new_sum]. lia.
  - split; [reflexivity|reflexivity].
  - split; [reflexivity|reflexivity].
  - split; [rewrite Hn, ls_evaluate_x; exact He|]. rewrite Hn. apply evaluate_gradient_valid.
  - intros x Hx. cbn [su_steps count_eval new_sum app] in Hx. destruct Hx as [<-|[]]; auto.
  - destruct (br_ok E b) eqn:Eok; cbn [negb]; [|eexists; split; [reflexivity|exact P1]].
    destruct (br_zoom E b) eqn:Ez; cbn [negb]; [|eexists; split; [reflexivity|exact P1]].
    destruct (P3 eq_refl eq_refl) as (Q1 & Q2 & Q3 & Q4).
    unfold zoom_phase. rewrite Q2, Q4, (proj2 Q1 Q2). cbn [andb].
    destruct (dle (Fin 0) (dmul _ _)); [cbn [negb andb fs_value_valid empty_sample]; eexists; split; [reflexivity|exact P1]|].
    destruct (zoom_loop_total fuel (br_low E b) (br_high E b) (br_sum E b)) as (ok & sol & s' & -> & Q5); auto.
    destruct (negb ok && _); [eexists; split; [reflexivity|exact Q5]|].
    destruct (negb _ || _); eexists; (split; [reflexivity|exact Q5]).
Qed.
End P2.
