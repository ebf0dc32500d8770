(** Theorems about the line searches (C33, C34). *)
Require Import List ZArith Bool Lia.
From Verif Require Import Dbl DblArith DblArithProofs DblArithProofs2 LineSearchModel LineSearchSpec LineSearchProofs LineSearchProofs2.
Import ListNotations.
Open Scope Z_scope.

(** ** C33: the Armijo search *)

(** what it reports: at most max_num_iterations evaluations; on failure an error; on success the last
    point evaluated, its cost, sufficient decrease, and a step not below min_step_size unless it
    is the initial one *)
Theorem armijo_sound : forall E Op position direction c0 g0 fuel est r,
  armijo_search E Op position direction c0 g0 fuel est = Done r ->
  su_feval E r <= lo_max_iter Op /\ su_feval E r = Z.of_nat (length (su_steps E r)) /\
  su_iter E r <= lo_max_iter Op /\
  (su_success E r = false -> su_error E r = true) /\
  (su_success E r = true ->
     evaluated E position direction (cubic Op) (su_optimal E r) /\
     sufficient_decrease E Op c0 g0 (su_optimal E r) /\
     (exists l, su_steps E r = l ++ [fs_x E (su_optimal E r)]) /\
     (exists l y, su_points E r = l ++ [y] /\ fs_vector_x E (su_optimal E r) = Some y) /\
     (fs_x E (su_optimal E r) = est \/
      dlt (dmul (fs_x E (su_optimal E r)) (inf_norm E direction)) (lo_min_step Op) = false)).
Proof. intros. eapply armijo_search_good. eauto. Qed.
Print Assumptions armijo_sound.

(** it always ends, without a CHECK failure, and tries only non negative steps *)
Theorem armijo_terminates : forall E Op position direction c0 g0 fuel est,
  good_options Op -> poly_min_nonneg E ->
  dlt (Fin 0) (lo_decrease Op) = true -> dlt (lo_decrease Op) (dz 1) = true -> 0 < lo_max_iter Op ->
  dle (Fin 0) est = true -> (Z.to_nat (lo_max_iter Op) <= fuel)%nat ->
  exists r, armijo_search E Op position direction c0 g0 fuel est = Done r /\ forall x, In x (su_steps E r) -> nonneg x.
Proof.
  intros E Op position direction c0 g0 fuel est GO HP H1 H2 H3 H4 H5.
  assert (Hs : exists cur s, armijo_search E Op position direction c0 g0 fuel est =
                 armijo_loop E Op position direction c0 g0 fuel (empty_sample E) cur s /\
                 su_iter E s = 0 /\ fs_x E cur = est /\ su_steps E s = [est]).
  { unfold armijo_search. rewrite H1, H2, H4. apply Z.ltb_lt in H3. rewrite H3. cbn [andb].
    destruct (ls_evaluate E position direction est (cubic Op) (empty_sample E)) as [cur pts] eqn:En.
    exists cur, (count_eval E (cubic Op) est pts (new_sum E)). split; [reflexivity|split; [reflexivity|split; [|reflexivity]]].
    change cur with (fst (cur, pts)). rewrite <- En. apply ls_evaluate_x. }
  destruct Hs as (cur & s & Heq & Hi & Hx & Hst). rewrite Heq.
  destruct (armijo_loop_total E Op position direction c0 g0 GO HP fuel (empty_sample E) cur s) as [Ha Hb].
  { rewrite Hx. exact H4. } { rewrite Hst. intros x [<-|[]]. exact H4. }
  pose proof (armijo_loop_fuel E Op position direction c0 g0 fuel (empty_sample E) cur s) as Hl.
  destruct (armijo_loop _ _ _ _ _ _ _ _ _ _) as [r| |]; [|congruence|exfalso; apply Hl; auto; lia].
  exists r. split; [reflexivity|]. apply Hb. reflexivity.
Qed.
Print Assumptions armijo_terminates.

(** along a descent direction the returned cost is below the Armijo line, hence below the initial cost *)
Theorem armijo_descends : forall E Op position direction c0 g0 fuel est r,
  good_options Op -> poly_min_nonneg E ->
  is_fin c0 = true -> dvalid c0 -> is_fin g0 = true -> dvalid g0 -> dle g0 (Fin 0) = true ->
  armijo_search E Op position direction c0 g0 fuel est = Done r -> su_success E r = true ->
  finite_steps_only E position direction ->
  dle (fs_value E (su_optimal E r)) (dadd c0 (dmul (dmul (lo_decrease Op) g0) (fs_x E (su_optimal E r)))) = true /\
  dle (fs_value E (su_optimal E r)) c0 = true.
Proof.
  intros E Op position direction c0 g0 fuel est r GO HP Hc Hcv Hg Hgv Hd H Hs HF.
  pose proof (armijo_search_good _ _ _ _ _ _ _ _ _ H) as (_ & _ & _ & _ & Hgood).
  destruct (Hgood Hs) as (He & Hsd & (l & Hl) & _ & _).
  assert (Hx : is_fin (fs_x E (su_optimal E r)) = true)
    by (destruct He as (_ & y & gr & He1 & _ & He2 & He3 & _); eapply HF; eauto).
  assert (Hopt : dle (Fin 0) est = true /\ dlt (Fin 0) (lo_decrease Op) = true /\ dlt (lo_decrease Op) (dz 1) = true).
  { unfold armijo_search in H. destruct (dle (Fin 0) est); [|discriminate].
    destruct (dlt (Fin 0) (lo_decrease Op)); [|discriminate]. destruct (dlt (lo_decrease Op) (dz 1)); [|discriminate]. auto. }
  destruct Hopt as (H1 & H2 & H3).
  assert (Hn : nonneg (fs_x E (su_optimal E r))).
  { assert (Hin : In (fs_x E (su_optimal E r)) (su_steps E r)) by (rewrite Hl; apply in_app_iff; right; left; reflexivity).
    revert Hin. revert H. unfold armijo_search. rewrite H1, H2, H3. destruct (0 <? lo_max_iter Op); [|discriminate]. cbn [andb].
    destruct (ls_evaluate E position direction est (cubic Op) (empty_sample E)) as [cur pts] eqn:En. intros H.
    destruct (armijo_loop_total E Op position direction c0 g0 GO HP fuel (empty_sample E) cur
               (count_eval E (cubic Op) est pts (new_sum E))) as [_ Hb].
    - change cur with (fst (cur, pts)). rewrite <- En, ls_evaluate_x. exact H1.
    - cbn [su_steps count_eval new_sum app]. intros x [<-|[]]. exact H1.
    - exact (Hb _ H _). }
  pose proof (bound_not_nan Op c0 g0 _ Hc Hg Hgv Hd H2 H3 Hx) as Hnn.
  pose proof (bound_le Op c0 g0 _ Hc Hcv Hg Hgv Hd H2 H3 Hx Hn) as Hle.
  assert (Hv : dle (fs_value E (su_optimal E r)) (armijo_bound Op c0 g0 (fs_x E (su_optimal E r))) = true).
  { apply dlt_false_le; auto. destruct He as (_ & y & gr & _ & _ & _ & Hf & _). intros Q. rewrite Q in Hf. discriminate. }
  split; [exact Hv|]. eapply dle_trans; eauto.
Qed.
Print Assumptions armijo_descends.

(** each trial step is a contraction of the previous one by a factor between the two options *)
Theorem armijo_contracts : forall E Op position direction c0 g0 fuel est r,
  good_options Op -> poly_min_in E ->
  armijo_search E Op position direction c0 g0 fuel est = Done r -> contracting Op (su_steps E r).
Proof.
  intros E Op position direction c0 g0 fuel est r GO HI. unfold armijo_search.
  destruct (dle (Fin 0) est) eqn:H1; [|discriminate]. destruct (_ && _); [|discriminate].
  destruct (ls_evaluate E position direction est (cubic Op) (empty_sample E)) as [cur pts] eqn:En. intros H.
  assert (Hx : fs_x E cur = est) by (change cur with (fst (cur, pts)); rewrite <- En; apply ls_evaluate_x).
  eapply armijo_loop_contracting; [exact GO|exact HI| | | |exact H].
  - rewrite Hx. exact H1.
  - exists []. rewrite Hx. reflexivity.
  - intros l1 a b l2 Heq. cbn [su_steps count_eval new_sum app] in Heq. destruct l1 as [|? [|? ?]]; discriminate.
Qed.
Print Assumptions armijo_contracts.

(** ** C34: the Wolfe search *)

(** what it reports: as many gradient as cost evaluations, at most max(1, max_num_iterations) of them; on failure
    an error; on success an evaluated point (or the start) meeting sufficient decrease and,
    unless the iteration limit or the minimum bracket width was reached, strong curvature *)
Theorem wolfe_sound : forall E Op position direction c0 g0 fuel est r,
  dvalid c0 -> is_fin c0 = true -> finite_slopes E direction ->
  wolfe_search E Op position direction c0 g0 fuel est = Done r ->
  su_feval E r = Z.of_nat (length (su_steps E r)) /\ su_geval E r = su_feval E r /\
  su_feval E r <= Z.max 1 (lo_max_iter Op) /\
  (su_success E r = false -> su_error E r = true) /\
  (su_success E r = true ->
     (at_start E position c0 g0 (su_optimal E r) \/ evaluated E position direction true (su_optimal E r)) /\
     In (fs_x E (su_optimal E r)) (Fin 0 :: su_steps E r) /\
     sufficient_decrease E Op c0 g0 (su_optimal E r) /\
     (strong_curvature E Op g0 (su_optimal E r) \/ lo_max_iter Op <= su_iter E r \/
      narrow_bracket E Op direction (su_steps E r))).
Proof.
  intros E Op position direction c0 g0 fuel est r Hv Hf HS H.
  apply wolfe_search_good in H; auto. destruct H as (A & B & C & D & F & G).
  split; [auto|split; [lia|split; [lia|split; [auto|]]]]. intros Hs. destruct (G Hs) as (G1 & G2 & G3 & G4 & _). clear G.
  assert (NB : forall s, evaluated E position direction true s -> fs_gradient_valid E s = true).
  { intros s (_ & y & gr & _ & _ & He & Hfi & Hg & _). destruct (Hg eq_refl) as (_ & -> & _). eapply HS; eauto. }
  split; [|split; [|split]].
  - destruct G1 as [G1|G1]; [left; rewrite G1; unfold at_start; cbn; auto 10|right; exact G1].
  - destruct G2 as [i Hi]. eapply nth_error_In. exact Hi.
  - destruct G3 as [G3|G3]; auto. destruct G1 as [G1|G1]; [rewrite G1 in G3; discriminate|]. apply NB in G1. congruence.
  - destruct G4 as [G4|[G4|[G4|(s & Hs' & Hg)]]]; auto. apply NB in Hs'. congruence.
Qed.
Print Assumptions wolfe_sound.

(** it always ends, without a CHECK failure, and tries only non negative steps *)
Theorem wolfe_terminates : forall E Op position direction c0 g0 fuel est,
  good_options Op -> poly_min_nonneg E -> finite_slopes E direction ->
  dle (Fin 0) est = true -> dlt (Fin 0) (lo_decrease Op) = true -> dlt (lo_decrease Op) (lo_curvature Op) = true ->
  dlt (lo_curvature Op) (dz 1) = true -> dlt (dz 1) (lo_expansion Op) = true ->
  (Z.to_nat (lo_max_iter Op) <= fuel)%nat ->
  exists r, wolfe_search E Op position direction c0 g0 fuel est = Done r /\ forall x, In x (su_steps E r) -> nonneg x.
Proof.
  intros E Op position direction c0 g0 fuel est GO HP HS H1 H2 H3 H4 H5 Hf.
  apply wolfe_search_total; auto. rewrite H1, H2, H3, H4, H5. reflexivity.
Qed.
Print Assumptions wolfe_terminates.

Lemma dlt_trans3 a b c : dlt a b = true -> dlt b c = true -> dlt a c = true.
Proof.
  destruct a, b, c; try discriminate; auto.
  cbn. intros A B. apply Z.ltb_lt in A. apply Z.ltb_lt in B. apply Z.ltb_lt. lia.
Qed.
(** along a descent direction the returned cost is never above the initial cost, even where
    the slopes are not finite, as long as the steps evaluated are not negative and costs
    are finite at finite steps only *)
Theorem wolfe_descends : forall E Op position direction c0 g0 fuel est r,
  is_fin c0 = true -> dvalid c0 -> is_fin g0 = true -> dvalid g0 -> dle g0 (Fin 0) = true ->
  wolfe_search E Op position direction c0 g0 fuel est = Done r -> su_success E r = true ->
  (forall x, In x (su_steps E r) -> nonneg x) -> finite_steps_only E position direction ->
  dle (fs_value E (su_optimal E r)) c0 = true.
Proof.
  intros E Op position direction c0 g0 fuel est r Hc Hcv Hg Hgv Hd H Hs Hx HF.
  assert (Hopt : dlt (Fin 0) (lo_decrease Op) = true /\ dlt (lo_decrease Op) (dz 1) = true).
  { unfold wolfe_search in H. destruct (dle (Fin 0) est); [|discriminate].
    destruct (dlt (Fin 0) (lo_decrease Op)); [|discriminate].
    destruct (dlt (lo_decrease Op) (lo_curvature Op)) eqn:E1; [|discriminate].
    destruct (dlt (lo_curvature Op) (dz 1)) eqn:E2; [|discriminate]. split; [reflexivity|].
    exact (dlt_trans3 _ _ _ E1 E2). }
  destruct Hopt as [H2 H3].
  apply wolfe_search_good in H; auto. destruct H as (_ & _ & _ & _ & _ & G).
  destruct (G Hs) as (G1 & G2 & _ & _ & l & [L1 L2] & [i Hi] & L4).
  assert (Hl : nonneg (fs_x E l) /\ is_fin (fs_x E l) = true).
  { split.
    - apply nth_error_In in Hi. destruct Hi as [<-|Hi]; [reflexivity|auto].
    - destruct L1 as [->|(_ & y & gr & He1 & _ & He2 & He3 & _)]; [reflexivity|eapply HF; eauto]. }
  pose proof (bound_not_nan Op c0 g0 _ Hc Hg Hgv Hd H2 H3 (proj2 Hl)) as Hnn.
  pose proof (bound_le Op c0 g0 _ Hc Hcv Hg Hgv Hd H2 H3 (proj2 Hl) (proj1 Hl)) as Hle.
  pose proof (stands_fin E position direction c0 g0 Hc _ G1) as F1.
  pose proof (stands_fin E position direction c0 g0 Hc _ L1) as F2.
  assert (N1 : fs_value E (su_optimal E r) <> NaN) by (intros Q; rewrite Q in F1; discriminate).
  assert (N2 : fs_value E l <> NaN) by (intros Q; rewrite Q in F2; discriminate).
  eapply dle_trans; [apply dlt_false_le; [| |exact L4]; auto|].
  eapply dle_trans; [apply dlt_false_le; [| |exact L2]; auto|exact Hle].
Qed.
Print Assumptions wolfe_descends.

(** ** concrete runs *)
(** functions of one real variable; interval midpoints as interpolation *)
Definition E1 (f : dbl -> option (dbl * dbl)) : ls_env :=
  mkLEnv dbl dbl dmul (fun x v => Some (dadd x v)) (fun y _ => f y) dmul dabs
    (fun _ a b => dmul (dadd a b) (dq 1 2)).
(** the default options *)
Definition opts (i : interpolation) (n : Z) : ls_options :=
  mkLO i (dq 1 10000) (dq 1 1000) (dq 3 5) (dq 1 1000000000) n (dq 9 10) (dz 10).
Lemma opts_good i n : good_options (opts i n).
Proof. constructor; try split; vm_compute; reflexivity. Qed.

(** y^2, defined for |y| < 4 only, its slope along the direction 1 being 2 y *)
Definition square (y : dbl) : option (dbl * dbl) :=
  if dlt (dabs y) (dz 4) then Some (dmul y y, dmul (dz 2) y) else None.

(** success, error, steps tried, cost and step returned *)
Definition view {f} (o : outcome (summary (E1 f))) : option (bool * bool * list dbl * dbl * dbl) :=
  match o with
  | Done r => Some (su_success _ r, su_error _ r, su_steps _ r, fs_x _ (su_optimal _ r), fs_value _ (su_optimal _ r))
  | _ => None
  end.

(** from -2 with initial step 10: the first evaluation fails, the second step is too long *)
Example armijo_case :
  view (armijo_search (E1 square) (opts CUBIC 20) (dz (-2)) (dz 1) (dz 4) (dz (-4)) 20 (dz 10)) =
  let st := dmul (dadd (dmul (dq 1 1000) (dz 5)) (dmul (dq 3 5) (dz 5))) (dq 1 2) in (* about 1.5025 *)
  let y := dadd (dz (-2)) st in
  Some (true, false, [dz 10; dz 5; st], st, dmul y y).
Proof. vm_compute. reflexivity. Qed.

Example wolfe_case :
  view (wolfe_search (E1 square) (opts CUBIC 20) (dz (-2)) (dz 1) (dz 4) (dz (-4)) 20 (dz 10)) =
  Some (true, false, [dz 10; dz 5; dq 5 2], dq 5 2, dq 1 4).
Proof. vm_compute. reflexivity. Qed.
Lemma some_snd {A B} (a c : A) (b d : B) : Some (a, b) = Some (c, d) -> d = b.
Proof. congruence. Qed.
Lemma dlt_abs_fin y m : dlt (dabs y) (Fin m) = true -> exists z, y = Fin z /\ Z.abs z < m.
Proof. destruct y as [| |z|]; try discriminate. cbn. intros H. apply Z.ltb_lt in H. eauto. Qed.
Lemma dle_fin a b x : dle (Fin a) x = true -> dle x (Fin b) = true -> exists z, x = Fin z /\ a <= z <= b.
Proof. destruct x as [| |z|]; try discriminate. cbn. intros H1 H2. apply Z.leb_le in H1. apply Z.leb_le in H2. eauto. Qed.
Example square_slopes : finite_slopes (E1 square) (dz 1).
Proof.
  intros y v gr. cbn [eval E1]. unfold square. destruct (dlt (dabs y) (dz 4)) eqn:E; [|discriminate].
  intros H _. apply some_snd in H. rewrite H. clear H. cbn [dot E1].
  assert (H4 : dz 4 = Fin (4 * ONEU)) by (vm_compute; reflexivity).
  assert (H2 : dz 2 = Fin (2 * ONEU)) by (vm_compute; reflexivity).
  assert (H1 : dz 1 = Fin ONEU) by (vm_compute; reflexivity).
  rewrite H4 in E. rewrite H2, H1.
  apply dlt_abs_fin in E. destruct E as (u & -> & E). rename u into y. cbn [dmul].
  pose proof ONEU_pos as P.
  assert (B : forall k n, 0 < k -> - (k * ONEU * ONEU) <= n <= k * ONEU * ONEU -> rnd (k * ONEU) 1 = Fin (k * ONEU) ->
             exists z, rnd n ONEU = Fin z /\ - (k * ONEU) <= z <= k * ONEU).
  { intros k n Hk Hn Hr.
    assert (U : dle (rnd n ONEU) (rnd (k * ONEU) 1) = true) by (apply rnd_mono; lia).
    assert (L : dle (rnd (- (k * ONEU)) 1) (rnd n ONEU) = true) by (apply rnd_mono; lia).
    rewrite rnd_opp in L by lia. rewrite Hr in U, L. cbn [dneg] in L.
    exact (dle_fin _ _ _ L U). }
  destruct (B 8 (2 * ONEU * y)) as (z & -> & Hz); [lia|nia|vm_compute; reflexivity|]. change (is_fin (rnd (ONEU * z) ONEU) = true).
  destruct (B 8 (ONEU * z)) as (w & -> & Hw); [lia|nia|vm_compute; reflexivity|]. reflexivity.
Qed.

(** ** findings *)
Lemma aborted_of {A} (o : outcome A) : match o with Aborted => true | _ => false end = true -> o = Aborted.
Proof. destruct o; congruence. Qed.
(** a finite cost whose directional derivative is not finite makes the Wolfe search die in ZoomPhase's CHECK *)
Theorem wolfe_nonfinite_slope_aborts_refuted :
  exists f, wolfe_search (E1 f) (opts CUBIC 20) (dz 0) (dz 1) (dz 0) (dz (-1)) 20 (dz 1) = Aborted.
Proof. exists (fun y => Some (dneg y, PInf)). apply aborted_of. vm_compute. reflexivity. Qed.
Print Assumptions wolfe_nonfinite_slope_aborts_refuted.

(** or report success at a point that violates sufficient decrease *)
Theorem wolfe_nonfinite_slope_violates_armijo_refuted :
  exists f r, wolfe_search (E1 f) (opts CUBIC 20) (dz 0) (dz 1) (dz 0) (dz (-1)) 20 (dz 1) = Done r /\
    su_success _ r = true /\ ~ sufficient_decrease (E1 f) (opts CUBIC 20) (dz 0) (dz (-1)) (su_optimal _ r).
Proof.
  exists (fun y => if dlt (dq 3 4) y then Some (dz 1, dz 1) else Some (dq (-1) 1000000, NaN)).
  match goal with |- exists r, ?w = Done r /\ _ => destruct w as [r| |] eqn:E end.
  - exists r. split; [reflexivity|].
    assert (V : match wolfe_search (E1 (fun y => if dlt (dq 3 4) y then Some (dz 1, dz 1) else Some (dq (-1) 1000000, NaN)))
                  (opts CUBIC 20) (dz 0) (dz 1) (dz 0) (dz (-1)) 20 (dz 1) with
                | Done r => su_success _ r && dlt (dadd (dz 0) (dmul (dmul (lo_decrease (opts CUBIC 20)) (dz (-1)))
                             (fs_x _ (su_optimal _ r)))) (fs_value _ (su_optimal _ r))
                | _ => false end = true) by (vm_compute; reflexivity).
    rewrite E in V. apply andb_prop in V. destruct V as [V1 V2]. split; [exact V1|].
    unfold sufficient_decrease. rewrite V2. discriminate.
  - exfalso. match type of E with ?w = _ => assert (V : match w with Aborted => true | _ => false end = false) by (vm_compute; reflexivity); rewrite E in V end. discriminate.
  - exfalso. match type of E with ?w = _ => assert (V : match w with Looping => true | _ => false end = false) by (vm_compute; reflexivity); rewrite E in V end. discriminate.
Qed.
Print Assumptions wolfe_nonfinite_slope_violates_armijo_refuted.

(** success is also reported, with the start as the result and an error set, when no evaluation succeeded *)
Theorem wolfe_success_without_step :
  view (wolfe_search (E1 (fun _ => None)) (opts CUBIC 2) (dz 0) (dz 1) (dz 3) (dz (-1)) 20 (dz 1)) =
  Some (true, true, [dz 1; dq 1 2], dz 0, dz 3).
Proof. vm_compute. reflexivity. Qed.
Print Assumptions wolfe_success_without_step.

(** the assumptions on the interpolation can be met *)
Example E1_nonneg f : poly_min_nonneg (E1 f).
Proof.
  intros l a b Ha Hb. cbn [poly_min E1]. apply half_nonneg.
  destruct (nonneg_cases a Ha) as [->|(x & -> & Hx)], (nonneg_cases b Hb) as [->|(y & -> & Hy)]; try reflexivity.
  cbn [dadd]. unfold nonneg. replace (Fin 0) with (rnd 0 1) by (vm_compute; reflexivity). apply rnd_mono; lia.
Qed.
Example lower_end_in f : poly_min_in (mkLEnv dbl dbl dmul (fun x v => Some (dadd x v)) (fun y _ => f y) dmul dabs (fun _ a _ => a)).
Proof.
  intros l a b H. cbn [poly_min]. split; [|exact H].
  apply dle_refl. intros ->. discriminate.
Qed.
