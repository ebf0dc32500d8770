(** Uniqueness of the answers, one residual block, histories. *)
From Coq Require Import List Arith Bool Reals Lia Lra.
From Verif Require Import EvaluatorModel EvaluatorSpec PevModel PevSpec PevProofs PevProofs2 PevProofs3.
Import ListNotations.

Lemma row_split {A} (f : A -> nat) : forall l k, k < list_sum (map f l) ->
  exists i x j, nth_error l i = Some x /\ k = list_sum (map f (firstn i l)) + j /\ j < f x.
Proof.
  induction l as [|x l IH]; intros k H; [cbn in H; lia|]. change (k < f x + list_sum (map f l)) in H.
  destruct (lt_dec k (f x)) as [L|L]; [exists 0, x, k; auto|].
  destruct (IH (k - f x)) as (i & y & j & H1 & H2 & H3); [lia|]. exists (S i), y, j. split; [exact H1|]. split; [|exact H3].
  cbn [firstn map]. change (list_sum (f x :: map f (firstn i l))) with (f x + list_sum (map f (firstn i l))). lia.
Qed.
Lemma sumn_ext k f g : (forall i, i < k -> f i = g i) -> sumn k f = sumn k g.
Proof. induction k as [|k IH]; intro H; cbn [sumn]; [reflexivity|]. rewrite IH by (intros; apply H; lia). rewrite H by lia. reflexivity. Qed.
Lemma Forall2_len {A B} (R : A -> B -> Prop) l1 l2 : Forall2 R l1 l2 -> length l1 = length l2.
Proof. induction 1; cbn; congruence. Qed.

Section P.
Variable Pb : problem.
Notation n := (length (pblocks Pb)).
Notation PB b := (nth b (pblocks Pb) (mkPB 0 0 (fun _ => None))).

Lemma column_unique o a x y : column_of Pb o a x -> column_of Pb o a y -> x = y.
Proof.
  intros (l1 & l2 & E1 & N1 & ->) (m1 & m2 & E2 & N2 & ->). rewrite E1 in E2. clear E1.
  revert m1 E2. induction l1 as [|c l1 IH]; intros [|d m1] E; cbn [app] in E.
  - reflexivity.
  - injection E as <- ->. exfalso. apply N1. apply in_or_app. right. left. reflexivity.
  - injection E as -> <-. exfalso. apply N2. apply in_or_app. right. left. reflexivity.
  - injection E as <- E. specialize (IH m1 E). cbn [map]. unfold list_sum in *. cbn [fold_right]. lia.
Qed.

Lemma returned_unique ps o w rs o1 o2 : proper Pb -> known_residuals Pb o ->
  length rs = length (chosen_residuals Pb o) ->
  returned Pb ps o w rs o1 -> returned Pb ps o w rs o2 -> same_answer Pb o w o1 o2.
Proof.
  intros PR KR L (A1 & v1 & M1 & A2 & A3 & A4 & A5 & A6) (B1 & v2 & M2 & B2 & B3 & B4 & B5 & B6).
  assert (V : forall k, k < num_rows Pb o -> v1 k = v2 k).
  { intros k Hk. destruct (row_split NumResiduals _ _ Hk) as (i & rb & j & H1 & -> & H3).
    assert (exists r, nth_error rs i = Some r) as [r Hr].
    { destruct (nth_error rs i) as [r|] eqn:E; [eauto|]. apply nth_error_None in E. assert (nth_error (chosen_residuals Pb o) i <> None) as Q by congruence. apply nth_error_Some in Q. lia. }
    transitivity (snd (fst r) j); [exact (A2 i rb r j H1 Hr H3)|symmetry; exact (B2 i rb r j H1 Hr H3)]. }
  assert (M : forall k c, k < num_rows Pb o -> M1 k c = M2 k c).
  { intros k c Hk. destruct (row_split NumResiduals _ _ Hk) as (i & rb & j & H1 & -> & H3).
    assert (exists r, nth_error rs i = Some r) as [r Hr].
    { destruct (nth_error rs i) as [r|] eqn:E; [eauto|]. apply nth_error_None in E. assert (nth_error (chosen_residuals Pb o) i <> None) as Q by congruence. apply nth_error_Some in Q. lia. }
    assert (ND : NoDup (args rb)) by (apply (rbs_proper Pb o PR KR rb); eapply nth_error_In; exact H1).
    pose proof (A3 i rb r j c H1 Hr H3) as X. pose proof (B3 i rb r j c H1 Hr H3) as Y. unfold first_row in X, Y.
    destruct X as [(p & a & off & X1 & X2 & X3 & X4 & X5)|[X1 X2]]; destruct Y as [(q & b & off' & Y1 & Y2 & Y3 & Y4 & Y5)|[Y1 Y2]].
    - assert (a = b) by exact (columns_disjoint Pb o a b off off' c X3 Y3 X4 Y4). subst b.
      assert (off' = off) by (eapply column_unique; eassumption). subst off'.
      assert (p = q). { apply (proj1 (NoDup_nth_error _) ND); [apply nth_error_Some; congruence|congruence]. } subst q.
      exact (eq_trans X5 (eq_sym Y5)).
    - exfalso. exact (Y1 p a off X1 X2 X3 X4).
    - exfalso. exact (X1 q b off' Y1 Y2 Y3 Y4).
    - exact (eq_trans X2 (eq_sym Y2)). }
  split; [|split; [|split]].
  - intro W. rewrite A1, B1 by exact W. reflexivity.
  - intros W k Hk. rewrite A4, B4 by assumption. apply V. exact Hk.
  - intros W k c Hk. rewrite A5, B5 by assumption. apply M. exact Hk.
  - intros W c Hc. rewrite A6, B6 by assumption. apply sumn_ext. intros k Hk. rewrite V, M by exact Hk. reflexivity.
Qed.

Lemma same_varying ps1 ps2 o b : same_problem ps1 ps2 -> (varying Pb ps1 o b <-> varying Pb ps2 o b).
Proof. intro S. unfold varying, constant. destruct (S b) as [_ ->]. tauto. Qed.
Lemma same_fresh ps1 ps2 o w l js : same_problem ps1 ps2 -> fresh_jacobians Pb ps1 o w l js -> fresh_jacobians Pb ps2 o w l js.
Proof.
  intros S H. unfold fresh_jacobians in *. induction H as [|a j l js [H1 H2] H IH]; constructor; [|exact IH].
  pose proof (same_varying ps1 ps2 o a S). destruct (S a) as [<- _]. tauto.
Qed.
Lemma same_results ps1 ps2 o w rs : same_problem ps1 ps2 -> results Pb ps1 o w rs -> results Pb ps2 o w rs.
Proof.
  intros S H. unfold results in *. induction H as [|rb r l rs (js & H1 & H2) H IH]; constructor; [|exact IH].
  exists js. split; [exact (same_fresh _ _ _ _ _ _ S H1)|]. rewrite H2. f_equal. apply map_ext. intro b. apply S.
Qed.
Lemma same_sym ps1 ps2 : same_problem ps1 ps2 -> same_problem ps2 ps1.
Proof. intros S b. destruct (S b). auto. Qed.
Lemma same_accepted ps1 ps2 o : same_problem ps1 ps2 -> accepted Pb ps1 o -> accepted Pb ps2 o.
Proof. intros S A b V. unfold accepts. destruct (S b) as [<- _]. apply A. apply (same_varying ps1 ps2 o b S). exact V. Qed.
Lemma same_is_jacobian ps1 ps2 o rs M : same_problem ps1 ps2 -> is_jacobian Pb ps1 o rs M -> is_jacobian Pb ps2 o rs M.
Proof.
  intros S H i rb r k c H1 H2 H3. destruct (H i rb r k c H1 H2 H3) as [(j & a & off & Q1 & Q2 & Q3)|[Q1 Q2]].
  - left. exists j, a, off. split; [exact Q1|]. split; [apply (same_varying ps1 ps2 o a S); exact Q2|exact Q3].
  - right. split; [|exact Q2]. intros j a off P1 P2. apply (Q1 j a off P1). apply (same_varying ps1 ps2 o a S). exact P2.
Qed.
Lemma same_returned ps1 ps2 o w rs out : same_problem ps1 ps2 -> returned Pb ps1 o w rs out -> returned Pb ps2 o w rs out.
Proof.
  intros S (A1 & v & M & A2 & A3 & A4 & A5 & A6). split; [exact A1|]. exists v, M. split; [exact A2|].
  split; [exact (same_is_jacobian _ _ _ _ _ S A3)|]. auto.
Qed.
Lemma results_unique ps o w rs1 rs2 : proper Pb -> known_residuals Pb o -> results Pb ps o w rs1 -> results Pb ps o w rs2 -> rs1 = rs2.
Proof.
  intros PR KR H1. unfold results in *. pose proof (rbs_proper Pb o PR KR) as RP. revert rs2 RP.
  induction H1 as [|rb r l rs (js & A1 & A2) H IH]; intros rs2 RP H2; inversion H2 as [|? r2 ? rs2' (js2 & B1 & B2) H3]; subst; [reflexivity|].
  f_equal; [|apply IH; [intros; apply RP; right; assumption|assumption]].
  assert (js = js2) by (eapply (fresh_unique Pb ps o w); [exact A1|exact B1|apply (RP rb); left; reflexivity]). subst. congruence.
Qed.

(** ** one residual block *)
Lemma setstates_spec : forall as_ js s, (forall b, state_ (s b) = UserState) ->
  (forall a, In a as_ -> IsConstant Pb s a = false -> acc Pb s a) ->
  exists ok s', SetStates Pb js as_ s = Some (ok, s') /\ keeps s s' /\ (forall b, state_ (s' b) = UserState) /\
    (ok = false <-> exists j a, nth_error as_ j = Some a /\ nth j js false = true /\ IsConstant Pb s a = true) /\
    (ok = true -> forall a, IsConstant Pb s a = false -> In a as_ \/ stored (s a) = plus_jacobian (PB a) (user_state (s a)) ->
       stored (s' a) = plus_jacobian (PB a) (user_state (s a))).
Proof.
  induction as_ as [|a as_ IH]; intros js s SU AC; cbn [SetStates].
  - exists true, s. split; [reflexivity|]. split; [apply keeps_refl|]. split; [exact SU|]. split; [|intros _ a _ [[]|Q]; exact Q].
    split; [discriminate|]. intros (j & a & H & _). destruct j; discriminate.
  - assert (TLN : forall j, nth j (tl js) false = nth (S j) js false) by (intro j; destruct js as [|x js]; [destruct j; reflexivity|reflexivity]).
    assert (HD : hd false js = nth 0 js false) by (destruct js; reflexivity).
    destruct (IsConstant Pb s a) eqn:C.
    + destruct (hd false js) eqn:H0.
      * exists false, s. split; [reflexivity|]. split; [apply keeps_refl|]. split; [exact SU|]. split; [|discriminate].
        split; [|reflexivity]. intros _. exists 0, a. rewrite <- HD. auto.
      * destruct (IH (tl js) s SU) as (ok & s' & Q1 & Q2 & Q3 & Q4 & Q5); [intros; apply AC; [right|]; assumption|].
        exists ok, s'. split; [exact Q1|]. split; [exact Q2|]. split; [exact Q3|]. split.
        -- rewrite Q4. split; intros (j & b & P1 & P2 & P3).
           ++ exists (S j), b. rewrite <- TLN. auto.
           ++ destruct j as [|j]; [rewrite <- HD in P2; congruence|]. exists j, b. rewrite TLN. auto.
        -- intros Ok b Cb [[->|I]|I]; [congruence|apply Q5; auto|apply Q5; auto].
    + destruct (SetState Pb [] UserState s a) as [ok1 s1] eqn:ES.
      pose proof (setstate_keeps Pb [] UserState s a) as K. rewrite ES in K. cbn [snd] in K.
      assert (O1 : ok1 = true).
      { unfold SetState in ES. cbn [at_ptr] in ES. injection ES as <- _. pose proof (AC a (or_introl eq_refl) C) as Q. unfold acc in Q.
        change (pb Pb a) with (PB a). destruct (plus_jacobian (PB a) (user_state (s a))); [reflexivity|congruence]. }
      rewrite O1.
      assert (S1 : forall b, state_ (s1 b) = UserState /\ (b <> a -> stored (s1 b) = stored (s b)) /\ (b = a -> stored (s1 b) = plus_jacobian (PB b) (user_state (s b)))).
      { unfold SetState in ES. injection ES as _ <-. intro b. destruct (Nat.eq_dec b a) as [->|N].
        - rewrite upd_same. cbn. split; [reflexivity|]. split; [congruence|reflexivity].
        - rewrite upd_other by exact N. split; [apply SU|]. split; [reflexivity|congruence]. }
      destruct (IH (tl js) s1) as (ok & s' & Q1 & Q2 & Q3 & Q4 & Q5).
      { intro b. apply S1. }
      { intros b I Cb. rewrite (keeps_const Pb _ _ b K) in Cb. apply (keeps_acc Pb _ _ b K). apply AC; [right|]; assumption. }
      exists ok, s'. split; [exact Q1|]. split; [exact (keeps_trans _ _ _ K Q2)|]. split; [exact Q3|]. split.
      * rewrite Q4. split; intros (j & b & P1 & P2 & P3).
        -- exists (S j), b. rewrite <- TLN. rewrite <- (keeps_const Pb _ _ b K). auto.
        -- destruct j as [|j]; [cbn in P1; congruence|]. exists j, b. rewrite TLN, (keeps_const Pb _ _ b K). auto.
      * intros Ok b Cb I. destruct (K b) as (KU & _). rewrite <- KU. apply Q5; [exact Ok|rewrite (keeps_const Pb _ _ b K); exact Cb|].
        rewrite KU. destruct (Nat.eq_dec b a) as [E|N]; [right; apply S1; exact E|].
        destruct I as [[->|I]|I]; [congruence|left; exact I|right]. destruct (S1 b) as (_ & -> & _); assumption.
Qed.

Lemma asked_list jacobians j : asked jacobians j <-> nth j (match jacobians with Some l => l | None => [] end) false = true.
Proof.
  unfold asked. destruct jacobians as [l|]; split.
  - intros (l' & E & H). injection E as <-. exact H.
  - intro H. exists l. auto.
  - intros (l' & E & H). discriminate.
  - destruct j; discriminate.
Qed.

Lemma nth_pad (js : list bool) k j : j < k -> nth_error (js ++ repeat false k) j = Some (nth j js false).
Proof.
  intro H. destruct (lt_dec j (length js)) as [L|L].
  - rewrite nth_error_app1 by exact L. apply nth_error_nth'. exact L.
  - rewrite nth_error_app2 by lia. rewrite (nth_overflow js) by lia. apply nth_error_repeat. lia.
Qed.
Lemma nth_combine {A B} : forall (l1 : list A) (l2 : list B) j x y, nth_error l1 j = Some x -> nth_error l2 j = Some y -> nth_error (combine l1 l2) j = Some (x, y).
Proof.
  induction l1 as [|a l1 IH]; intros [|b l2] [|j] x y H1 H2; try discriminate; cbn in *; [congruence|apply IH; assumption].
Qed.

Lemma residual_block_main ps rb loss np jacobians :
  settled ps -> (forall a, In a (args rb) -> ~ constant Pb ps a -> accepts Pb ps a) ->
  exists r ps', EvaluateResidualBlock Pb rb loss np jacobians ps = Returned r ps' /\
    (asks_constant Pb ps rb jacobians -> r = None) /\
    (~ asks_constant Pb ps rb jacobians -> single_result Pb ps rb loss jacobians r) /\
    unchanged ps ps' /\ settled ps' /\
    calls ps' = calls ps ++ (if evaluation_callback Pb then [(match jacobians with Some _ => true | None => false end, np)] else []).
Proof.
  intros ST AC. unfold EvaluateResidualBlock. set (js := match jacobians with Some l => l | None => [] end).
  destruct (setstates_spec (args rb) js (block ps) ST) as (ok & s & E & K & SU & OK & FR).
  { intros a I C. apply AC; [exact I|]. unfold constant. rewrite <- (constant_iff Pb (block ps)). congruence. }
  assert (AK : asks_constant Pb ps rb jacobians <-> ok = false).
  { rewrite OK. unfold asks_constant. split; intros (j & a & H1 & H2 & H3); exists j, a; (split; [exact H1|]).
    - split; [apply asked_list in H2; exact H2|]. apply (constant_iff Pb (block ps)). exact H3.
    - split; [apply asked_list; exact H2|]. apply (constant_iff Pb (block ps)) in H3. exact H3. }
  assert (CC : (if evaluation_callback Pb then calls ps ++ [(match jacobians with Some _ => true | None => false end, np)] else calls ps)
             = calls ps ++ (if evaluation_callback Pb then [(match jacobians with Some _ => true | None => false end, np)] else [])).
  { destruct (evaluation_callback Pb); [reflexivity|now rewrite app_nil_r]. }
  assert (UN : forall cs, unchanged ps (mkPS s cs)) by (intros cs b; destruct (K b) as (K1 & K2 & _); split; [exact K1|exact K2]).
  rewrite E. destruct ok.
  - rewrite (arguments_spec Pb [] s (args rb)) by (intro b; unfold points; rewrite SU; reflexivity).
    eexists. eexists. split; [reflexivity|]. split; [intro H; apply AK in H; discriminate|].
    split; [|split; [apply UN|split; [exact SU|exact CC]]].
    intros NC. eexists. split; [|split; [|split]].
    4: { f_equal. apply map_ext. intro b. destruct (K b) as (-> & _). reflexivity. }
    + rewrite map_length, combine_length, app_length, repeat_length. lia.
    + intros j a Hj Hk. assert (L : j < length (args rb)) by (apply nth_error_Some; congruence).
      rewrite nth_error_map, (nth_combine _ _ j _ _ (nth_pad js _ j L) Hj). cbn [option_map fst snd].
      assert (Q : nth j js false = true) by (apply asked_list in Hk; exact Hk). rewrite Q. f_equal. apply (FR eq_refl).
      * apply not_true_iff_false. intro C. apply NC. exists j, a. split; [exact Hj|]. split; [exact Hk|]. apply (constant_iff Pb (block ps)). exact C.
      * left. eapply nth_error_In. exact Hj.
    + intros j a Hj Hk. assert (L : j < length (args rb)) by (apply nth_error_Some; congruence).
      rewrite nth_error_map, (nth_combine _ _ j _ _ (nth_pad js _ j L) Hj). cbn [option_map fst snd].
      destruct (nth j js false) eqn:Q; [|reflexivity]. exfalso. apply Hk. apply asked_list. exact Q.
  - eexists. eexists. split; [reflexivity|]. split; [reflexivity|]. split; [intro H; exfalso; apply H, AK; reflexivity|].
    split; [apply UN|]. split; [exact SU|exact CC].
Qed.

(** the CHECK fails *)
Lemma setstates_aborts : forall as_ js s, (forall b, state_ (s b) = UserState) ->
  (forall j a, nth_error as_ j = Some a -> nth j js false = true -> IsConstant Pb s a = false) ->
  (exists a, In a as_ /\ IsConstant Pb s a = false /\ ~ acc Pb s a) -> SetStates Pb js as_ s = None.
Proof.
  induction as_ as [|a as_ IH]; intros js s SU NC (x & I & C & A); [destruct I|]. cbn [SetStates].
  assert (TLN : forall j, nth j (tl js) false = nth (S j) js false) by (intro j; destruct js as [|y js]; [destruct j; reflexivity|reflexivity]).
  assert (HD : hd false js = nth 0 js false) by (destruct js; reflexivity).
  destruct (IsConstant Pb s a) eqn:CA.
  - destruct (hd false js) eqn:H0; [specialize (NC 0 a eq_refl (eq_sym HD)); congruence|].
    apply IH; [exact SU| |].
    + intros j b Hj Hb. apply (NC (S j) b Hj). rewrite <- TLN. exact Hb.
    + exists x. split; [destruct I as [->|I]; [congruence|exact I]|]. auto.
  - destruct (SetState Pb [] UserState s a) as [ok1 s1] eqn:ES. destruct ok1; [|reflexivity].
    pose proof (setstate_keeps Pb [] UserState s a) as K. rewrite ES in K. cbn [snd] in K.
    assert (AA : acc Pb s a).
    { unfold SetState in ES. cbn [at_ptr] in ES. injection ES as Q _. unfold acc. change (pb Pb a) with (PB a) in Q. destruct (plus_jacobian (PB a) (user_state (s a))); [congruence|discriminate]. }
    apply IH.
    + intro b. unfold SetState in ES. injection ES as _ <-. destruct (Nat.eq_dec b a) as [->|N]; [rewrite upd_same; reflexivity|rewrite upd_other by exact N; apply SU].
    + intros j b Hj Hb. rewrite (keeps_const Pb _ _ b K). apply (NC (S j) b Hj). rewrite <- TLN. exact Hb.
    + exists x. split; [destruct I as [->|I]; [contradiction|exact I]|]. split; [rewrite (keeps_const Pb _ _ x K); exact C|].
      rewrite (keeps_acc Pb _ _ x K). exact A.
Qed.

(** ** histories *)
Lemma run_app : forall ops1 ops2 ps, run Pb (ops1 ++ ops2) ps = match run Pb ops1 ps with Some ps' => run Pb ops2 ps' | None => None end.
Proof. induction ops1 as [|a l IH]; intros; cbn [app run]; [reflexivity|]. destruct (do_op Pb ps a); [apply IH|reflexivity]. Qed.

Lemma unchanged_sized ps ps' : unchanged ps ps' -> sized Pb ps -> sized Pb ps'.
Proof. intros U S b Hb. destruct (U b) as [-> _]. apply S. exact Hb. Qed.

Lemma step_main a ps : proper Pb -> settled ps -> sized Pb ps -> history Pb [a] ps ->
  exists ps', do_op Pb ps a = Some ps' /\ settled ps' /\ sized Pb ps' /\
    forall b, value ps' b = fst (effect (value ps, fun c => is_set_constant (block ps c)) a) b /\
              is_set_constant (block ps' b) = snd (effect (value ps, fun c => is_set_constant (block ps c)) a) b.
Proof.
  intros PR ST SZ [H _]. destruct a as [b x|b|b|o w threads thread sched old|rb loss np js]; cbn [do_op effect fst snd].
  - eexists. split; [reflexivity|]. destruct H as [H1 H2]. split; [|split].
    + intro c. cbn [block]. destruct (Nat.eq_dec c b) as [->|N]; [rewrite upd_same; apply ST|rewrite upd_other by exact N; apply ST].
    + intros c Hc. unfold value. cbn [block]. destruct (Nat.eq_dec c b) as [->|N]; [rewrite upd_same; exact H2|rewrite upd_other by exact N; apply SZ; exact Hc].
    + intro c. unfold value, upd. cbn [block]. destruct (Nat.eqb_spec c b) as [->|N]; auto.
  - eexists. split; [reflexivity|]. unfold settled, sized, value, set_constant, upd. cbn [block]. split; [|split].
    + intro c. destruct (Nat.eqb_spec c b) as [->|N]; apply ST.
    + intros c Hc. destruct (Nat.eqb_spec c b) as [->|N]; apply SZ; exact Hc.
    + intro c. destruct (Nat.eqb_spec c b) as [->|N]; auto.
  - eexists. split; [reflexivity|]. unfold settled, sized, value, set_constant, upd. cbn [block]. split; [|split].
    + intro c. destruct (Nat.eqb_spec c b) as [->|N]; apply ST.
    + intros c Hc. destruct (Nat.eqb_spec c b) as [->|N]; apply SZ; exact Hc.
    + intro c. destruct (Nat.eqb_spec c b) as [->|N]; auto.
  - destruct H as (AA & KN & KR & VS & HT).
    destruct (want_cost w || rq_residuals (want w) || rq_gradient (want w) || rq_jacobian (want w)) eqn:W.
    + assert (SO : something w).
      { unfold something. rewrite !orb_true_iff in W. tauto. }
      destruct (evaluate_main Pb ps o w threads thread sched old PR SZ ST KN KR SO VS HT) as (ok & ps' & E & _ & _ & U & S & _).
      rewrite E. exists ps'. split; [reflexivity|]. split; [exact (S AA)|]. split; [exact (unchanged_sized _ _ U SZ)|]. intro b. apply U.
    + unfold Evaluate. rewrite W. cbn [negb]. exists ps. auto.
  - destruct H as [AA I]. destruct (residual_block_main ps rb loss np js ST) as (r & ps' & E & _ & _ & U & S & _).
    { intros a Ia C. apply AA; [apply (PR rb I); exact Ia|exact C]. }
    rewrite E. exists ps'. split; [reflexivity|]. split; [exact S|]. split; [exact (unchanged_sized _ _ U SZ)|]. intro b. apply U.
Qed.
Lemma effect_ext v1 c1 v2 c2 a : (forall b, v1 b = v2 b) -> (forall b, c1 b = c2 b) ->
  (forall b, fst (effect (v1, c1) a) b = fst (effect (v2, c2) a) b) /\ (forall b, snd (effect (v1, c1) a) b = snd (effect (v2, c2) a) b).
Proof. intros H1 H2. destruct a; cbn [effect fst snd]; split; auto; intro d; rewrite ?H1, ?H2; reflexivity. Qed.
Lemma effects_ext : forall ops v1 c1 v2 c2, (forall b, v1 b = v2 b) -> (forall b, c1 b = c2 b) ->
  (forall b, fst (fold_left effect ops (v1, c1)) b = fst (fold_left effect ops (v2, c2)) b) /\
  (forall b, snd (fold_left effect ops (v1, c1)) b = snd (fold_left effect ops (v2, c2)) b).
Proof.
  induction ops as [|a l IH]; intros v1 c1 v2 c2 H1 H2; cbn [fold_left]; [auto|].
  destruct (effect_ext v1 c1 v2 c2 a H1 H2) as [E1 E2]. rewrite (surjective_pairing (effect (v1, c1) a)), (surjective_pairing (effect (v2, c2) a)). apply IH; assumption.
Qed.
Lemma history_main : forall ops ps, proper Pb -> settled ps -> sized Pb ps -> history Pb ops ps ->
  exists ps', run Pb ops ps = Some ps' /\ settled ps' /\ sized Pb ps' /\
    forall b, value ps' b = fst (fold_left effect ops (value ps, fun c => is_set_constant (block ps c))) b /\
              is_set_constant (block ps' b) = snd (fold_left effect ops (value ps, fun c => is_set_constant (block ps c))) b.
Proof.
  induction ops as [|a ops IH]; intros ps PR ST SZ H; [exists ps; auto|].
  destruct H as [H1 H2].
  destruct (step_main a ps PR ST SZ) as (ps1 & E1 & S1 & Z1 & V1).
  { split; [exact H1|]. destruct (do_op Pb ps a); exact I. }
  rewrite E1 in H2. destruct (IH ps1 PR S1 Z1 H2) as (ps' & E2 & S2 & Z2 & V2).
  exists ps'. cbn [run]. rewrite E1. split; [exact E2|]. split; [exact S2|]. split; [exact Z2|].
  cbn [fold_left]. rewrite (surjective_pairing (effect (value ps, fun c => is_set_constant (block ps c)) a)).
  intro b. destruct (V2 b) as [-> ->].
  destruct (effects_ext ops _ _ _ _ (fun b => proj1 (V1 b)) (fun b => proj2 (V1 b))) as [X1 X2]. auto.
Qed.
End P.
