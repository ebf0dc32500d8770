(** One call of Problem::Evaluate. *)
From Coq Require Import List Arith Bool Reals Lia Lra.
From Verif Require Import EvaluatorModel EvaluatorSpec EvaluatorProofs EvaluatorProps PevModel PevSpec PevProofs.
Import ListNotations.

(** what is computed does not depend on what else is asked for *)
Definition alike (w : request) (s1 s2 : shared) : Prop :=
  sh_cost s1 = sh_cost s2 /\ sh_abort s1 = sh_abort s2 /\ sh_skip s1 = sh_skip s2 /\
  (rq_residuals w = true -> sh_residuals s1 = sh_residuals s2) /\
  (rq_jacobian w = true -> sh_jacobian s1 = sh_jacobian s2) /\
  (rq_gradient w = true -> sh_gradient s1 = sh_gradient s2).
Lemma step_alike w bs lay thread e s1 s2 : alike w s1 s2 -> alike w (do_step w bs lay thread e s1) (do_step everything bs lay thread e s2).
Proof.
  intros (A1 & A2 & A3 & A4 & A5 & A6). destruct e as [i|i]; cbn [do_step].
  - repeat split; cbn; auto; congruence.
  - rewrite A3. destruct (sh_skip s2 i); [repeat split; auto|].
    destruct (nth_error bs i) as [b|]; [|repeat split; auto]. destruct (nth_error lay i) as [off|]; [|repeat split; auto].
    destruct (bl_eval b) as [[[c r] j]|]; [|repeat split; auto].
    repeat split; cbn [sh_cost sh_abort sh_skip sh_residuals sh_jacobian sh_gradient everything rq_residuals rq_jacobian rq_gradient]; try congruence;
      intro E; rewrite E; [now rewrite A4|now rewrite A5|now rewrite A6].
Qed.
Lemma evaluate_alike w bs np threads thread sched old :
  let a := evaluate w bs np threads thread sched old in let b := evaluate everything bs np threads thread sched old in
  fst a = fst b /\ (fst b = true -> o_cost (snd a) = o_cost (snd b) /\
  (rq_residuals w = true -> o_residuals (snd a) = o_residuals (snd b)) /\
  (rq_jacobian w = true -> o_jacobian (snd a) = o_jacobian (snd b)) /\
  (rq_gradient w = true -> o_gradient (snd a) = o_gradient (snd b))).
Proof.
  cbv zeta. unfold evaluate.
  match goal with |- context [fold_left (fun s e => do_step w _ _ _ e s) sched ?x] => set (s1 := x) end.
  match goal with |- context [fold_left (fun s e => do_step everything _ _ _ e s) sched ?x] => set (s2 := x) end.
  assert (A0 : alike w s1 s2).
  { unfold s1, s2. repeat split; cbn [sh_cost sh_abort sh_skip sh_residuals sh_jacobian sh_gradient everything rq_residuals rq_jacobian rq_gradient]; auto; intro E; rewrite E; reflexivity. }
  clearbody s1 s2. revert s1 s2 A0. induction sched as [|e l IH]; intros s1 s2 A; cbn [fold_left].
  - destruct A as (A1 & A2 & A3 & A4 & A5 & A6). rewrite A2. destruct (sh_abort s2); cbn [fst snd]; [split; [reflexivity|discriminate]|].
    split; [reflexivity|]. intros _. cbn [o_cost o_residuals o_gradient o_jacobian everything rq_gradient].
    split; [now rewrite A1|]. split; [exact A4|]. split; [exact A5|]. intro E. rewrite E, (A6 E). reflexivity.
  - apply IH. apply step_alike. exact A.
Qed.

Lemma num_residuals_sum bs : num_residuals bs = list_sum (map bl_num bs).
Proof.
  unfold num_residuals. assert (G : forall l a, fold_left (fun k b => (k + bl_num b)%nat) l a = (a + list_sum (map bl_num l))%nat).
  { induction l as [|x l IH]; intro a; cbn [fold_left map list_sum fold_right]; [lia|]. rewrite IH. unfold list_sum. lia. }
  rewrite G. reflexivity.
Qed.

Section Main.
Variable Pb : problem.
Notation n := (length (pblocks Pb)).
Notation PB b := (nth b (pblocks Pb) (mkPB 0 0 (fun _ => None))).
Notation states := (nat -> bstate).
Variable ps : pstate.
Variable o : eoptions.
Variable w : wanted.
Hypothesis PR : proper Pb.
Hypothesis SZ : sized Pb ps.
Hypothesis ST : settled ps.
Hypothesis KN : known Pb o.
Hypothesis KR : known_residuals Pb o.
Hypothesis SO : something w.
Notation rbs := (chosen_residuals Pb o).
Notation bs := (chosen Pb o).

Lemma constant_iff (s : states) b : (IsConstant Pb s b = true <-> is_set_constant (s b) = true \/ TangentSize (PB b) = 0).
Proof. unfold IsConstant, pb. rewrite orb_true_iff, Nat.eqb_eq. tauto. Qed.

Definition all_given : bool := match parameter_blocks o with [] => true | _ => false end.
Definition variable : list nat := if all_given then []
  else filter (fun b => negb (existsb (Nat.eqb b) bs) && negb (IsConstant Pb (block ps) b)) (all_blocks Pb).
Definition s1 : states := fold_left (set_constant true) variable (block ps).
Definition s2 : states := SetParameterOffsets Pb 0 bs s1.
Definition s3 : states := snd (SetParameterBlockStatePtrsToUserStatePtrs Pb bs s2).

Lemma chosen_known b : In b bs -> b < n.
Proof. unfold chosen. destruct (parameter_blocks o) eqn:E; [rewrite in_seq; lia|]. rewrite <- E. apply KN. Qed.
Lemma variable_in b : In b variable <-> (b < n /\ ~ In b bs /\ IsConstant Pb (block ps) b = false).
Proof.
  assert (X : forall l, existsb (Nat.eqb b) l = false <-> ~ In b l).
  { intro l. rewrite <- not_true_iff_false, existsb_exists. split.
    - intros H I. apply H. exists b. split; [exact I|apply Nat.eqb_refl].
    - intros H (c & I & E). apply Nat.eqb_eq in E. subst. contradiction. }
  unfold variable, all_given. destruct (parameter_blocks o) eqn:E.
  - split; [intros []|]. intros (H1 & H2 & _). exfalso. apply H2. unfold chosen. rewrite E. apply in_seq. lia.
  - rewrite filter_In, andb_true_iff, !negb_true_iff, X. unfold all_blocks. rewrite in_seq. intuition lia.
Qed.
Lemma existsb_variable b : existsb (Nat.eqb b) variable = true <-> In b variable.
Proof. rewrite existsb_exists. split; [intros (c & I & E); apply Nat.eqb_eq in E; subst; exact I|intro I; exists b; split; [exact I|apply Nat.eqb_refl]]. Qed.

(** the state during the evaluation *)
Lemma s1_const b : b < n -> (IsConstant Pb s1 b = false <-> varying Pb ps o b).
Proof.
  intro Hb. unfold varying, constant. rewrite <- (constant_iff (block ps) b).
  destruct (const_spec true variable (block ps) b) as [_ C]. fold s1 in C.
  destruct (existsb (Nat.eqb b) variable) eqn:E.
  - apply existsb_variable, variable_in in E. destruct E as (_ & E & _). unfold IsConstant. rewrite C. cbn [orb]. split; [discriminate|tauto].
  - assert (Q : IsConstant Pb s1 b = IsConstant Pb (block ps) b) by (unfold IsConstant; now rewrite C). rewrite Q. rewrite not_true_iff_false.
    split; [|tauto]. intro F. split; [|exact F]. destruct (in_dec Nat.eq_dec b bs) as [I|I]; [exact I|]. exfalso.
    assert (V : In b variable) by (apply variable_in; auto). apply existsb_variable in V. congruence.
Qed.
Lemma s1_same b : user_state (s1 b) = value ps b /\ state_ (s1 b) = UserState.
Proof. destruct (const_spec true variable (block ps) b) as [(A & B & _) _]. fold s1 in A, B. rewrite A, B. split; [reflexivity|apply ST]. Qed.
Lemma s2_same : keeps2 s1 s2.
Proof. apply (offsets_spec Pb bs s1 0). Qed.
Lemma s3_spec : keeps s2 s3 /\ (forall b, state_ (s3 b) = UserState).
Proof.
  unfold s3. destruct (SetParameterBlockStatePtrsToUserStatePtrs Pb bs s2) as [ok s] eqn:E. destruct (ptrs_spec Pb _ _ _ _ E) as (A & B & _). cbn [snd].
  split; [exact A|]. intro b. destruct (B b) as [Q|Q]; [|exact Q]. rewrite Q. destruct (s2_same b) as (_ & _ & -> & _). apply s1_same.
Qed.
Lemma s3_user b : user_state (s3 b) = value ps b.
Proof. destruct s3_spec as [K _]. destruct (K b) as (-> & _). destruct (s2_same b) as (-> & _). apply s1_same. Qed.
Lemma s3_const b : IsConstant Pb s3 b = IsConstant Pb s1 b.
Proof. destruct s3_spec as [K _]. rewrite (keeps_const Pb _ _ b K). unfold IsConstant. destruct (s2_same b) as (_ & -> & _). reflexivity. Qed.
Lemma s3_offset b : forall off, column_of Pb o b off -> delta_offset (s3 b) = off.
Proof.
  intros off (l1 & l2 & E & N & ->). destruct s3_spec as [K _]. destruct (K b) as (_ & _ & ->).
  destruct (offsets_spec Pb bs s1 0) as (_ & _ & H). exact (H l1 b l2 E N).
Qed.
Definition vec : values := concat (map (fun b => user_state (s3 b)) bs).
Lemma s3_points b : points Pb vec s3 b.
Proof. unfold points. destruct s3_spec as [_ S]. rewrite S. reflexivity. Qed.
Lemma column_exists b : In b bs -> exists off, column_of Pb o b off.
Proof.
  intro H. assert (G : forall l, In b l -> exists l1 l2, l = l1 ++ b :: l2 /\ ~ In b l2).
  { induction l as [|a l IH]; [intros []|]. intro I. destruct (in_dec Nat.eq_dec b l) as [J|J].
    - destruct (IH J) as (l1 & l2 & -> & N). exists (a :: l1), l2. auto.
    - destruct I as [->|I]; [|contradiction]. exists [], l. auto. }
  destruct (G _ H) as (l1 & l2 & E & N). eexists. exists l1, l2. eauto.
Qed.
(** the columns of different blocks are apart, and inside the matrix *)
Lemma columns_disjoint a b oa ob c : column_of Pb o a oa -> column_of Pb o b ob ->
  oa <= c < oa + TangentSize (PB a) -> ob <= c < ob + TangentSize (PB b) -> a = b.
Proof.
  intros (l1 & l2 & E1 & N1 & ->) (m1 & m2 & E2 & N2 & ->) H1 H2. rewrite E1 in E2. clear E1.
  revert m1 E2 c H1 H2. induction l1 as [|d l1 IH]; intros m1 E c H1 H2; destruct m1 as [|e m1]; cbn [app map list_sum fold_right] in *.
  - congruence.
  - injection E as <- ->. exfalso. unfold list_sum in *. cbn in *. lia.
  - injection E as -> <-. exfalso. unfold list_sum in *. cbn in *. lia.
  - injection E as <- E. fold (list_sum (map (fun c => TangentSize (PB c)) l1)) in *. fold (list_sum (map (fun c => TangentSize (PB c)) m1)) in *.
    change (fold_right Init.Nat.add 0 (map (fun c => TangentSize (PB c)) l1)) with (list_sum (map (fun c => TangentSize (PB c)) l1)) in *.
    change (fold_right Init.Nat.add 0 (map (fun c => TangentSize (PB c)) m1)) with (list_sum (map (fun c => TangentSize (PB c)) m1)) in *.
    apply (IH m1 E (c - TangentSize (PB d))); lia.
Qed.

(** the state in which the residual blocks are evaluated *)
Definition evaluated (s4 : states) : Prop :=
  keeps s3 s4 /\ (forall b, points Pb vec s4 b) /\
  (forall b, In b bs -> IsConstant Pb s3 b = false -> stored (s4 b) = plus_jacobian (PB b) (value ps b)).

Lemma rbs_proper rb : In rb rbs -> proper_block Pb rb.
Proof.
  unfold chosen_residuals. destruct (residual_blocks o) as [|i l] eqn:E; [apply PR|]. rewrite in_map_iff. intros (j & <- & Hj).
  apply PR. apply nth_In. apply KR. rewrite E. exact Hj.
Qed.

Lemma fresh_requested s4 rb : evaluated s4 -> In rb rbs -> fresh_jacobians Pb ps o w (args rb) (map (requested Pb (derivatives w) s4) (args rb)).
Proof.
  intros (K & _ & S) Hrb. destruct (rbs_proper rb Hrb) as [_ HA]. unfold fresh_jacobians.
  induction (args rb) as [|a r IH]; cbn [map]; constructor; [|apply IH; intros; apply HA; right; assumption].
  assert (Ha : a < n) by (apply HA; left; reflexivity). pose proof (s1_const a Ha) as C. rewrite <- s3_const in C.
  unfold requested. rewrite (keeps_const Pb _ _ a K).
  split.
  - intros [D V]. rewrite D. apply C in V as V'. rewrite V'. cbn [negb andb]. apply S; [apply V|exact V'].
  - intros [D|V]; [rewrite D; reflexivity|]. destruct (IsConstant Pb s3 a); [now rewrite andb_false_r|]. exfalso. apply V. apply C. reflexivity.
Qed.

Lemma fresh_unique l j1 j2 : fresh_jacobians Pb ps o w l j1 -> fresh_jacobians Pb ps o w l j2 -> (forall a, In a l -> a < n) -> j1 = j2.
Proof.
  intros H. revert j2. induction H as [|a x l1 l2 Hx H IH]; intros j2 H2 HA; inversion H2; subst; [reflexivity|].
  f_equal; [|apply IH; [assumption|intros; apply HA; right; assumption]].
  assert (D : varying Pb ps o a \/ ~ varying Pb ps o a).
  { assert (Ha : a < n) by (apply HA; left; reflexivity). pose proof (s1_const a Ha) as C. destruct (IsConstant Pb s1 a); [right|left; apply C; reflexivity].
    intro V. apply C in V. discriminate. }
  destruct Hx as [X1 X2]. match goal with H : _ /\ _ |- _ => destruct H as [Y1 Y2] end.
  destruct (derivatives w); [|rewrite X2, Y2 by auto; reflexivity].
  destruct D as [D|D]; [rewrite X1, Y1 by auto; reflexivity|rewrite X2, Y2 by auto; reflexivity].
Qed.

Lemma block_result s4 rb : evaluated s4 -> In rb rbs -> forall r, result Pb ps o w rb r <-> r = bl_eval (block_of Pb s4 (apply_loss_function o) (derivatives w) rb).
Proof.
  intros E Hrb r. cbn [bl_eval block_of].
  assert (U : map (fun b => user_state (s4 b)) (args rb) = map (value ps) (args rb)).
  { apply map_ext. intro b. destruct E as (K & _). destruct (K b) as (-> & _). apply s3_user. }
  rewrite U. split.
  - intros (js & F & ->). rewrite (fresh_unique _ _ _ F (fresh_requested s4 rb E Hrb)); [reflexivity|apply (rbs_proper rb Hrb)].
  - intros ->. eexists. split; [exact (fresh_requested s4 rb E Hrb)|reflexivity].
Qed.

Notation blocks s4 := (map (block_of Pb s4 (apply_loss_function o) (derivatives w)) rbs).

Lemma results_iff s4 : evaluated s4 -> (all_succeed (blocks s4) <-> exists rs, results Pb ps o w rs).
Proof.
  intro E. unfold all_succeed, results. pose proof (fun rb H => block_result s4 rb E H) as B. revert B. induction rbs as [|rb l IH]; intro B.
  - split; [exists []; constructor|constructor].
  - cbn [map]. split.
    + intro H. inversion H as [|? ? H1 H2]; subst. destruct IH as [I _]; [intros; apply B; right; assumption|]. destruct (I H2) as [rs R].
      destruct (bl_eval (block_of Pb s4 (apply_loss_function o) (derivatives w) rb)) as [r|] eqn:Q; [|congruence].
      exists (r :: rs). constructor; [|exact R]. apply (B rb (or_introl eq_refl)). symmetry. exact Q.
    + intros [rs R]. inversion R as [|? r ? rs' R1 R2]; subst. constructor.
      * apply (B rb (or_introl eq_refl)) in R1. congruence.
      * apply IH; [intros; apply B; right; assumption|]. exists rs'. exact R2.
Qed.
Lemma results_eval s4 rs : evaluated s4 -> results Pb ps o w rs -> map bl_eval (blocks s4) = map Some rs.
Proof.
  intros E. unfold results. pose proof (fun rb H => block_result s4 rb E H) as B. revert B. intros B H.
  induction H as [|rb r l rs R1 R2 IH]; [reflexivity|]. cbn [map]. f_equal; [|apply IH; intros; apply B; right; assumption].
  apply (B rb (or_introl eq_refl)) in R1. symmetry. exact R1.
Qed.

Lemma firstn_map' {A B} (f : A -> B) k (l : list A) : firstn k (map f l) = map f (firstn k l).
Proof. revert l. induction k; intros [|x l]; cbn; [reflexivity..|]. now rewrite IHk. Qed.

(** what the evaluator returns is what is specified *)
Lemma evaluate_returned s4 threads thread sched old out :
  evaluated s4 -> all_succeed (blocks s4) -> valid_schedule (length rbs) sched -> (forall i, i < length rbs -> thread i < threads) ->
  evaluate (want w) (blocks s4) (NumEffectiveParameters Pb bs) threads thread sched old = (true, out) ->
  forall rs, results Pb ps o w rs ->
  returned Pb ps o w rs (mkout (if want_cost w then o_cost out else o_cost old) (o_residuals out) (o_gradient out) (o_jacobian out)).
Proof.
  intros Ev AS VS HT E rs HR.
  assert (LB : length (blocks s4) = length rbs) by apply map_length.
  assert (CA : Forall (fun b => columns_apart (bl_params b)) (blocks s4)).
  { apply Forall_map, Forall_forall. intros rb Hrb. destruct (rbs_proper rb Hrb) as [ND HA]. cbn [bl_params block_of].
    intros j k p q c Hj Hk Hp Hq Ij Ik. rewrite nth_error_map in Hj, Hk.
    destruct (nth_error (args rb) j) as [a|] eqn:Ea; [|discriminate]. destruct (nth_error (args rb) k) as [b|] eqn:Eb; [|discriminate].
    cbn in Hj, Hk. injection Hj as <-. injection Hk as <-. cbn [pr_constant pr_offset pr_tangent] in *.
    destruct Ev as (K & _ & _). rewrite (keeps_const Pb _ _ a K), s3_const in Hp. rewrite (keeps_const Pb _ _ b K), s3_const in Hq.
    apply s1_const in Hp; [|apply HA; eapply nth_error_In; exact Ea]. apply s1_const in Hq; [|apply HA; eapply nth_error_In; exact Eb].
    destruct (column_exists a (proj1 Hp)) as [oa Ca]. destruct (column_exists b (proj1 Hq)) as [ob Cb].
    destruct (K a) as (_ & _ & Oa). destruct (K b) as (_ & _ & Ob). rewrite (s3_offset a oa Ca) in Oa. rewrite (s3_offset b ob Cb) in Ob.
    rewrite Oa in Ij. rewrite Ob in Ik. unfold in_range in Ij, Ik. apply andb_true_iff in Ij, Ik. rewrite Nat.leb_le, Nat.ltb_lt in Ij, Ik.
    assert (a = b) by exact (columns_disjoint a b oa ob c Ca Cb Ij Ik). subst b.
    eapply (proj1 (NoDup_nth_error _) ND); [apply nth_error_Some; congruence|congruence]. }
  destruct (evaluate_alike (want w) (blocks s4) (NumEffectiveParameters Pb bs) threads thread sched old) as [Q1 Q2].
  rewrite E in Q1, Q2. cbn [fst snd] in Q1, Q2.
  destruct (evaluate everything (blocks s4) (NumEffectiveParameters Pb bs) threads thread sched old) as [ok outE] eqn:EE. cbn [fst snd] in Q1, Q2. subst ok.
  destruct (Q2 eq_refl) as (Qc & Qr & Qj & Qg). rewrite <- LB in VS, HT.
  destruct (evaluate_values everything _ _ _ _ _ _ _ AS VS HT CA EE) as (V1 & V2 & V3 & _).
  pose proof (evaluate_gradient (blocks s4) (NumEffectiveParameters Pb bs) threads thread sched old outE) as G.
  pose proof (results_eval s4 rs Ev HR) as RE.
  assert (NE : forall i rb r, nth_error rbs i = Some rb -> nth_error rs i = Some r ->
     nth_error (blocks s4) i = Some (block_of Pb s4 (apply_loss_function o) (derivatives w) rb) /\
     bl_eval (block_of Pb s4 (apply_loss_function o) (derivatives w) rb) = Some r).
  { intros i rb r H1 H2. split; [rewrite nth_error_map, H1; reflexivity|].
    assert (X : nth_error (map bl_eval (blocks s4)) i = nth_error (map Some rs) i) by now rewrite RE.
    rewrite !nth_error_map, H1, H2 in X. cbn [option_map] in X. injection X as X. exact X. }
  assert (RB : forall i, rows_before (blocks s4) i = first_row Pb o i).
  { intro i. unfold rows_before, first_row. rewrite firstn_map', map_map. reflexivity. }
  assert (NR : num_residuals (blocks s4) = num_rows Pb o).
  { rewrite num_residuals_sum. unfold num_rows. now rewrite map_map. }
  assert (NC : NumEffectiveParameters Pb bs = num_columns Pb o).
  { unfold NumEffectiveParameters, num_columns. assert (F : forall l a, fold_left (fun k b => k + TangentSize (pb Pb b)) l a = a + list_sum (map (fun c => TangentSize (PB c)) l)).
    { induction l as [|x l IH]; intro a; cbn [fold_left map list_sum fold_right]; [lia|]. rewrite IH. unfold pb, list_sum. lia. }
    rewrite F. reflexivity. }
  unfold returned. cbn [o_cost o_residuals o_gradient o_jacobian]. split.
  - intro WC. rewrite WC, Qc, V1. unfold total_cost. f_equal.
    transitivity (map (fun e : option (R * (nat -> R) * (nat -> nat -> nat -> R)) => match e with Some (c, _, _) => c | None => 0%R end) (map bl_eval (blocks s4))).
    { symmetry. rewrite (map_map bl_eval). apply map_ext. intro b. reflexivity. }
    rewrite RE, map_map. apply map_ext. intros [[c r] j]. reflexivity.
  - exists (o_residuals outE), (o_jacobian outE). split; [|split; [|split; [|split]]].
    + intros i rb r k H1 H2 Hk. destruct (NE i rb r H1 H2) as [X1 X2]. rewrite <- RB, (V2 eq_refl i _ k X1 Hk). unfold residual_of. rewrite X2. destruct r as [[c r] j]. reflexivity.
    + intros i rb r k c H1 H2 Hk. destruct (NE i rb r H1 H2) as [X1 X2]. rewrite <- RB.
      assert (Hin : In rb rbs) by (eapply nth_error_In; exact H1). destruct (rbs_proper rb Hin) as [_ HA].
      destruct Ev as (K & _ & _).
      assert (PC : forall a, In a (args rb) -> (IsConstant Pb s4 a = false <-> varying Pb ps o a)).
      { intros a Ha. rewrite (keeps_const Pb _ _ a K), s3_const. apply s1_const. apply HA. exact Ha. }
      assert (OF : forall a off, column_of Pb o a off -> delta_offset (s4 a) = off).
      { intros a off C. destruct (K a) as (_ & _ & ->). apply s3_offset. exact C. }
      destruct (V3 eq_refl i _ k c X1 Hk) as [(j & p & Y1 & Y2 & Y3 & Y4)|[Y1 Y2]].
      * left. cbn [bl_params block_of] in Y1. rewrite nth_error_map in Y1. destruct (nth_error (args rb) j) as [a|] eqn:Ea; [|discriminate].
        cbn in Y1. injection Y1 as <-. cbn [pr_constant pr_offset pr_tangent] in *. apply PC in Y2; [|eapply nth_error_In; exact Ea].
        destruct (column_exists a (proj1 Y2)) as [off Co]. rewrite (OF a off Co) in *. exists j, a, off.
        unfold in_range in Y3. apply andb_true_iff in Y3. rewrite Nat.leb_le, Nat.ltb_lt in Y3.
        split; [exact Ea|]. split; [exact Y2|]. split; [exact Co|]. split; [exact Y3|]. rewrite Y4. unfold jacobian_of. rewrite X2. destruct r as [[? ?] ?]. reflexivity.
      * right. split; [|exact Y2]. intros j a off Ea Va Co R. cbn [bl_params block_of] in Y1.
        assert (Z : in_range (delta_offset (s4 a)) (TangentSize (pb Pb a)) c = false).
        { apply (Y1 j (mkpref (IsConstant Pb s4 a) (TangentSize (pb Pb a)) (delta_offset (s4 a)))).
          - rewrite nth_error_map, Ea. reflexivity.
          - cbn [pr_constant]. apply PC; [eapply nth_error_In; exact Ea|exact Va]. }
        rewrite (OF a off Co) in Z. unfold in_range in Z. apply andb_false_iff in Z. rewrite Nat.leb_gt, Nat.ltb_ge in Z. unfold pb in Z. lia.
    + intros R k _. now rewrite (Qr R).
    + intros R k c _. now rewrite (Qj R).
    + intros R c Hc. rewrite (Qg R), <- NR. apply G; auto. rewrite NC. exact Hc.
Qed.
End Main.
