(** Problem::Evaluate: the whole call. *)
From Coq Require Import List Arith Bool Reals Lia Lra.
From Verif Require Import EvaluatorModel EvaluatorSpec EvaluatorProofs EvaluatorProps PevModel PevSpec PevProofs PevProofs2.
Import ListNotations.

Section Whole.
Variable Pb : problem.
Notation n := (length (pblocks Pb)).
Notation PB b := (nth b (pblocks Pb) (mkPB 0 0 (fun _ => None))).
Notation states := (nat -> bstate).

Lemma forallb_known o : known Pb o -> forallb (fun b => b <? n) (parameter_blocks o) = true.
Proof. intro H. apply forallb_forall. intros b I. apply Nat.ltb_lt. apply H. exact I. Qed.
Lemma something_true w : something w -> want_cost w || rq_residuals (want w) || rq_gradient (want w) || rq_jacobian (want w) = true.
Proof. intros [->|[->|[->| ->]]]; rewrite ?orb_true_r; reflexivity. Qed.

Lemma evaluate_main ps o w threads thread sched old :
  proper Pb -> sized Pb ps -> settled ps -> known Pb o -> known_residuals Pb o -> something w ->
  valid_schedule (length (chosen_residuals Pb o)) sched -> (forall i, i < length (chosen_residuals Pb o) -> thread i < threads) ->
  exists ok ps', Evaluate Pb o w threads thread sched old ps = Returned ok ps' /\
    (ok <> None <-> accepted Pb ps o /\ exists rs, results Pb ps o w rs) /\
    (forall out rs, ok = Some out -> results Pb ps o w rs -> returned Pb ps o w rs out) /\
    unchanged ps ps' /\ (all_accept Pb ps -> settled ps') /\
    (evaluation_callback Pb = true -> accepted Pb ps o -> calls ps' = calls ps ++ [(derivatives w, true)]) /\
    (evaluation_callback Pb = false \/ ~ accepted Pb ps o -> calls ps' = calls ps).
Proof.
  intros PR SZ ST KN KR SO VS HT.
  pose (bs := chosen Pb o). pose (rbs := chosen_residuals Pb o).
  pose (S3 := s3 Pb ps o).
  assert (CH : (if match parameter_blocks o with [] => true | _ => false end then all_blocks Pb else parameter_blocks o) = bs).
  { unfold bs, chosen, all_blocks. destruct (parameter_blocks o); reflexivity. }
  (* the state vector *)
  destruct (StateVectorToParameterBlocks Pb (vec Pb ps o) 0 bs S3) as [ok4 s4] eqn:E4.
  destruct (vector_spec Pb (vec Pb ps o) bs S3 [] ok4 s4) as (K4 & P4 & A4 & J4 & U4).
  { reflexivity. }
  { intros b Hb. unfold S3. rewrite (s3_user Pb ps o ST). apply SZ. apply (chosen_known Pb o KN). exact Hb. }
  { intro b. apply (s3_points Pb ps o ST). }
  { exact E4. }
  assert (ACC : ok4 = true <-> accepted Pb ps o).
  { rewrite A4. unfold accepted, accepts, acc. unfold S3. split.
    - intros H b V. specialize (H b (proj1 V)). rewrite (s3_user Pb ps o ST) in H. apply H.
      rewrite (s3_const Pb ps o ST). apply (s1_const Pb ps o); [apply (chosen_known Pb o KN); apply V|exact V].
    - intros H b I C. rewrite (s3_user Pb ps o ST). apply H. rewrite (s3_const Pb ps o ST) in C. apply (s1_const Pb ps o); [apply (chosen_known Pb o KN); exact I|exact C]. }
  (* after the evaluation *)
  pose (finish := fun s : states => free (SetParameterOffsets Pb 0 (all_blocks Pb) (snd (SetParameterBlockStatePtrsToUserStatePtrs Pb (all_blocks Pb) (fold_left (set_constant false) (variable Pb ps o) s))))).
  assert (FIN : forall s cs, (forall b, s b = s4 b) -> unchanged ps (mkPS (finish s) cs) /\ (all_accept Pb ps -> settled (mkPS (finish s) cs))).
  { intros s cs Es. unfold finish. set (t1 := fold_left (set_constant false) (variable Pb ps o) s).
    destruct (SetParameterBlockStatePtrsToUserStatePtrs Pb (all_blocks Pb) t1) as [ok5 t2] eqn:E5.
    destruct (ptrs_spec Pb _ _ _ _ E5) as (K5 & P5 & A5 & S5). cbn [snd].
    destruct (offsets_spec Pb (all_blocks Pb) t2 0) as (K6 & _ & _). set (t3 := SetParameterOffsets Pb 0 (all_blocks Pb) t2) in *.
    assert (C1 : forall b, user_state (t1 b) = value ps b /\ is_set_constant (t1 b) = is_set_constant (block ps b) /\ state_ (t1 b) = state_ (s4 b)).
    { intro b. destruct (const_spec false (variable Pb ps o) s b) as [(B1 & B2 & _) B3]. fold t1 in B1, B2, B3. rewrite B1, B2, B3, (Es b).
      destruct (K4 b) as (-> & -> & _). unfold S3. rewrite (s3_user Pb ps o ST). split; [reflexivity|]. split; [|reflexivity].
      destruct (existsb (Nat.eqb b) (variable Pb ps o)) eqn:X.
      - apply existsb_variable, variable_in in X. destruct X as (_ & _ & X). unfold IsConstant in X. apply orb_false_iff in X. symmetry. apply X.
      - destruct (s3_spec Pb ps o ST) as [K3 _]. destruct (K3 b) as (_ & -> & _). destruct (s2_same Pb ps o b) as (_ & -> & _).
        destruct (const_spec true (variable Pb ps o) (block ps) b) as [_ Y]. fold (s1 Pb ps o) in Y. rewrite Y, X. reflexivity. }
    assert (C2 : forall b, IsConstant Pb t1 b = IsConstant Pb (block ps) b) by (intro b; unfold IsConstant; destruct (C1 b) as (_ & -> & _); reflexivity).
    split.
    - intro b. unfold value, block, free. cbn [user_state is_set_constant]. destruct (K6 b) as (-> & -> & _). destruct (K5 b) as (-> & -> & _).
      destruct (C1 b) as (-> & -> & _). auto.
    - intros AA b. unfold block, free. cbn [state_]. destruct (K6 b) as (_ & _ & -> & _).
      assert (Q : state_ (t2 b) = UserState); [|rewrite Q; reflexivity].
      assert (OK : ok5 = true).
      { apply A5. intros c Ic Cc. unfold acc. destruct (C1 c) as (-> & _). apply AA; [unfold all_blocks in Ic; apply in_seq in Ic; lia|].
        unfold constant. rewrite <- (constant_iff Pb (block ps)). rewrite C2 in Cc. congruence. }
      destruct (lt_dec b n) as [L|L].
      + destruct (IsConstant Pb (block ps) b) eqn:CB.
        * assert (Q : state_ (t1 b) = UserState).
          { destruct (C1 b) as (_ & _ & ->). rewrite U4.
            - apply (s3_spec Pb ps o ST).
            - right. unfold S3. rewrite (s3_const Pb ps o ST). apply not_false_iff_true. intro F. apply (s1_const Pb ps o b L) in F. apply (proj2 F). apply (constant_iff Pb (block ps)). exact CB. }
          destruct (P5 b) as [-> | ->]; [exact Q|reflexivity].
        * apply (S5 OK); [apply in_seq; lia|rewrite C2; exact CB].
      + assert (Q : state_ (t1 b) = UserState).
        { destruct (C1 b) as (_ & _ & ->). rewrite U4; [apply (s3_spec Pb ps o ST)|]. left. intro I. apply L. apply (chosen_known Pb o KN). exact I. }
        destruct (P5 b) as [-> | ->]; [exact Q|reflexivity]. }
  (* the call *)
  unfold Evaluate. rewrite (something_true w SO), (forallb_known o KN). cbn [negb]. rewrite CH.
  change (if match parameter_blocks o with [] => true | _ => false end then [] else filter (fun b => negb (existsb (Nat.eqb b) bs) && negb (IsConstant Pb (block ps) b)) (all_blocks Pb)) with (variable Pb ps o).
  fold (s1 Pb ps o). fold bs. change (SetParameterOffsets Pb 0 bs (s1 Pb ps o)) with (s2 Pb ps o).
  change (snd (SetParameterBlockStatePtrsToUserStatePtrs Pb bs (s2 Pb ps o))) with S3.
  rewrite (gather_spec Pb bs S3 (proj2 (s3_spec Pb ps o ST))).
  change (concat (map (fun b => user_state (S3 b)) bs)) with (vec Pb ps o).
  unfold ProgramEvaluate. cbn [block calls]. rewrite E4. destruct ok4; cbn [negb].
  - assert (AC : accepted Pb ps o) by (apply ACC; reflexivity).
    assert (exists s5, (if evaluation_callback Pb then CopyParameterBlockStateToUserState Pb (vec Pb ps o) bs s4 else Some s4) = Some s5 /\ forall b, s5 b = s4 b) as (s5 & -> & E5).
    { destruct (evaluation_callback Pb); [apply copy_spec; exact P4|exists s4; auto]. }
    assert (P5 : forall b, points Pb (vec Pb ps o) s5 b).
    { intro b. pose proof (P4 b) as Q. unfold points, at_ptr in *. rewrite (E5 b). exact Q. }
    assert (Ev : evaluated Pb ps o s5).
    { split; [|split; [exact P5|]].
      - intro b. rewrite (E5 b). apply K4.
      - intros b I C. rewrite (E5 b), (J4 eq_refl b I C). unfold S3. now rewrite (s3_user Pb ps o ST). }
    fold (derivatives w). change (the_rblocks Pb o) with rbs.
    rewrite (run_blocks_spec Pb (vec Pb ps o) s5 (apply_loss_function o) (derivatives w) rbs P5).
    destruct (evaluate (want w) (map (block_of Pb s5 (apply_loss_function o) (derivatives w)) rbs) (NumEffectiveParameters Pb bs) threads thread sched old) as [ok out] eqn:EV.
    cbn [block calls]. fold (finish s5).
    eexists. eexists. split; [reflexivity|].
    assert (LB : length (map (block_of Pb s5 (apply_loss_function o) (derivatives w)) rbs) = length rbs) by apply map_length.
    assert (OK : ok = true <-> exists rs, results Pb ps o w rs).
    { rewrite <- (results_iff Pb ps o w PR ST KR s5 Ev).
      pose proof (evaluate_succeeds_iff (want w) (map (block_of Pb s5 (apply_loss_function o) (derivatives w)) rbs) (NumEffectiveParameters Pb bs) threads thread sched old) as H.
      rewrite LB, EV in H. exact (H VS HT). }
    split; [|split; [|split; [apply FIN; exact E5|split; [apply FIN; exact E5|split]]]].
    + destruct ok; split; try congruence.
      * intros _. split; [exact AC|]. apply OK. reflexivity.
      * intros [_ R]. apply OK in R. discriminate.
    + intros out' rs H R. destruct ok; [|discriminate]. injection H as <-.
      apply (evaluate_returned Pb ps o w PR ST KR s5 threads thread sched old out Ev); auto.
      apply (results_iff Pb ps o w PR ST KR s5 Ev). exists rs. exact R.
    + intros -> _. reflexivity.
    + intros [-> | N]; [reflexivity|contradiction].
  - cbn [block calls]. fold (finish s4). eexists. eexists. split; [reflexivity|].
    assert (AC : ~ accepted Pb ps o) by (intro A; apply ACC in A; discriminate).
    split; [|split; [|split; [apply FIN; auto|split; [apply FIN; auto|split]]]].
    + split; [congruence|intros [A _]; contradiction].
    + intros; discriminate.
    + intros; contradiction.
    + reflexivity.
Qed.
End Whole.
