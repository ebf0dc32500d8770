(** Problem::Evaluate and Problem::EvaluateResidualBlock: the theorems for C77. *)
From Coq Require Import List Arith Bool Reals Lia Lra Permutation.
From Verif Require Import EvaluatorModel EvaluatorSpec EvaluatorProps PevModel PevSpec PevProofs PevProofs2 PevProofs3 PevProofs4.
Import ListNotations.

(** Evaluate on a problem at rest: success, what is returned, what is left behind, the calls of the callback *)
Theorem pev_evaluate Pb ps o w threads thread sched old :
  proper Pb -> sized Pb ps -> settled ps -> known Pb o -> known_residuals Pb o -> something w ->
  valid_schedule (length (chosen_residuals Pb o)) sched -> (forall i, i < length (chosen_residuals Pb o) -> thread i < threads) ->
  exists ok ps', Evaluate Pb o w threads thread sched old ps = Returned ok ps' /\
    (ok <> None <-> accepted Pb ps o /\ exists rs, results Pb ps o w rs) /\
    (forall out rs, ok = Some out -> results Pb ps o w rs -> returned Pb ps o w rs out) /\
    unchanged ps ps' /\ (all_accept Pb ps -> settled ps') /\
    (evaluation_callback Pb = true -> accepted Pb ps o -> calls ps' = calls ps ++ [(derivatives w, true)]) /\
    (evaluation_callback Pb = false \/ ~ accepted Pb ps o -> calls ps' = calls ps).
Proof. apply evaluate_main. Qed.
Print Assumptions pev_evaluate.

(** the process is aborted exactly if a parameter block is unknown *)
Theorem pev_aborts_iff_unknown Pb ps o w threads thread sched old :
  proper Pb -> sized Pb ps -> settled ps -> known_residuals Pb o -> something w ->
  valid_schedule (length (chosen_residuals Pb o)) sched -> (forall i, i < length (chosen_residuals Pb o) -> thread i < threads) ->
  (Evaluate Pb o w threads thread sched old ps = Aborted <-> exists b, In b (parameter_blocks o) /\ length (pblocks Pb) <= b).
Proof.
  intros PR SZ ST KR SO VS HT. split.
  - intro E. destruct (forallb (fun b => b <? length (pblocks Pb)) (parameter_blocks o)) eqn:F.
    + assert (KN : known Pb o). { intros b I. rewrite forallb_forall in F. apply Nat.ltb_lt. apply F. exact I. }
      destruct (pev_evaluate Pb ps o w threads thread sched old PR SZ ST KN KR SO VS HT) as (ok & ps' & Q & _). congruence.
    + clear E. induction (parameter_blocks o) as [|b l IH]; [discriminate|]. cbn [forallb] in F. apply andb_false_iff in F. destruct F as [F|F].
      * exists b. split; [left; reflexivity|]. apply Nat.ltb_ge. exact F.
      * destruct (IH F) as (c & I & Q). exists c. split; [right; exact I|exact Q].
  - intros (b & I & L). unfold Evaluate. rewrite (something_true w SO). cbn [negb].
    replace (forallb (fun b => b <? length (pblocks Pb)) (parameter_blocks o)) with false; [reflexivity|].
    symmetry. apply not_true_iff_false. intro F. rewrite forallb_forall in F. specialize (F b I). apply Nat.ltb_lt in F. lia.
Qed.
Print Assumptions pev_aborts_iff_unknown.

(** the answer depends on values and constness only: not on what happened before, the threads, or the arrays given *)
Theorem pev_history_independent Pb ps1 ps2 o w threads1 thread1 sched1 old1 threads2 thread2 sched2 old2 :
  proper Pb -> sized Pb ps1 -> settled ps1 -> settled ps2 -> same_problem ps1 ps2 -> known Pb o -> known_residuals Pb o -> something w ->
  valid_schedule (length (chosen_residuals Pb o)) sched1 -> (forall i, i < length (chosen_residuals Pb o) -> thread1 i < threads1) ->
  valid_schedule (length (chosen_residuals Pb o)) sched2 -> (forall i, i < length (chosen_residuals Pb o) -> thread2 i < threads2) ->
  exists a1 a2 ps1' ps2', Evaluate Pb o w threads1 thread1 sched1 old1 ps1 = Returned a1 ps1' /\
    Evaluate Pb o w threads2 thread2 sched2 old2 ps2 = Returned a2 ps2' /\
    match a1, a2 with
    | Some o1, Some o2 => same_answer Pb o w o1 o2
    | None, None => True
    | _, _ => False
    end.
Proof.
  intros PR SZ S1 S2 SP KN KR SO V1 H1 V2 H2.
  assert (SZ2 : sized Pb ps2) by (intros b Hb; destruct (SP b) as [<- _]; apply SZ; exact Hb).
  destruct (pev_evaluate Pb ps1 o w threads1 thread1 sched1 old1 PR SZ S1 KN KR SO V1 H1) as (a1 & p1 & E1 & A1 & R1 & _).
  destruct (pev_evaluate Pb ps2 o w threads2 thread2 sched2 old2 PR SZ2 S2 KN KR SO V2 H2) as (a2 & p2 & E2 & A2 & R2 & _).
  exists a1, a2, p1, p2. split; [exact E1|]. split; [exact E2|].
  assert (IFF : a1 <> None <-> a2 <> None).
  { rewrite A1, A2. split; intros [X [rs Y]]; (split; [|exists rs]).
    - exact (same_accepted Pb _ _ _ SP X).
    - exact (same_results Pb _ _ _ _ _ SP Y).
    - exact (same_accepted Pb _ _ _ (same_sym _ _ SP) X).
    - exact (same_results Pb _ _ _ _ _ (same_sym _ _ SP) Y). }
  destruct a1 as [o1|], a2 as [o2|]; auto.
  - destruct (proj1 A1 ltac:(discriminate)) as [_ [rs Y]].
    pose proof (R1 o1 rs eq_refl Y) as Q1. pose proof (R2 o2 rs eq_refl (same_results Pb _ _ _ _ _ SP Y)) as Q2.
    apply (returned_unique Pb ps2 o w rs o1 o2 PR KR); [symmetry; exact (Forall2_len _ _ _ Y)| |exact Q2].
    exact (same_returned Pb _ _ _ _ _ _ SP Q1).
  - apply (proj1 IFF); [discriminate|reflexivity].
  - apply (proj2 IFF); [discriminate|reflexivity].
Qed.
Print Assumptions pev_history_independent.

(** nothing asked for, nothing done *)
Theorem pev_nothing_asked Pb ps o w threads thread sched old : ~ something w ->
  Evaluate Pb o w threads thread sched old ps = Returned (Some old) ps.
Proof.
  intro N. unfold Evaluate. replace (want_cost w || rq_residuals (want w) || rq_gradient (want w) || rq_jacobian (want w)) with false; [reflexivity|].
  symmetry. apply not_true_iff_false. rewrite !orb_true_iff. unfold something in N. tauto.
Qed.
Print Assumptions pev_nothing_asked.

(** EvaluateResidualBlock where the manifolds accept the values *)
Theorem pev_residual_block Pb ps rb loss np jacobians :
  settled ps -> (forall a, In a (args rb) -> ~ constant Pb ps a -> accepts Pb ps a) ->
  exists r ps', EvaluateResidualBlock Pb rb loss np jacobians ps = Returned r ps' /\
    (asks_constant Pb ps rb jacobians -> r = None) /\
    (~ asks_constant Pb ps rb jacobians -> single_result Pb ps rb loss jacobians r) /\
    unchanged ps ps' /\ settled ps' /\
    calls ps' = calls ps ++ (if evaluation_callback Pb then [(match jacobians with Some _ => true | None => false end, np)] else []).
Proof. apply residual_block_main. Qed.
Print Assumptions pev_residual_block.

(** and where one does not: the process is aborted *)
Theorem pev_residual_block_rejected_aborts Pb ps rb loss np jacobians :
  settled ps -> ~ asks_constant Pb ps rb jacobians ->
  (exists a, In a (args rb) /\ ~ constant Pb ps a /\ ~ accepts Pb ps a) ->
  EvaluateResidualBlock Pb rb loss np jacobians ps = Aborted.
Proof.
  intros ST NC (a & I & C & A). unfold EvaluateResidualBlock. rewrite setstates_aborts; [reflexivity|exact ST| |].
  - intros j b Hj Hb. apply not_true_iff_false. intro Q. apply NC. exists j, b. split; [exact Hj|]. split; [apply asked_list; exact Hb|].
    apply (constant_iff Pb (block ps)). exact Q.
  - exists a. split; [exact I|]. split; [|exact A]. apply not_true_iff_false. intro Q. apply C. apply (constant_iff Pb (block ps)). exact Q.
Qed.
Print Assumptions pev_residual_block_rejected_aborts.

(** evaluations, writes and changes of constness in any order: none aborts or reads freed memory, the problem stays at
    rest, and values and constness are what the user made them *)
Theorem pev_history Pb users ops :
  proper Pb -> (forall b, b < length (pblocks Pb) -> length (users b) = Size (nth b (pblocks Pb) (mkPB 0 0 (fun _ => None)))) ->
  history Pb ops (fresh users) ->
  exists ps, run Pb ops (fresh users) = Some ps /\ settled ps /\ sized Pb ps /\
    forall b, value ps b = fst (fold_left effect ops (users, fun _ => false)) b /\
              is_set_constant (block ps b) = snd (fold_left effect ops (users, fun _ => false)) b.
Proof.
  intros PR L H. apply (history_main Pb ops (fresh users) PR); [intro b; reflexivity|exact L|exact H].
Qed.
Print Assumptions pev_history.

(** ** a problem with two blocks; the first has a manifold that wants a positive number *)
Definition positive (x : values) : option jac := if Rle_dec (hd 0%R x) 0 then None else Some (fun _ _ => 1%R).
Definition two_rb : rblock := mkRB 1 [0; 1] (fun _ xs _ =>
  Some (hd 0 (nth 0 xs []) + hd 0 (nth 1 xs []), fun _ => hd 0 (nth 0 xs []), fun j _ _ => if j =? 0 then 2 else 3)%R).
Definition two : problem := mkProblem [mkPB 1 1 positive; mkPB 1 1 (fun _ => Some (fun _ _ => 1%R))] [two_rb] true.
Definition two_users (x : R) : nat -> values := fun b => if b =? 0 then [x] else [5%R].
Definition ask_all : wanted := mkWant true everything.
Definition zero_out : outputs := mkout 0 (fun _ => 0%R) (fun _ => 0%R) (fun _ _ => 0%R).
Definition one_run : list step := [Check 0; Run 0].

Lemma two_proper : proper two.
Proof.
  intros rb [<-|[]]. split.
  - repeat constructor; cbn; intuition discriminate.
  - cbn. intros a [<-|[<-|[]]]; lia.
Qed.
Lemma two_sized x : sized two (fresh (two_users x)).
Proof. intros [|[|b]] H; cbn in *; try reflexivity; lia. Qed.
Lemma one_run_valid : valid_schedule 1 one_run.
Proof.
  split; [apply Permutation_refl|]. split; [apply Permutation_refl|]. intros l1 i l2 E. unfold one_run in E.
  repeat (destruct l1 as [|? l1]; cbn [app] in E; try discriminate E; injection E; intros; subst; cbn; auto).
  all: try (destruct l1; discriminate).
Qed.

(** the hypotheses of pev_evaluate hold, and the columns of the requested order are used *)
Example pev_two_evaluates :
  proper two /\ sized two (fresh (two_users 1)) /\ settled (fresh (two_users 1)) /\ all_accept two (fresh (two_users 1)) /\
  exists out ps, Evaluate two (mkEO [1; 0] [0] true) ask_all 1 (fun _ => 0) one_run zero_out (fresh (two_users 1)) = Returned (Some out) ps /\
    o_cost out = 6%R /\ o_residuals out 0 = 1%R /\ o_jacobian out 0 0 = 3%R /\ o_jacobian out 0 1 = 2%R /\ o_gradient out 1 = 2%R.
Proof.
  split; [exact two_proper|]. split; [apply two_sized|]. split; [intro; reflexivity|].
  assert (P1 : positive [1%R] = Some (fun _ _ => 1%R)).
  { unfold positive. cbn [hd]. destruct (Rle_dec 1 0); [lra|reflexivity]. }
  assert (A : all_accept two (fresh (two_users 1))).
  { intros [|[|b]] H _; unfold accepts; [change (positive [1%R] <> None); rewrite P1; discriminate|cbn; discriminate|cbn in H; lia]. }
  split; [exact A|].
  destruct (pev_evaluate two (fresh (two_users 1)) (mkEO [1; 0] [0] true) ask_all 1 (fun _ => 0) one_run zero_out) as (ok & ps & E & OK & RET & _).
  { exact two_proper. } { apply two_sized. } { intro; reflexivity. } { intros b [<-|[<-|[]]]; cbn; lia. } { intros i [<-|[]]; cbn; lia. } { left; reflexivity. }
  { exact one_run_valid. } { intros; lia. }
  pose (rs := [((1 + 5)%R, (fun _ : nat => 1%R), (fun j _ _ : nat => if j =? 0 then 2%R else 3%R))]).
  assert (V0 : varying two (fresh (two_users 1)) (mkEO [1; 0] [0] true) 0) by (split; [right; left; reflexivity|intros [Q|Q]; discriminate]).
  assert (V1 : varying two (fresh (two_users 1)) (mkEO [1; 0] [0] true) 1) by (split; [left; reflexivity|intros [Q|Q]; discriminate]).
  assert (R : results two (fresh (two_users 1)) (mkEO [1; 0] [0] true) ask_all rs).
  { constructor; [|constructor]. exists [positive [1%R]; Some (fun _ _ => 1%R)]. split; [|reflexivity].
    constructor; [|constructor; [|constructor]].
    - split; [reflexivity|]. intros [Q|Q]; [discriminate|contradiction].
    - split; [reflexivity|]. intros [Q|Q]; [discriminate|contradiction]. }
  destruct ok as [out|]; [|exfalso; apply OK; [split; [intros b V; apply A|exists rs; exact R]|reflexivity]].
  2: { destruct V as [[<-|[<-|[]]] _]; cbn; lia. } 2: apply V.
  exists out, ps. split; [exact E|].
  destruct (RET out rs eq_refl R) as (C & v & M & IV & IM & RR & RJ & RG).
  assert (v0 : v 0 = 1%R) by exact (IV 0 two_rb _ 0 eq_refl eq_refl (le_n 1)).
  assert (C0 : column_of two (mkEO [1; 0] [0] true) 0 1) by (exists [1], []; repeat split; auto).
  assert (C1 : column_of two (mkEO [1; 0] [0] true) 1 0) by (exists [], [0]; repeat split; auto; cbn; intuition discriminate).
  assert (COL : forall c, c < 2 -> M 0 c = if c =? 0 then 3%R else 2%R).
  { intros c Hc. destruct (IM 0 two_rb _ 0 c eq_refl eq_refl (le_n 1)) as [(j & a & off & J1 & J2 & J3 & J4 & J5)|[N _]].
    - change (M (first_row two (mkEO [1; 0] [0] true) 0 + 0) c) with (M 0 c) in J5. rewrite J5.
      destruct j as [|[|j]]; cbn in J1; [injection J1 as <-|injection J1 as <-|destruct j; discriminate].
      + rewrite (column_unique two _ _ _ _ J3 C0) in J4. cbn in J4. assert (c = 1) by lia. subst. reflexivity.
      + rewrite (column_unique two _ _ _ _ J3 C1) in J4. cbn in J4. assert (c = 0) by lia. subst. reflexivity.
    - exfalso. destruct c as [|[|c]]; [apply (N 1 1 0 eq_refl V1 C1); cbn; lia|apply (N 0 0 1 eq_refl V0 C0); cbn; lia|lia]. }
  split; [rewrite C by reflexivity; cbn; lra|]. split; [rewrite RR by (try reflexivity; cbn; lia); exact v0|].
  split; [rewrite RJ by (try reflexivity; cbn; lia); rewrite COL by lia; reflexivity|].
  split; [rewrite RJ by (try reflexivity; cbn; lia); rewrite COL by lia; reflexivity|].
  rewrite RG by (try reflexivity; cbn; lia). change (num_rows two (mkEO [1; 0] [0] true)) with 1. cbn [sumn]. rewrite v0, COL by lia. cbn. lra.
Qed.
Print Assumptions pev_two_evaluates.

(** the hypotheses of pev_history hold for a history with evaluations in between *)
Example pev_two_history :
  history two [CallEvaluate (mkEO [1] [] true) ask_all 1 (fun _ => 0) one_run zero_out; Write 0 [2%R]; SetParameterBlockConstant 1]
    (fresh (two_users 1)).
Proof.
  assert (A : all_accept two (fresh (two_users 1))).
  { intros [|[|b]] H _; unfold accepts; [|cbn; discriminate|cbn in H; lia]. change (positive [1%R] <> None). unfold positive. cbn [hd]. destruct (Rle_dec 1 0); [lra|discriminate]. }
  cbn [history]. split.
  - split; [exact A|]. split; [intros b [<-|[]]; cbn; lia|]. split; [intros i []|]. split; [exact one_run_valid|]. intros; lia.
  - destruct (do_op two (fresh (two_users 1)) _); [|exact I]. split; [cbn; lia|]. cbn [do_op]. auto.
Qed.

(** the full claim "evaluations never read freed memory" is false: with the blocks listed in another order than in the
    problem and values the first manifold rejects, Evaluate returns false and leaves the second block with a pointer into the freed
    vector; after the user has put that right, the next evaluation reads it *)
Theorem pev_rejected_leaves_dangling_refuted :
  exists ps, Evaluate two (mkEO [1; 0] [] true) ask_all 1 (fun _ => 0) one_run zero_out (fresh (two_users (-1))) = Returned None ps /\
    state_ (block ps 1) = Dangling /\
    run two [CallEvaluate (mkEO [1; 0] [] true) ask_all 1 (fun _ => 0) one_run zero_out; Write 0 [1%R]] (fresh (two_users (-1))) <> None /\
    run two [CallEvaluate (mkEO [1; 0] [] true) ask_all 1 (fun _ => 0) one_run zero_out; Write 0 [1%R];
             CallEvaluate (mkEO [0] [] true) ask_all 1 (fun _ => 0) one_run zero_out] (fresh (two_users (-1))) = None.
Proof.
  assert (P1 : positive [1%R] = Some (fun _ _ => 1%R)).
  { unfold positive. cbn [hd]. destruct (Rle_dec 1 0); [lra|reflexivity]. }
  assert (PN : positive [(-1)%R] = None).
  { unfold positive. cbn [hd]. destruct (Rle_dec (-1) 0); [reflexivity|lra]. }
  assert (E : exists ps, Evaluate two (mkEO [1; 0] [] true) ask_all 1 (fun _ => 0) one_run zero_out (fresh (two_users (-1))) = Returned None ps /\
    state_ (block ps 1) = Dangling /\ is_set_constant (block ps 1) = false /\ is_set_constant (block ps 0) = false).
  { unfold Evaluate, ProgramEvaluate. do 6 (cbn -[positive evaluate]; rewrite ?PN). eexists. split; [reflexivity|]. do 6 (cbn -[positive evaluate]; rewrite ?PN). auto. }
  destruct E as (ps & E & D & C1 & C0). exists ps. split; [exact E|]. split; [exact D|]. cbn [run do_op]. rewrite E. split; [discriminate|].
  match goal with |- match match Evaluate _ _ _ _ _ _ _ ?p with _ => _ end with _ => _ end = None => set (q := p) end.
  assert (Q : Evaluate two (mkEO [0] [] true) ask_all 1 (fun _ => 0) one_run zero_out q = Undefined).
  { unfold Evaluate, ProgramEvaluate, IsConstant, q. do 8 (cbn -[positive evaluate]; rewrite ?P1, ?C0, ?C1, ?D). unfold run_block. cbn [args two_rb arguments]. unfold state. do 3 (cbn -[positive evaluate]; rewrite ?D). reflexivity. }
  rewrite Q. reflexivity.
Qed.
Print Assumptions pev_rejected_leaves_dangling_refuted.
