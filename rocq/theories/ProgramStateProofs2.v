(* Solver::Solve, Program::Plus and the block offsets. *)

From Coq Require Import List Arith Bool Lia Permutation.
From Verif Require Import ProgramStateModel ProgramStateSpec ProgramStateProofs.
Import ListNotations.

Section Proofs.
Variable V : Type.
Implicit Types (m : mem V) (w : world V) (b : pblock V) (bs : list (pblock V)).

Lemma num_parameters_sum bs : num_parameters bs = list_sum (map pb_size bs).
Proof.
  unfold num_parameters.
  assert (G : forall n, fold_left (fun n b => n + pb_size b) bs n =
                        n + list_sum (map pb_size bs)).
  { induction bs as [|b bs IH]; intros n; [cbn; lia|].
    cbn [fold_left map]. rewrite IH. unfold list_sum. cbn. lia. }
  apply G.
Qed.

Lemma sized_length bs vs : sized bs vs -> length (concat vs) = num_parameters bs.
Proof.
  rewrite num_parameters_sum.
  induction 1 as [|b v bs vs E F IH]; [auto|].
  cbn [concat map]. rewrite app_length, IH, E. reflexivity.
Qed.

Lemma at_user_values bs w :
  (forall b, In b bs -> exists v, user_value w b = Some v /\ length v = pb_size b) ->
  exists vs, Forall2 (fun b v => user_value w b = Some v) bs vs /\ sized bs vs.
Proof.
  induction bs as [|b bs IH]; intros H.
  - exists []. split; constructor.
  - destruct (H b (or_introl eq_refl)) as (v & E & L).
    destruct IH as (vs & F & S); [intros b' I; apply H; now right|].
    exists (v :: vs). split; constructor; auto.
Qed.

Lemma Forall2_impl_in {A B} (P Q : A -> B -> Prop) l1 l2 :
  (forall a y, In a l1 -> P a y -> Q a y) -> Forall2 P l1 l2 -> Forall2 Q l1 l2.
Proof.
  intros H F. revert H. induction F as [|a y l1 l2 Pay F IH]; intros H; constructor.
  - apply H; [now left|auto].
  - apply IH. intros a' y' I. apply H. now right.
Qed.

Lemma start_exists problem bs fill w :
  ready problem w -> part_of bs problem ->
  exists w1, minimizer_start problem bs fill w w1.
Proof.
  intros (D & U) (Db & Inc).
  destruct (stp_total V problem w) as (ok & wa & Ea).
  { intros b I. apply (U b I). }
  destruct (stp_some _ _ _ _ _ Ea) as [Ma Pa].
  destruct (at_user_values bs w) as (vs & F & S).
  { intros b I. apply (U b (Inc b I)). }
  set (wz := mkworld (upd (w_mem wa) (Vec 0) (Some (repeat fill (num_parameters bs))))
               (w_state wa)).
  assert (SU : forall b, In b bs -> w_state wa (pb_id b) = (User (pb_id b), 0)).
  { intros b I. destruct (U b (Inc b I)) as [E _].
    destruct (Pa (pb_id b)) as [G|G]; congruence. }
  assert (LEN : forall b v, In b bs -> user_value w b = Some v -> length v = pb_size b).
  { intros b v I E. destruct (U b (Inc b I)) as (_ & v' & E' & L'). congruence. }
  destruct (bsv_ok V bs vs [] (repeat fill (num_parameters bs)) [] (Vec 0) wz)
    as (wb & Eb & _).
  - apply (Forall2_impl_in (fun b v => user_value w b = Some v)); [|exact F].
    intros b v I E. cbn [w_state wz]. rewrite (SU b I). split; [|discriminate].
    unfold value. cbn [w_state w_mem wz]. rewrite (SU b I).
    apply read_all; [|symmetry; apply (LEN b v I E)].
    rewrite upd_other by discriminate. rewrite Ma. exact E.
  - rewrite repeat_length. symmetry. now apply sized_length.
  - cbn [w_mem wz]. rewrite upd_same. cbn. now rewrite app_nil_r.
  - eexists. exists ok, wa, wb. split; [exact Ea|]. split; [exact Eb|reflexivity].
Qed.

Lemma start_facts problem bs fill w w1 :
  ready problem w -> part_of bs problem -> minimizer_start problem bs fill w w1 ->
  inv V bs w1 w1 /\
  (forall c, w_mem w1 (User c) = w_mem w (User c)) /\
  (forall b, In b problem -> w_state w1 (pb_id b) = (User (pb_id b), 0)) /\
  exists vs, Forall2 (fun b v => user_value w b = Some v) bs vs /\ sized bs vs /\
    w_mem w1 (Vec 0) = Some (concat vs) /\ w_mem w1 (Vec 1) = Some (concat vs).
Proof.
  intros (D & U) (Db & Inc) (ok & wa & wb & Ea & Eb & ->).
  destruct (stp_some _ _ _ _ _ Ea) as [Ma Pa].
  destruct (at_user_values bs w) as (vs & F & S).
  { intros b I. apply (U b (Inc b I)). }
  unfold extract_parameters in Eb.
  set (wz := mkworld (upd (w_mem wa) (Vec 0) (Some (repeat fill (num_parameters bs))))
               (w_state wa)) in *.
  assert (SU : forall b, In b problem -> w_state wa (pb_id b) = (User (pb_id b), 0)).
  { intros b I. destruct (U b I) as [E _].
    destruct (Pa (pb_id b)) as [G|G]; congruence. }
  assert (LEN : forall b v, In b bs -> user_value w b = Some v -> length v = pb_size b).
  { intros b v I E. destruct (U b (Inc b I)) as (_ & v' & E' & L'). congruence. }
  destruct (bsv_ok V bs vs [] (repeat fill (num_parameters bs)) [] (Vec 0) wz)
    as (wb' & Eb' & Sb & Ob & Vb).
  - apply (Forall2_impl_in (fun b v => user_value w b = Some v)); [|exact F].
    intros b v I E. cbn [w_state wz]. rewrite (SU b (Inc b I)). split; [|discriminate].
    unfold value. cbn [w_state w_mem wz]. rewrite (SU b (Inc b I)).
    apply read_all; [|symmetry; apply (LEN b v I E)].
    rewrite upd_other by discriminate. rewrite Ma. exact E.
  - rewrite repeat_length. symmetry. now apply sized_length.
  - cbn [w_mem wz]. rewrite upd_same. cbn. now rewrite app_nil_r.
  - cbn [length] in Eb'. assert (wb' = wb) by congruence. subst wb'.
    cbn [app] in Vb. rewrite app_nil_r in Vb.
    assert (MU : forall c, w_mem wb (User c) = w_mem w (User c)).
    { intros c. rewrite Ob by discriminate. cbn [w_mem wz].
      rewrite upd_other by discriminate. now rewrite Ma. }
    assert (ST : forall b, In b problem -> w_state wb (pb_id b) = (User (pb_id b), 0)).
    { intros b I. rewrite Sb. cbn [w_state wz]. apply SU, I. }
    split.
    { split; [auto|]. split; [auto|]. split; [intros b I; left; apply ST, Inc, I|].
      split; [intros b I _; split; [apply ST, Inc, I|auto]|].
      intros b I. unfold user_value. cbn [w_mem]. rewrite upd_other by discriminate.
      rewrite MU. apply (U b (Inc b I)). }
    split; [intros c; cbn [w_mem]; rewrite upd_other by discriminate; apply MU|].
    split; [exact ST|].
    exists vs. split; [exact F|]. split; [exact S|]. cbn [w_mem].
    rewrite upd_same. rewrite upd_other by discriminate. auto.
Qed.

Lemma in_ids_or bs c : In c (map pb_id bs) \/ ~ In c (map pb_id bs).
Proof. destruct (in_dec Nat.eq_dec c (map pb_id bs)); auto. Qed.

Lemma distinct_id (l : list (pblock V)) b b' :
  distinct l -> In b l -> In b' l -> pb_id b = pb_id b' -> b = b'.
Proof.
  unfold distinct. induction l as [|x l IH]; [easy|].
  cbn. intros D I I' E. apply NoDup_cons_iff in D as [N D].
  destruct I as [->|I], I' as [->|I']; auto.
  - exfalso. apply N. rewrite E. now apply in_map.
  - exfalso. apply N. rewrite <- E. now apply in_map.
Qed.

(* shape of a solve *)
Lemma solve_split cb problem bs fill os usable w w' :
  solve cb problem (Some bs) fill os usable w = Some w' ->
  exists w1, minimizer_start problem bs fill w w1 /\
  exists w3, (forall a, (exists c, a = User c) -> w_mem w' a = w_mem w3 a) /\
    (exists ok w4, set_ptrs_to_user problem w3 = Some (ok, w4) /\
       w' = mkworld (free_all (w_mem w4)) (w_state w4)) /\
    ((bs = [] /\ w_state w3 = w_state w1 /\
        forall c, w_mem w3 (User c) = w_mem w1 (User c)) \/
     exists w2 ok2 w2', bs <> [] /\ run_ops cb bs os w1 = Some w2 /\
       state_vector_to_blocks bs (Vec (if usable then 0 else 1), 0) w2 = Some (ok2, w2')
       /\ copy_to_user bs w2' = Some w3).
Proof.
  unfold solve. intros H.
  destruct (set_ptrs_to_user problem w) as [[ok wa]|] eqn:Ea; [|discriminate].
  destruct (extract_parameters bs fill wa) as [wb|] eqn:Eb; [|discriminate].
  destruct (minimize cb bs os usable wb) as [w3|] eqn:Em; [|discriminate].
  destruct (set_ptrs_to_user problem w3) as [[ok4 w4]|] eqn:E4; [|discriminate].
  injection H as <-.
  eexists. split; [exists ok, wa, wb; split; [auto|split; [exact Eb|reflexivity]]|].
  exists w3. split.
  { intros a (c & ->). cbn. now rewrite (proj1 (stp_some _ _ _ _ _ E4)). }
  split; [exists ok4, w4; auto|].
  unfold minimize in Em. destruct bs as [|b bs].
  - left. injection Em as <-. split; [auto|]. split; [auto|].
    intros c. cbn [w_mem]. now rewrite upd_other by discriminate.
  - right. cbv zeta in Em.
    destruct (run_ops cb (b :: bs) os _) as [w2|] eqn:R; [|discriminate].
    destruct (state_vector_to_blocks (b :: bs) _ w2) as [[ok2 w2']|] eqn:S; [|discriminate].
    exists w2, ok2, w2'. split; [discriminate|]. auto.
Qed.

Theorem solve_keeps_other_blocks cb problem bs fill os usable w w' b :
  ready problem w -> part_of bs problem -> Forall (op_in bs) os ->
  solve cb problem (Some bs) fill os usable w = Some w' ->
  In b problem -> is_constant b = true \/ ~ In b bs ->
  user_value w' b = user_value w b.
Proof.
  intros RD PO OI H Ib Hc.
  destruct (solve_split _ _ _ _ _ _ _ _ H) as (w1 & ST & w3 & MU & _ & CASES).
  destruct (start_facts _ _ _ _ _ RD PO ST) as (IV & M1 & S1 & vs & F & S & V0 & V1).
  unfold user_value. rewrite MU by eauto.
  destruct CASES as [(_ & _ & E)|(w2 & ok2 & w2' & _ & R & SV & CP)].
  - rewrite E. apply M1.
  - destruct PO as [Db Inc]. destruct RD as [D U].
    pose proof (inv_ops _ _ _ _ _ _ _ Db OI IV R) as IV2.
    pose proof (inv_sv _ _ _ _ _ _ _ _ Db IV2 SV) as IV2'.
    pose proof (inv_copy _ _ _ _ _ IV2' CP) as (_ & J2 & _ & J4 & _).
    destruct (in_ids_or bs (pb_id b)) as [I|N].
    + apply in_map_iff in I as (b' & E & I').
      assert (b' = b) by (apply (distinct_id problem); auto).
      subst b'. destruct Hc as [C|N]; [|easy].
      rewrite (proj2 (J4 b I' C)). apply M1.
    + rewrite (proj2 (J2 _ N)). apply M1.
Qed.

Theorem solve_failed_restores cb problem bs fill os w w' b :
  ready problem w -> part_of bs problem -> user_acceptable bs w ->
  Forall (op_in bs) os ->
  solve cb problem (Some bs) fill os false w = Some w' ->
  In b problem -> user_value w' b = user_value w b.
Proof.
  intros RD PO AC OI H Ib.
  destruct (in_dec Nat.eq_dec (pb_id b) (map pb_id bs)) as [I|N].
  2: { eapply solve_keeps_other_blocks; eauto. right. intros I. apply N. now apply in_map. }
  apply in_map_iff in I as (b' & E & I').
  assert (b' = b) by (apply (distinct_id problem); [apply RD|apply PO, I'|auto|auto]).
  subst b'. clear E.
  destruct (is_constant b) eqn:C.
  { eapply solve_keeps_other_blocks; eauto. }
  destruct (solve_split _ _ _ _ _ _ _ _ H) as (w1 & ST & w3 & MU & _ & CASES).
  destruct (start_facts _ _ _ _ _ RD PO ST) as (IV & M1 & S1 & vs & F & S & V0 & V1).
  destruct CASES as [(-> & _)|(w2 & ok2 & w2' & _ & R & SV & CP)]; [easy|].
  destruct PO as [Db Inc].
  pose proof (inv_ops _ _ _ _ _ _ _ Db OI IV R) as IV2.
  assert (A : Forall2 acceptable bs vs).
  { apply (Forall2_impl_in (fun b v => user_value w b = Some v)); [|exact F].
    intros b0 v0 I0 E0. apply (AC b0 v0 I0 E0). }
  destruct (sv_copy_total V bs w1 w2 1 vs Db IV2 S A) as (x1 & x2 & X1 & X2 & X3).
  { rewrite (proj1 IV2). exact V1. }
  cbn [Nat.eqb] in SV. assert (x1 = w2') by congruence. subst x1.
  assert (x2 = w3) by congruence. subst x2.
  transitivity (user_value w3 b); [unfold user_value; apply MU; eauto|].
  clear - X3 F I' C. revert X3. induction F as [|b0 v0 bs vs P F IH]; [easy|].
  intros X. inversion X; subst. destruct I' as [->|I']; [|auto].
  rewrite P. auto.
Qed.

Theorem solve_usable_returns cb problem bs fill os w w' vs :
  ready problem w -> part_of bs problem ->
  Forall (op_in bs) os -> minimizer_result cb problem bs fill os w vs ->
  solve cb problem (Some bs) fill os true w = Some w' ->
  Forall2 (fun b v => is_constant b = false -> user_value w' b = Some v) bs vs.
Proof.
  intros RD PO OI MR H.
  destruct (solve_split _ _ _ _ _ _ _ _ H) as (w1 & ST & w3 & MU & _ & CASES).
  destruct (start_facts _ _ _ _ _ RD PO ST) as (IV & M1 & S1 & vs0 & F & S & V0 & V1).
  destruct PO as [Db Inc].
  destruct CASES as [(-> & _)|(w2 & ok2 & w2' & _ & R & SV & CP)].
  - destruct vs as [|v vs]; [constructor|].
    exfalso. pose proof (MR w1) as Q.
    assert (T : exists w2, run_ops cb [] os w1 = Some w2).
    { clear - OI. revert w1. induction os as [|o os IH]; intros w; cbn; [eauto|].
      inversion OI; subst. destruct o as [k v|k|k| |b k off]; cbn [run_op];
        cbn [state_vector_to_blocks copy_to_user].
      - destruct (k =? 1); eauto.
      - destruct (k <=? 1); eauto.
      - destruct cb; eauto.
      - eauto.
      - match goal with X : op_in [] _ |- _ => destruct X end. }
    destruct T as (w2 & T). destruct (Q w2 ST T) as (_ & Sz & _). inversion Sz.
  - destruct (MR w1 w2 ST R) as (Mv & Sv & Av).
    pose proof (inv_ops _ _ _ _ _ _ _ Db OI IV R) as IV2.
    destruct (sv_copy_total V bs w1 w2 0 vs Db IV2 Sv Av Mv) as (x1 & x2 & X1 & X2 & X3).
    assert (x1 = w2') by congruence. subst x1.
    assert (x2 = w3) by congruence. subst x2.
    eapply Forall2_impl_in; [|exact X3]. cbn beta. intros b v I P C.
    unfold user_value. rewrite MU by eauto. exact (P C).
Qed.

(* lengths of the user's arrays and the final pointers *)
Lemma solve_pointers cb problem bs fill os usable w w' :
  ready problem w -> part_of bs problem -> Forall (op_in bs) os ->
  solve cb problem (Some bs) fill os usable w = Some w' ->
  user_acceptable problem w' -> ready problem w'.
Proof.
  intros RD PO OI H AC.
  destruct (solve_split _ _ _ _ _ _ _ _ H) as (w1 & ST & w3 & MU & (ok & w4 & E4 & ->) & CASES).
  destruct (start_facts _ _ _ _ _ RD PO ST) as (IV & M1 & S1 & vs & F & S & V0 & V1).
  destruct RD as [D U]. destruct PO as [Db Inc].
  assert (MU' : forall c, w_mem w4 (User c) = w_mem w3 (User c))
    by (intros c; now rewrite (proj1 (stp_some _ _ _ _ _ E4))).
  assert (LN : forall b, In b problem -> exists v, user_value w3 b = Some v /\
             length v = pb_size b).
  { intros b I. unfold user_value.
    destruct CASES as [(_ & _ & E)|(w2 & ok2 & w2' & _ & R & SV & CP)].
    - rewrite E, M1. apply (U b I).
    - pose proof (inv_ops _ _ _ _ _ _ _ Db OI IV R) as IV2.
      pose proof (inv_sv _ _ _ _ _ _ _ _ Db IV2 SV) as IV2'.
      pose proof (inv_copy _ _ _ _ _ IV2' CP) as (_ & J2 & _ & J4 & J5).
      destruct (in_ids_or bs (pb_id b)) as [Ib|N].
      + apply in_map_iff in Ib as (b' & Eb & I').
        assert (b' = b) by (apply (distinct_id problem); auto). subst b'. apply (J5 b I').
      + rewrite (proj2 (J2 _ N)), M1. apply (U b I). }
  assert (CS : forall b, In b problem -> is_constant b = true ->
             w_state w3 (pb_id b) = (User (pb_id b), 0)).
  { intros b I C. destruct CASES as [(_ & E & _)|(w2 & ok2 & w2' & _ & R & SV & CP)].
    - rewrite E. apply S1, I.
    - pose proof (inv_ops _ _ _ _ _ _ _ Db OI IV R) as IV2.
      pose proof (inv_sv _ _ _ _ _ _ _ _ Db IV2 SV) as IV2'.
      pose proof (inv_copy _ _ _ _ _ IV2' CP) as (_ & J2 & _ & J4 & J5).
      destruct (in_ids_or bs (pb_id b)) as [Ib|N].
      + apply in_map_iff in Ib as (b' & Eb & I').
        assert (b' = b) by (apply (distinct_id problem); auto). subst b'. apply (J4 b I' C).
      + rewrite (proj1 (J2 _ N)). apply S1, I. }
  destruct (stp_success V problem w3) as (w4' & E4' & _ & P4).
  { intros b I. destruct (LN b I) as (v & E & L). exists v.
    split; [auto|]. split; [auto|]. apply (AC b v I).
    unfold user_value in *. cbn. now rewrite MU'. }
  assert (w4' = w4) by congruence. subst w4'.
  split; [exact D|]. intros b I. split.
  - cbn [w_state]. destruct (is_constant b) eqn:C; [|apply P4; auto].
    destruct (proj2 (stp_some _ _ _ _ _ E4) (pb_id b)) as [E|E]; [|exact E].
    rewrite E. apply CS; auto.
  - unfold user_value in *. cbn. rewrite MU'. apply LN, I.
Qed.

(* nothing invalid is touched *)
Theorem solve_total cb problem bs fill os usable w vs :
  ready problem w -> part_of bs problem -> user_acceptable bs w ->
  (forall w1, minimizer_start problem bs fill w w1 -> ops_allowed cb bs os w1) ->
  (usable = true -> minimizer_result cb problem bs fill os w vs) ->
  exists w', solve cb problem (Some bs) fill os usable w = Some w'.
Proof.
  intros RD PO AC AL MR.
  destruct (start_exists problem bs fill w RD PO) as (w1 & ST).
  destruct (start_facts _ _ _ _ _ RD PO ST) as (IV & M1 & S1 & vs0 & F & S & V0 & V1).
  pose proof PO as [Db Inc]. pose proof RD as [D U].
  assert (OI : forall os w, ops_allowed cb bs os w ->
            (exists w', run_ops cb bs os w = Some w') -> Forall (op_in bs) os).
  { clear. induction os as [|o os IH]; intros w A (w' & R); constructor.
    - destruct A as [A _]. destruct o; cbn in *; tauto.
    - cbn in R. destruct (run_op cb bs o w) as [w1|] eqn:E; [|discriminate].
      apply (IH w1); [apply A, E|eauto]. }
  destruct (ops_total V cb bs w1 os w1 Db IV (AL w1 ST)) as (w2 & R).
  assert (OI' : Forall (op_in bs) os) by (apply (OI os w1 (AL w1 ST)); eauto).
  pose proof (inv_ops _ _ _ _ _ _ _ Db OI' IV R) as IV2.
  pose proof ST as (ok & wa & wb & Ea & Eb & Ew).
  unfold solve. rewrite Ea, Eb.
  assert (FIN : forall w3, (forall b, In b problem ->
      exists v, user_value w3 b = Some v /\ length v = pb_size b) ->
      exists w', match set_ptrs_to_user problem w3 with
                 | Some (_, w4) => Some (mkworld (free_all (w_mem w4)) (w_state w4))
                 | None => None end = Some w').
  { intros w3 L. destruct (stp_total V problem w3 L) as (ok4 & w4 & E4).
    rewrite E4. eauto. }
  unfold minimize. destruct bs as [|b0 bs0] eqn:EB.
  - apply FIN. intros b I. unfold user_value.
    assert (E : w_mem wb (User (pb_id b)) = w_mem w1 (User (pb_id b))).
    { rewrite Ew. cbn [w_mem]. now rewrite upd_other by discriminate. }
    rewrite E, M1. apply (U b I).
  - rewrite <- EB in *. clear EB. rewrite <- Ew. rewrite R.
    assert (X : exists k vs', (if usable then 0 else 1) = k /\ sized bs vs' /\
               Forall2 acceptable bs vs' /\ w_mem w2 (Vec k) = Some (concat vs')).
    { destruct usable.
      - exists 0, vs. destruct (MR eq_refl w1 w2 ST R) as (A1 & A2 & A3). auto.
      - exists 1, vs0. split; [auto|]. split; [auto|]. split.
        + apply (Forall2_impl_in (fun b v => user_value w b = Some v)); [|exact F].
          intros b v I E. apply (AC b v I E).
        + rewrite (proj1 IV2). exact V1. }
    destruct X as (k & vs' & -> & Sz & Ac & Mk).
    destruct (sv_copy_total V bs w1 w2 k vs' Db IV2 Sz Ac Mk) as (x1 & x2 & X1 & X2 & X3).
    rewrite X1, X2. apply FIN.
    intros b I. pose proof (inv_sv _ _ _ _ _ _ _ _ Db IV2 X1) as IV2'.
    pose proof (inv_copy _ _ _ _ _ IV2' X2) as (_ & J2 & _ & J4 & J5).
    unfold user_value. destruct (in_ids_or bs (pb_id b)) as [Ib|N].
    + apply in_map_iff in Ib as (b' & Eb' & I').
      assert (b' = b) by (apply (distinct_id problem); auto). subst b'. apply (J5 b I').
    + rewrite (proj2 (J2 _ N)), M1. apply (U b I).
Qed.

Theorem solve_unpreprocessed cb problem fill os usable w :
  ready problem w ->
  exists w', solve cb problem None fill os usable w = Some w' /\
    ready problem w' /\
    forall b, In b problem -> user_value w' b = user_value w b.
Proof.
  intros [D U]. unfold solve.
  destruct (stp_total V problem w) as (ok & w1 & E1); [intros b I; apply (U b I)|].
  rewrite E1. destruct (stp_some _ _ _ _ _ E1) as [M1 P1].
  destruct (stp_total V problem w1) as (ok2 & w2 & E2).
  { intros b I. unfold user_value. rewrite M1. apply (U b I). }
  rewrite E2. destruct (stp_some _ _ _ _ _ E2) as [M2 P2].
  eexists. split; [reflexivity|].
  assert (UV : forall c, free_all (w_mem w2) (User c) = w_mem w (User c))
    by (intros c; cbn; now rewrite M2, M1).
  split.
  - split; [exact D|]. intros b I. destruct (U b I) as [P L]. split.
    + cbn [w_state]. destruct (P2 (pb_id b)) as [A|A]; [|exact A].
      rewrite A. destruct (P1 (pb_id b)) as [B|B]; [|exact B]. now rewrite B.
    + unfold user_value in *. cbn [w_mem]. now rewrite UV.
  - intros b I. unfold user_value. cbn [w_mem]. apply UV.
Qed.

(* ------------------------------------------------------------------ *)
(* offsets                                                              *)

Lemma offsets_nth bs : forall s d i b,
  nth_error bs i = Some b ->
  nth_error (offsets s d bs) i =
    Some (s + entries_before pb_size bs i, d + entries_before pb_tangent bs i).
Proof.
  induction bs as [|b0 bs IH]; intros s d [|i] b H; cbn in H; try discriminate.
  - cbn. unfold entries_before. cbn. f_equal. f_equal; lia.
  - cbn [offsets nth_error]. rewrite (IH _ _ _ _ H). unfold entries_before, list_sum.
    cbn. f_equal. f_equal; lia.
Qed.

Lemma offsets_length bs : forall s d, length (offsets s d bs) = length bs.
Proof. induction bs as [|b bs IH]; intros s d; cbn; auto. Qed.

Lemma is_valid_iff bs : forall i s d r,
  is_valid_from i s d bs r = true <-> r = combine (seq i (length bs)) (offsets s d bs).
Proof.
  induction bs as [|b bs IH]; intros i s d [|[ix [so dof]] r]; cbn; try (split; congruence).
  split.
  - destruct (ix =? i) eqn:E1, (so =? s) eqn:E2, (dof =? d) eqn:E3; cbn; try discriminate.
    apply Nat.eqb_eq in E1, E2, E3. subst. rewrite IH. congruence.
  - intros [= -> -> -> H]. rewrite !Nat.eqb_refl. cbn. apply IH. exact H.
Qed.

(* ------------------------------------------------------------------ *)
(* Program::Plus                                                        *)


Lemma skipn_add {A} x : forall y (l : list A), skipn x (skipn y l) = skipn (y + x) l.
Proof.
  induction y as [|y IH]; intros l; [reflexivity|].
  destruct l as [|a l]; [now rewrite !skipn_nil|]. cbn. apply IH.
Qed.

Lemma read_write_same m p v m' :
  write m p v = Some m' -> read m' p (length v) = Some v.
Proof.
  unfold write. destruct (m (fst p)) as [l|] eqn:E; [|discriminate].
  destruct (snd p + length v <=? length l) eqn:L; [|discriminate].
  intros [= <-]. apply Nat.leb_le in L. destruct p as [a i]. cbn [fst snd] in *.
  assert (F : length (firstn i l) = i) by (rewrite firstn_length; lia).
  pose proof (read_chunk V (upd m a (Some (firstn i l ++ v ++ skipn (i + length v) l)))
    a (firstn i l) v (skipn (i + length v) l) (length v)) as Q.
  rewrite F in Q. apply Q; [apply upd_same|auto].
Qed.

Lemma read_write_disjoint m a i v m' j n :
  write m (a, i) v = Some m' -> j + n <= i \/ i + length v <= j ->
  read m' (a, j) n = read m (a, j) n.
Proof.
  unfold write. cbn [fst snd]. destruct (m a) as [l|] eqn:E; [|discriminate].
  destruct (i + length v <=? length l) eqn:L; [|discriminate].
  intros [= <-] H. apply Nat.leb_le in L. unfold read. cbn [fst snd].
  rewrite upd_same, E.
  assert (LN : length (firstn i l ++ v ++ skipn (i + length v) l) = length l)
    by (rewrite !app_length, firstn_length, skipn_length; lia).
  rewrite LN. destruct (j + n <=? length l) eqn:K; [|reflexivity].
  apply Nat.leb_le in K. f_equal. destruct H as [H|H].
  - rewrite skipn_app, firstn_app.
    replace (n - length (skipn j (firstn i l))) with 0
      by (rewrite skipn_length, firstn_length; lia).
    cbn. rewrite app_nil_r, skipn_firstn_comm, firstn_firstn.
    now replace (Nat.min n (i - j)) with n by lia.
  - rewrite app_assoc, skipn_app, skipn_all2
      by (rewrite app_length, firstn_length; lia).
    cbn [app]. rewrite skipn_add, app_length, firstn_length.
    do 2 f_equal. lia.
Qed.

(* two blocks occupy ranges that do not overlap *)
Definition apart (e1 e2 : nat * nat * pblock V) : Prop :=
  fst (fst e1) + pb_size (snd e1) <= fst (fst e2) \/
  fst (fst e2) + pb_size (snd e2) <= fst (fst e1).

Lemma pairs_perm {A} (R : A -> A -> Prop) l l' :
  (forall x y, R x y -> R y x) ->
  Permutation l l' -> ForallOrdPairs R l -> ForallOrdPairs R l'.
Proof.
  intros SY P. induction P as [|x l l' P IH|x y l|l l' l'' P1 IH1 P2 IH2]; intros F.
  - constructor.
  - inversion F; subst. constructor; [|auto].
    eapply Permutation_Forall; eauto.
  - inversion F as [|? ? Fy Fl]; subst. inversion Fl as [|? ? Fx Fll]; subst.
    inversion Fy; subst. constructor; [constructor; auto|]. constructor; auto.
  - auto.
Qed.

Lemma offsets_ge bs : forall s d so dof b,
  In (so, dof, b) (combine (offsets s d bs) bs) -> s <= so.
Proof.
  induction bs as [|b0 bs IH]; intros s d so dof b H; cbn in H; [easy|].
  destruct H as [[= -> -> ->]|H]; [auto|]. apply IH in H. lia.
Qed.

Lemma offsets_apart bs : forall s d, ForallOrdPairs apart (combine (offsets s d bs) bs).
Proof.
  induction bs as [|b bs IH]; intros s d; cbn; constructor; [|apply IH].
  apply Forall_forall. intros [[so dof] b'] H. apply offsets_ge in H.
  left. cbn. lia.
Qed.

(* the effect of running the blocks in any order *)
Lemma plus_run order : forall state delta out m,
  fst state <> fst out -> fst delta <> fst out ->
  ForallOrdPairs apart order ->
  Forall (fun e => exists x d,
     read m (fst state, snd state + fst (fst e)) (pb_size (snd e)) = Some x /\
     read m (fst delta, snd delta + snd (fst e)) (pb_tangent (snd e)) = Some d /\
     (forall y, pb_plus (snd e) x d = Some y -> length y = pb_size (snd e)) /\
     exists o, read m (fst out, snd out + fst (fst e)) (pb_size (snd e)) = Some o) order ->
  exists ok m', program_plus order state delta out false m = Some (ok, m') /\
    (forall a, a <> fst out -> m' a = m a) /\
    (ok = true <-> Forall (fun e => exists x d y,
        read m (fst state, snd state + fst (fst e)) (pb_size (snd e)) = Some x /\
        read m (fst delta, snd delta + snd (fst e)) (pb_tangent (snd e)) = Some d /\
        pb_plus (snd e) x d = Some y) order) /\
    (forall l, m (fst out) = Some l -> exists l', m' (fst out) = Some l' /\
        length l' = length l) /\
    (forall j n, Forall (fun e => j + n <= snd out + fst (fst e) \/
                   snd out + fst (fst e) + pb_size (snd e) <= j) order ->
        read m' (fst out, j) n = read m (fst out, j) n) /\
    (ok = true -> Forall (fun e => exists x d,
        read m (fst state, snd state + fst (fst e)) (pb_size (snd e)) = Some x /\
        read m (fst delta, snd delta + snd (fst e)) (pb_tangent (snd e)) = Some d /\
        read m' (fst out, snd out + fst (fst e)) (pb_size (snd e)) = pb_plus (snd e) x d)
        order).
Proof.
  assert (AB : forall order state delta out m,
     program_plus order state delta out true m = Some (false, m)).
  { clear. induction order as [|[[so dof] b] order IH]; intros; cbn; auto. }
  induction order as [|[[so dof] b] order IH]; intros state delta out m NS ND AP RD.
  - exists true, m. cbn. split; [auto|]. split; [auto|]. split; [split; auto|].
    split; [eauto|]. auto.
  - inversion AP as [|? ? AP1 AP2]; subst. inversion RD as [|? ? RD1 RD2]; subst.
    cbn [fst snd] in RD1. destruct RD1 as (x & d & Rx & Rd & LY & o & Ro).
    cbn [program_plus]. rewrite Rx, Rd.
    destruct (pb_plus b x d) as [y|] eqn:Py.
    2: { rewrite AB. exists false, m. split; [auto|]. split; [auto|]. split.
         { split; [discriminate|]. intros F. inversion F as [|? ? F1 F2]; subst.
           cbn [fst snd] in F1. destruct F1 as (x' & d' & y' & A & B & C). congruence. }
         split; [eauto|]. split; [auto|discriminate]. }
    specialize (LY y eq_refl).
    assert (W : exists m1, write m (fst out, snd out + so) y = Some m1).
    { unfold write. unfold read in Ro. cbn [fst snd] in *.
      destruct (m (fst out)) as [l|]; [|discriminate].
      destruct (snd out + so + pb_size b <=? length l) eqn:L; [|discriminate].
      rewrite LY, L. eauto. }
    destruct W as (m1 & W). rewrite W.
    destruct (write_some _ _ _ _ _ W) as (O1 & l & l1 & El & El1 & LL). cbn [fst] in *.
    assert (RS : forall p n, fst p <> fst out -> read m1 p n = read m p n).
    { intros p n N. apply read_same. apply O1, N. }
    assert (DJ : forall e, In e order ->
        read m1 (fst out, snd out + fst (fst e)) (pb_size (snd e)) =
        read m (fst out, snd out + fst (fst e)) (pb_size (snd e))).
    { intros e I. eapply read_write_disjoint; [exact W|]. rewrite LY.
      rewrite Forall_forall in AP1. destruct (AP1 e I) as [A|A]; cbn [fst snd] in A; lia. }
    destruct (IH state delta out m1 NS ND AP2) as (ok & m' & E & O' & OK & LEN & FR & VAL).
    { rewrite Forall_forall in RD2 |- *. intros e I.
      destruct (RD2 e I) as (x' & d' & A & B & C & o' & G).
      exists x', d'. rewrite !RS by (cbn; auto). split; [auto|]. split; [auto|].
      split; [auto|]. exists o'. rewrite DJ by exact I. exact G. }
    exists ok, m'. split; [exact E|]. split.
    { intros a N. rewrite O' by exact N. apply O1, N. }
    assert (EQ : Forall (fun e => exists x d y,
        read m1 (fst state, snd state + fst (fst e)) (pb_size (snd e)) = Some x /\
        read m1 (fst delta, snd delta + snd (fst e)) (pb_tangent (snd e)) = Some d /\
        pb_plus (snd e) x d = Some y) order <->
      Forall (fun e => exists x d y,
        read m (fst state, snd state + fst (fst e)) (pb_size (snd e)) = Some x /\
        read m (fst delta, snd delta + snd (fst e)) (pb_tangent (snd e)) = Some d /\
        pb_plus (snd e) x d = Some y) order).
    { split; apply Forall_impl; intros e (x' & d' & y' & A & B & C); exists x', d', y'.
      - rewrite RS in A by (cbn; auto). rewrite RS in B by (cbn; auto). auto.
      - rewrite !RS by (cbn; auto). auto. }
    split.
    { rewrite OK, EQ. split.
      - intros F. constructor; [|exact F]. exists x, d, y. auto.
      - intros F. inversion F; auto. }
    split.
    { intros l0 E0. destruct (LEN l1 El1) as (l' & A & B).
      exists l'. split; [auto|]. congruence. }
    split.
    { intros j n F. inversion F as [|? ? F1 F2]; subst. cbn [fst snd] in F1.
      rewrite FR by exact F2. eapply read_write_disjoint; [exact W|].
      rewrite LY. exact F1. }
    intros T. specialize (VAL T). constructor.
    + cbn [fst snd]. exists x, d. split; [auto|]. split; [auto|].
      rewrite FR.
      * rewrite <- LY. rewrite (read_write_same _ _ _ _ W). auto.
      * rewrite Forall_forall in AP1 |- *. intros e I.
        destruct (AP1 e I) as [A|A]; cbn [fst snd] in A; lia.
    + rewrite Forall_forall in VAL |- *. intros e I.
      destruct (VAL e I) as (x' & d' & A & B & C). exists x', d'.
      rewrite RS in A by (cbn; auto). rewrite RS in B by (cbn; auto). auto.
Qed.

Lemma blocks_read bs : forall m sa da xs ds pre pre' post post',
  sized bs xs -> Forall2 (fun b d => length d = pb_tangent b) bs ds ->
  m sa = Some (pre ++ concat xs ++ post) -> m da = Some (pre' ++ concat ds ++ post') ->
  Forall2 (fun e p => read m (sa, fst (fst e)) (pb_size (snd e)) = Some (fst p) /\
                      read m (da, snd (fst e)) (pb_tangent (snd e)) = Some (snd p))
    (combine (offsets (length pre) (length pre') bs) bs) (combine xs ds).
Proof.
  induction bs as [|b bs IH]; intros m sa da xs ds pre pre' post post' S T Ms Md;
    inversion S; subst; inversion T; subst; cbn [offsets combine]; [constructor|].
  rename y into x, l' into xs, y0 into d, l'0 into ds. cbn [concat] in *.
  rewrite <- app_assoc in Ms, Md. constructor.
  - cbn [fst snd]. split; eapply read_chunk; eauto.
  - replace (length pre + pb_size b) with (length (pre ++ x)) by (rewrite app_length; lia).
    replace (length pre' + pb_tangent b) with (length (pre' ++ d)) by (rewrite app_length; lia).
    eapply IH; eauto.
    + rewrite Ms. now rewrite <- app_assoc.
    + rewrite Md. now rewrite <- app_assoc.
Qed.

Lemma assemble bs : forall m oa ys pre rest,
  m oa = Some (pre ++ rest) -> length rest = num_parameters bs ->
  Forall2 (fun e y => read m (oa, fst (fst e)) (pb_size (snd e)) = Some y)
    (combine (offsets (length pre) 0 bs) bs) ys ->
  rest = concat ys.
Proof.
  intros m oa ys pre rest M L F. rewrite num_parameters_sum in L.
  revert F. generalize 0 as dz. revert ys pre rest M L.
  induction bs as [|b bs IH]; intros ys pre rest M L dz F; cbn [offsets combine] in F;
    inversion F; subst.
  - cbn in L. destruct rest; [auto|discriminate].
  - rename y into v, l' into ys.
    match goal with X : read _ _ _ = Some v |- _ => rename X into R end.
    cbn [fst snd] in R.
    assert (Lr : pb_size b <= length rest)
      by (rewrite L; unfold list_sum; cbn; lia).
    set (r1 := firstn (pb_size b) rest). set (r2 := skipn (pb_size b) rest).
    assert (ER : rest = r1 ++ r2) by (symmetry; apply firstn_skipn).
    assert (L1 : length r1 = pb_size b) by (unfold r1; rewrite firstn_length; lia).
    assert (r1 = v).
    { rewrite (read_chunk V m oa pre r1 r2) in R; [congruence| |auto].
      rewrite M, ER. auto. }
    subst v. cbn [concat]. rewrite ER at 1. f_equal.
    eapply (IH ys (pre ++ r1) r2).
    + rewrite M, ER at 1. now rewrite <- app_assoc.
    + unfold r2. rewrite skipn_length, L. unfold list_sum. cbn. lia.
    + rewrite app_length, L1. eassumption.
Qed.

Lemma all_plus_spec bs m m' sa da oa : forall xs ds s0 d0,
  let base := combine (offsets s0 d0 bs) bs in
  Forall2 (fun e p => read m (sa, fst (fst e)) (pb_size (snd e)) = Some (fst p) /\
                      read m (da, snd (fst e)) (pb_tangent (snd e)) = Some (snd p))
    base (combine xs ds) ->
  sized bs xs -> Forall2 (fun b d => length d = pb_tangent b) bs ds ->
  match all_plus bs xs ds with
     | Some ys => Forall (fun e => exists x d y,
        read m (sa, fst (fst e)) (pb_size (snd e)) = Some x /\
        read m (da, snd (fst e)) (pb_tangent (snd e)) = Some d /\
        pb_plus (snd e) x d = Some y) base /\
        (Forall (fun e => exists x d,
          read m (sa, fst (fst e)) (pb_size (snd e)) = Some x /\
          read m (da, snd (fst e)) (pb_tangent (snd e)) = Some d /\
          read m' (oa, fst (fst e)) (pb_size (snd e)) = pb_plus (snd e) x d) base ->
         Forall2 (fun e y => read m' (oa, fst (fst e)) (pb_size (snd e)) = Some y) base ys)
     | None => ~ Forall (fun e => exists x d y,
        read m (sa, fst (fst e)) (pb_size (snd e)) = Some x /\
        read m (da, snd (fst e)) (pb_tangent (snd e)) = Some d /\
        pb_plus (snd e) x d = Some y) base
     end.
Proof.
  induction bs as [|b bs IH]; intros xs ds s0 d0 base BR S T; subst base;
      inversion S; subst; inversion T; subst; cbn [all_plus offsets combine] in *.
    - split; constructor.
    - inversion BR; subst. rename y into x, l' into xs, y0 into d, l'0 into ds.
      match goal with X : _ /\ _ |- _ => destruct X as [Rx Rd] end. cbn [fst snd] in Rx, Rd.
      match goal with X : Forall2 _ (combine _ bs) _ |- _ => rename X into BR' end.
      match goal with X : Forall2 _ bs xs |- _ => rename X into S' end.
      match goal with X : Forall2 _ bs ds |- _ => rename X into T' end.
      specialize (IH xs ds _ _ BR' S' T').
      destruct (pb_plus b x d) as [y|] eqn:Py.
      + destruct (all_plus bs xs ds) as [ys|].
        * destruct IH as [F1 F2]. split.
          -- constructor; [|exact F1]. cbn [fst snd].
             exists x, d, y. auto.
          -- intros F. inversion F as [|? ? G1 G2]; subst. constructor; [|auto].
             cbn [fst snd] in *. destruct G1 as (x' & d' & A & B & C). congruence.
        * intros F. inversion F; subst. auto.
      + intros F. inversion F as [|? ? G1 G2]; subst. cbn [fst snd] in G1.
        destruct G1 as (x' & d' & y' & A & B & C). congruence.
Qed.

Theorem plus_any_schedule bs order m sa da oa xs ds old :
  Permutation (combine (offsets 0 0 bs) bs) order ->
  sa <> oa -> da <> oa ->
  sized bs xs -> Forall2 (fun b d => length d = pb_tangent b) bs ds ->
  Forall plus_sized bs ->
  m sa = Some (concat xs) -> m da = Some (concat ds) ->
  m oa = Some old -> length old = num_parameters bs ->
  exists ok m', program_plus order (sa, 0) (da, 0) (oa, 0) false m = Some (ok, m') /\
    (forall a, a <> oa -> m' a = m a) /\
    match all_plus bs xs ds with
    | Some ys => ok = true /\ m' oa = Some (concat ys)
    | None => ok = false
    end.
Proof.
  intros P NS ND S T PS Ms Md Mo L.
  pose proof (blocks_read bs m sa da xs ds [] [] [] [] S T) as BR.
  cbn [app length] in BR. rewrite !app_nil_r in BR. specialize (BR Ms Md).
  set (base := combine (offsets 0 0 bs) bs) in *.
  assert (RD : forall e, In e base -> exists x d,
     read m (sa, 0 + fst (fst e)) (pb_size (snd e)) = Some x /\
     read m (da, 0 + snd (fst e)) (pb_tangent (snd e)) = Some d /\
     (forall y, pb_plus (snd e) x d = Some y -> length y = pb_size (snd e)) /\
     exists o, read m (oa, 0 + fst (fst e)) (pb_size (snd e)) = Some o).
  { intros e I. destruct (Forall2_in_l _ _ _ e BR I) as ([x d] & Rx & Rd).
    exists x, d. cbn [Nat.add]. split; [auto|]. split; [auto|]. split.
    - rewrite Forall_forall in PS. intros y. apply PS.
      destruct e as [od b]. apply in_combine_r in I. exact I.
    - unfold read in Rx |- *. cbn [fst snd] in *. rewrite Ms in Rx. rewrite Mo.
      rewrite <- (sized_length bs xs S) in L. rewrite <- L in Rx.
      destruct (fst (fst e) + pb_size (snd e) <=? length old); [eauto|discriminate]. }
  destruct (plus_run order (sa, 0) (da, 0) (oa, 0) m) as (ok & m' & E & O & OK & LEN & _ & VAL);
    cbn [fst snd] in *; auto.
  { eapply pairs_perm; [|exact P|apply offsets_apart].
    intros x y [A|A]; [right|left]; auto. }
  { eapply Permutation_Forall; [exact P|]. apply Forall_forall. exact RD. }
  exists ok, m'. split; [exact E|]. split; [exact O|].
  assert (OK' : ok = true <-> Forall (fun e => exists x d y,
        read m (sa, 0 + fst (fst e)) (pb_size (snd e)) = Some x /\
        read m (da, 0 + snd (fst e)) (pb_tangent (snd e)) = Some d /\
        pb_plus (snd e) x d = Some y) base).
  { rewrite OK. split; apply Permutation_Forall; [symmetry; exact P|exact P]. }
  assert (VAL' : ok = true -> Forall (fun e => exists x d,
        read m (sa, 0 + fst (fst e)) (pb_size (snd e)) = Some x /\
        read m (da, 0 + snd (fst e)) (pb_tangent (snd e)) = Some d /\
        read m' (oa, 0 + fst (fst e)) (pb_size (snd e)) = pb_plus (snd e) x d) base).
  { intros K. eapply Permutation_Forall; [symmetry; exact P|]. apply VAL, K. }
  cbn [Nat.add] in OK', VAL'. clear OK VAL RD E.
  pose proof (all_plus_spec bs m m' sa da oa xs ds 0 0 BR S T) as AP.
  fold base in AP.
  destruct (all_plus bs xs ds) as [ys|].
  - destruct AP as [A1 A2]. assert (K : ok = true) by (apply OK'; exact A1).
    split; [exact K|]. specialize (A2 (VAL' K)).
    destruct (LEN old Mo) as (l' & El & Ll). rewrite El. f_equal.
    apply (assemble bs m' oa ys [] l'); auto. lia.
  - destruct ok; [|auto]. exfalso. apply AP, OK'. reflexivity.
Qed.

End Proofs.
