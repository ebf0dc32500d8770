(** C41: evaluating a residual block. *)
Require Import List Reals Bool Arith Lia Lra.
From Verif Require Import LossModel LossSpec LossProofs LossProofs2 LossProps ResidualBlockModel ResidualBlockSpec ResidualBlockProofs.
Import ListNotations.
Open Scope R_scope.

(** ** setting up the pointers *)
Definition slots_of (b : residual_block) (jacobians : option (list bool)) : list slot * nat :=
  match jacobians with None => ([], 0%nat) | Some w => make_slots (rb_num b) 0 (rb_params b) w 0 end.
Record setup (b : residual_block) (jacobians : option (list bool)) (l : list slot) (e : nat) : Prop := {
  su_ok : forall s, In s l -> slot_ok (rb_num b) 0 e s;
  su_apart : ForallOrdPairs (slots_apart (rb_num b)) l;
  su_len : (e <= rb_num b * manifold_total (rb_params b))%nat;
  su_in : forall s, In s l -> nth_error (rb_params b) (sl_i s) = Some (sl_pb s) /\ (sl_global s <> None -> wanted jacobians (sl_i s));
  su_all : forall i p, wanted jacobians i -> nth_error (rb_params b) i = Some p -> exists g, In (mkSlot i p (Some g)) l }.
Lemma setup_ok b jacobians : setup b jacobians (fst (slots_of b jacobians)) (snd (slots_of b jacobians)).
Proof.
  unfold slots_of. destruct jacobians as [w|].
  - destruct (make_slots (rb_num b) 0 (rb_params b) w 0) as [l e] eqn:E. apply make_slots_ok in E. destruct E as [F1 F2 F3 F4 F5]. cbn [fst snd].
    constructor; auto.
    + intros s Hs. apply (F3 s Hs).
    + intros s Hs. destruct (F3 s Hs) as (A & B & C & D). rewrite Nat.sub_0_r in *. split; [exact B|]. intros Hg. exists w. split; [reflexivity|].
      destruct (sl_global s); [exact C|contradiction].
    + intros i p (l0 & El & Hi) Hp. injection El as <-. destruct (F5 i p true Hp Hi) as (g & Hg). cbn [plus] in Hg.
      destruct (F3 _ Hg) as (_ & _ & C & _). cbn [sl_i sl_global] in C. rewrite Nat.sub_0_r in C. rewrite Hi in C. injection C as C.
      destruct g as [g|]; [|discriminate]. exists g. exact Hg.
  - cbn [fst snd]. constructor; try (intros; contradiction).
    + constructor.
    + lia.
    + intros i p (l & Q & _). discriminate.
Qed.
Lemma num_scratch_eq b : num_scratch b = ((1 + manifold_total (rb_params b)) * rb_num b)%nat.
Proof.
  unfold num_scratch. f_equal. unfold manifold_total.
  assert (G : forall l n, fold_left (fun n p => match pb_plus p with Some _ => (n + pb_size p)%nat | None => n end) l n =
    (n + fold_right (fun p n => match pb_plus p with Some _ => (pb_size p + n)%nat | None => n end) 0 l)%nat).
  { induction l as [|p l IH]; intros n; cbn [fold_left fold_right]; [lia|]. rewrite IH. destruct (pb_plus p); lia. }
  apply G.
Qed.
Definition rptr (want_residuals : bool) (e : nat) : ptr := if want_residuals then (BResiduals, 0%nat) else (BScratch, e).
Lemma rptr_ok w e : rp_ok (rptr w e) e. Proof. unfold rptr, rp_ok. destruct w; auto. Qed.
Lemma rptr_not_jac w e i : fst (rptr w e) <> BJacobian i. Proof. unfold rptr. destruct w; discriminate. Qed.
Lemma rptr_not_cost w e : fst (rptr w e) <> BCost. Proof. unfold rptr. destruct w; discriminate. Qed.
Lemma enough b (w : bool) jacobians scratch : (num_scratch b <= scratch)%nat ->
  (scratch <? (if w then snd (slots_of b jacobians) else snd (slots_of b jacobians) + rb_num b))%nat = false.
Proof.
  intros H. rewrite num_scratch_eq in H. pose proof (su_len _ _ _ _ (setup_ok b jacobians)). apply Nat.ltb_ge. destruct w; nia.
Qed.

(** evaluation_valid decides completeness *)
Lemma valid_iff b jacobians w a m :
  let l := fst (slots_of b jacobians) in let e := snd (slots_of b jacobians) in
  let nr := rb_num b in let rp := rptr w e in
  an_ok a = true ->
  (evaluation_valid nr rp l (call nr rp l a (invalidate_evaluation nr rp l m)) = true <->
   exists r J, complete nr (rb_params b) jacobians a r J).
Proof.
  cbv zeta. intros Ha. set (l := fst _). set (e := snd _). destruct (setup_ok b jacobians) as [S1 S2 S3 S4 S5]. fold l e in S1, S2, S3, S4, S5.
  destruct (after_call (rb_num b) 0 e l (rptr w e) a m S1 S2 (rptr_ok w e)) as (C1 & C2 & _).
  set (m' := call _ _ _ _ _) in *. unfold evaluation_valid. rewrite andb_true_iff, forallb_forall.
  split.
  - intros [V1 V2]. rewrite array_valid_iff in V1.
    exists (fun k => value (landed (an_residuals a k))), (fun i k => value (landed (an_jacobians a i k))).
    split; [exact Ha|]. split.
    + intros k Hk. specialize (V1 k Hk). rewrite C1 in V1 by exact Hk. apply landed_valid in V1. destruct V1 as (r & -> & Hr). auto.
    + intros i p k Hw Hp Hk. destruct (S5 i p Hw Hp) as (g & Hg). specialize (V2 _ Hg). cbn [sl_global sl_pb] in V2. rewrite array_valid_iff in V2.
      specialize (V2 k Hk). rewrite (C2 _ g k Hg eq_refl Hk) in V2. cbn [sl_i] in V2. apply landed_valid in V2. destruct V2 as (r & -> & Hr). auto.
  - intros (r & J & _ & K1 & K2). split.
    + apply array_valid_iff. intros k Hk. rewrite C1 by exact Hk. apply landed_valid. exists (r k). apply K1. exact Hk.
    + intros s Hs. destruct (sl_global s) as [p|] eqn:E; [|reflexivity]. apply array_valid_iff. intros k Hk.
      rewrite (C2 s p k Hs E Hk). apply landed_valid. exists (J (sl_i s) k). destruct (S4 s Hs) as [P1 P2].
      apply (K2 _ _ _ (P2 ltac:(congruence)) P1 Hk).
Qed.

(** a failure is reported, whatever is requested *)
Theorem rb_failure b apply_loss w jacobians scratch m :
  (num_scratch b <= scratch)%nat ->
  ~ (exists r J, complete (rb_num b) (rb_params b) jacobians (rb_cost b (map pb_state (rb_params b)) jacobians) r J) ->
  exists m', evaluate b apply_loss w jacobians scratch m = Some (false, m').
Proof.
  intros Hs Hc. unfold evaluate. fold (slots_of b jacobians). pose proof (enough b w jacobians scratch Hs) as En.
  pose proof (valid_iff b jacobians w (rb_cost b (map pb_state (rb_params b)) jacobians) m) as V. cbv zeta in V.
  destruct (slots_of b jacobians) as [l e]. cbn [fst snd] in *. rewrite En. change (if w then (BResiduals, 0%nat) else (BScratch, e)) with (rptr w e).
  destruct (an_ok _) eqn:Ea; cbn [negb]; [|eexists; reflexivity].
  destruct (evaluation_valid _ _ _ _); cbn [negb]; [|eexists; reflexivity].
  exfalso. apply Hc, V; reflexivity.
Qed.
Print Assumptions rb_failure.

Lemma div_mod_row t row col : (col < t)%nat -> ((row * t + col) / t)%nat = row /\ ((row * t + col) mod t)%nat = col.
Proof.
  intros H. split.
  - rewrite Nat.div_add_l by lia. rewrite Nat.div_small by exact H. lia.
  - rewrite Nat.add_comm, Nat.mod_add by lia. apply Nat.mod_small. exact H.
Qed.
Lemma row_in nr t row col : (row < nr)%nat -> (col < t)%nat -> (row * t + col < nr * t)%nat.
Proof. intros. nia. Qed.

(** the three numbers of the corrector *)
Lemma corrector_numbers s rho : 0 <= s -> sane rho ->
  exists c, corrector_new s rho = Some c /\ sqrt_rho1 c = sqrt (rho1 rho) /\
    residual_scaling c = sqrt (rho1 rho) / (1 - alpha s rho) /\ alpha_sq_norm c = alpha s rho / s.
Proof.
  intros Hs [R1 R2]. unfold corrector_new, alpha. destruct (Rlt_dec s 0); [lra|].
  destruct (Req_EM_T s 0) as [E|E].
  { eexists. split; [reflexivity|]. cbn. split; [reflexivity|]. split; [field|]. unfold Rdiv. ring. }
  destruct (Rle_dec (rho2 rho) 0).
  { eexists. split; [reflexivity|]. cbn. split; [reflexivity|]. split; [field|]. unfold Rdiv. ring. }
  destruct (Rlt_dec 0 (rho1 rho)) as [P|P].
  { eexists. split; [reflexivity|]. cbn. auto. }
  exfalso. assert (Z : rho1 rho = 0) by lra. apply R2 in Z. lra.
Qed.

(** success: what is returned *)
Theorem rb_success b apply_loss w jacobians scratch m r J :
  (num_scratch b <= scratch)%nat -> (forall p, In p (rb_params b) -> pblock_ok p) ->
  let loss := active_loss b apply_loss in let nr := rb_num b in let s := norm2 nr r in
  complete nr (rb_params b) jacobians (rb_cost b (map pb_state (rb_params b)) jacobians) r J -> loss_usable loss s ->
  exists m', evaluate b apply_loss w jacobians scratch m = Some (true, m') /\
    m' BCost 0%nat = Num (block_cost loss s) /\
    (w = true -> forall k, (k < nr)%nat -> m' BResiduals k = Num (expected_residual loss s (r k))) /\
    (forall i p row col, wanted jacobians i -> nth_error (rb_params b) i = Some p -> (row < nr)%nat -> (col < pb_tangent p)%nat ->
       m' (BJacobian i) (row * pb_tangent p + col)%nat =
       Num (expected_jacobian loss nr r (tangent_entry p (J i)) row col)).
Proof.
  intros Hs Hb loss nr s HC HL. unfold evaluate. fold (slots_of b jacobians). fold nr.
  pose proof (enough b w jacobians scratch Hs) as En. pose proof (setup_ok b jacobians) as SU.
  pose proof (valid_iff b jacobians w (rb_cost b (map pb_state (rb_params b)) jacobians) m) as V. cbv zeta in V.
  destruct (slots_of b jacobians) as [l e]. cbn [fst snd] in *. fold nr in En. rewrite En. change (if w then (BResiduals, 0%nat) else (BScratch, e)) with (rptr w e). fold nr in V, SU.
  set (a := rb_cost b _ _) in *. set (rp := rptr w e) in *.
  destruct SU as [S1 S2 S3 S4 S5]. fold nr in S1, S2.
  destruct (after_call nr 0 e l rp a m S1 S2 (rptr_ok w e)) as (C1 & C2 & _).
  set (m2 := call _ _ _ _ _) in *.
  assert (Ea : an_ok a = true) by apply HC. rewrite Ea. cbn [negb].
  rewrite (proj2 (V Ea) (ex_intro _ r (ex_intro _ J HC))). cbn [negb].
  destruct HC as (_ & K1 & K2).
  assert (R2 : forall k, (k < nr)%nat -> read m2 rp k = Num (r k)).
  { intros k Hk. rewrite C1 by exact Hk. destruct (K1 k Hk) as [-> _]. reflexivity. }
  rewrite (squared_norm_of nr rp m2 r R2). fold s.
  destruct (project_get nr 0 e l m2 S1 S2) as [P1 P2]. set (m3 := fold_left (project_one nr) l m2) in *.
  assert (R3 : forall k, (k < nr)%nat -> read m3 rp k = Num (r k)).
  { intros k Hk. unfold read. rewrite P2; [apply (R2 k Hk)|]. intros t _ _ _ Q. exfalso. exact (rptr_not_jac _ _ _ Q). }
  assert (J3 : forall i p row col, wanted jacobians i -> nth_error (rb_params b) i = Some p -> (row < nr)%nat -> (col < pb_tangent p)%nat ->
     m3 (BJacobian i) (row * pb_tangent p + col)%nat = Num (tangent_entry p (J i) row col)).
  { intros i p row col Hw Hp Hr Hcol. destruct (S5 i p Hw Hp) as (g & Hg). unfold tangent_entry.
    assert (Jr : forall k, (k < nr * pb_size p)%nat -> read m2 g k = Num (J i k)).
    { intros k Hk. rewrite (C2 _ g k Hg eq_refl Hk). cbn [sl_i]. destruct (K2 i p k Hw Hp Hk) as [-> _]. reflexivity. }
    pose proof (S1 _ Hg) as OK. unfold slot_ok in OK. cbn [sl_global sl_pb sl_i] in OK.
    destruct OK as [[-> EP]|(o & P & -> & EP & _)].
    - rewrite EP. rewrite P2.
      + assert (T : pb_tangent p = pb_size p) by (apply Hb; [eapply nth_error_In; eauto|exact EP]). rewrite T in *.
        apply (Jr (row * pb_size p + col)%nat). apply row_in; auto.
      + intros t Ht _ Hpl Q. injection Q as ->. destruct (S4 t Ht) as [Q _]. rewrite Hp in Q. injection Q as ->. contradiction.
    - rewrite EP. pose proof (P1 _ (BScratch, o) P (row * pb_tangent p + col)%nat Hg eq_refl EP) as PP. cbn [sl_i sl_pb] in PP.
      rewrite PP by (apply row_in; auto). f_equal. unfold matrix_product. destruct (div_mod_row (pb_tangent p) row col Hcol) as [-> ->].
      rewrite product_entry_sum. apply sum_ext. intros k Hk. f_equal. unfold view.
      rewrite Jr by (apply row_in; auto). reflexivity. }
  unfold loss, active_loss in *.
  destruct (if apply_loss then rb_loss b else None) as [f|] eqn:EL.
  2:{ (* no loss *)
    eexists. split; [reflexivity|]. unfold set_cost. split; [apply (write_num m3 BCost 1 (fun _ => 1 / 2 * s) 0); lia|]. split.
    - intros -> k Hk. rewrite write_out by (left; discriminate). apply (R3 k Hk).
    - intros i p row col Hw Hp Hr Hc. rewrite write_out by (left; discriminate). apply J3; auto. }
  cbn [loss_usable block_cost expected_residual expected_jacobian] in *.
  set (rho := f s) in *. set (m4 := set_cost m3 (1 / 2 * rho0 rho)).
  assert (M4 : forall bf j, bf <> BCost -> m4 bf j = m3 bf j).
  { intros bf j H. unfold m4, set_cost. apply write_out. left. exact H. }
  assert (C4 : m4 BCost 0%nat = Num (1 / 2 * rho0 rho)) by (apply (write_num m3 BCost 1 (fun _ => 1 / 2 * rho0 rho) 0); lia).
  destruct (corrector_numbers s rho (norm2_nonneg nr r) HL) as (c & Ec & Q1 & Q2 & Q3).
  assert (TRIV : jacobians = None -> w = false -> exists m', Some (true, m4) = Some (true, m') /\ m' BCost 0%nat = Num (1 / 2 * rho0 rho) /\
    (w = true -> forall k, (k < nr)%nat -> m' BResiduals k = Num (sqrt (rho1 rho) / (1 - alpha s rho) * r k)) /\
    (forall i p row col, wanted jacobians i -> nth_error (rb_params b) i = Some p -> (row < nr)%nat -> (col < pb_tangent p)%nat ->
       m' (BJacobian i) (row * pb_tangent p + col)%nat = Num (expected_jacobian (Some f) nr r (tangent_entry p (J i)) row col))).
  { intros -> ->. eexists. split; [reflexivity|]. split; [exact C4|]. split; [discriminate|]. intros i p row col (l0 & Q & _). discriminate. }
  rewrite Ec.
  destruct (correct_get c nr rp (rptr_not_jac w e) l m4 S2) as [G1 G2]. set (m5 := fold_left (correct_one c nr rp) l m4) in *.
  assert (V4 : forall k, (k < nr)%nat -> view m4 rp k = r k).
  { intros k Hk. unfold view, read. rewrite M4 by apply rptr_not_cost. pose proof (R3 k Hk) as Q. unfold read in Q. rewrite Q. reflexivity. }
  assert (R5 : forall k, (k < nr)%nat -> read m5 rp k = Num (r k)).
  { intros k Hk. unfold read. rewrite G2 by (intros t _ _ Q; exfalso; exact (rptr_not_jac _ _ _ Q)).
    rewrite M4 by apply rptr_not_cost. apply (R3 k Hk). }
  assert (C5 : m5 BCost 0%nat = Num (1 / 2 * rho0 rho)).
  { rewrite G2; [exact C4|]. intros t _ _ Q. discriminate. }
  assert (J5 : forall i p row col, wanted jacobians i -> nth_error (rb_params b) i = Some p -> (row < nr)%nat -> (col < pb_tangent p)%nat ->
     m5 (BJacobian i) (row * pb_tangent p + col)%nat = Num (sqrt (rho1 rho) * (tangent_entry p (J i) row col - alpha s rho / s * r row * sum_n_of (fun q => tangent_entry p (J i) q col * r q) nr))).
  { intros i p row col Hw Hp Hr Hc. destruct (S5 i p Hw Hp) as (g & Hg).
    pose proof (G1 _ (row * pb_tangent p + col)%nat Hg) as G. cbn [sl_global sl_pb sl_i] in G. rewrite G by (try discriminate; apply row_in; auto).
    f_equal. rewrite (proj1 (jacobian_at c nr (pb_tangent p) (view m4 rp) (view m4 (BJacobian i, 0%nat))) row col Hr Hc).
    assert (VJ : forall q, (q < nr)%nat -> view m4 (BJacobian i, 0%nat) (q * pb_tangent p + col)%nat = tangent_entry p (J i) q col).
    { intros q Hq. unfold view, read. cbn [fst snd plus]. rewrite M4 by discriminate. rewrite (J3 i p q col Hw Hp Hq Hc). reflexivity. }
    rewrite VJ, V4, Q1, Q3 by exact Hr. do 3 f_equal. apply sum_ext. intros q Hq. rewrite VJ, V4 by exact Hq. reflexivity. }
  assert (FULL : exists m',
    Some (true, if w then write m5 rp nr (fun k => Some (Num (correct_residuals c nr (view m5 rp) k))) else m5) = Some (true, m') /\
    m' BCost 0%nat = Num (1 / 2 * rho0 rho) /\
    (w = true -> forall k, (k < nr)%nat -> m' BResiduals k = Num (sqrt (rho1 rho) / (1 - alpha s rho) * r k)) /\
    (forall i p row col, wanted jacobians i -> nth_error (rb_params b) i = Some p -> (row < nr)%nat -> (col < pb_tangent p)%nat ->
       m' (BJacobian i) (row * pb_tangent p + col)%nat = Num (expected_jacobian (Some f) nr r (tangent_entry p (J i)) row col))).
  { eexists. split; [reflexivity|]. destruct w.
    - split; [rewrite write_out by (left; discriminate); exact C5|]. split.
      + intros _ k Hk. transitivity (Num (correct_residuals c nr (view m5 rp) k)); [exact (write_num m5 BResiduals nr (fun k => correct_residuals c nr (view m5 rp) k) k Hk)|].
        rewrite correct_residuals_at. apply Nat.ltb_lt in Hk as Hk'. rewrite Hk'.
        unfold view. rewrite (R5 k Hk). cbn [value]. rewrite Q2. f_equal. ring.
      + intros i p row col Hw Hp Hr Hc. rewrite write_out by (left; discriminate). rewrite (J5 i p row col Hw Hp Hr Hc). reflexivity.
    - split; [exact C5|]. split; [discriminate|]. intros i p row col Hw Hp Hr Hc. rewrite (J5 i p row col Hw Hp Hr Hc). reflexivity. }
  cbn [expected_jacobian] in TRIV, FULL. fold s in TRIV, FULL. fold rho in TRIV, FULL.
  destruct jacobians as [jl|]; [exact FULL|]. destruct w; [exact FULL|]. apply TRIV; reflexivity.
Qed.
Print Assumptions rb_success.

(** the corrected pair has the gradient of the robust cost: rho' times J'r, in tangent coordinates *)
Theorem rb_gradient f nr r D col : sane (f (norm2 nr r)) ->
  sum_n_of (fun q => expected_jacobian (Some f) nr r D q col * expected_residual (Some f) (norm2 nr r) (r q)) nr =
  rho1 (f (norm2 nr r)) * sum_n_of (fun q => D q col * r q) nr.
Proof.
  intros HL. set (s := norm2 nr r) in *. set (rho := f s) in *.
  destruct (corrector_numbers s rho (norm2_nonneg nr r) HL) as (c & Ec & Q1 & Q2 & Q3).
  pose proof (corrector_facts nr r rho c (proj1 HL) Ec) as (F1 & F2 & _). fold (norm2 nr r) in F2. fold s in F2.
  set (G := sum_n_of (fun q => D q col * r q) nr).
  rewrite (sum_ext nr _ (fun q => sqrt_rho1 c * residual_scaling c * (D q col * r q) + (- (sqrt_rho1 c * residual_scaling c * alpha_sq_norm c * G)) * (r q * r q))).
  2:{ intros q Hq. unfold expected_jacobian, expected_residual. cbv zeta. fold s. fold rho. fold G. rewrite Q1, Q2, Q3. ring. }
  rewrite sum_plus, !sum_scal. fold (norm2 nr r). fold s. fold G.
  transitivity (sqrt_rho1 c * (residual_scaling c * (1 - alpha_sq_norm c * s)) * G); [ring|]. rewrite F2, F1. reflexivity.
Qed.
Print Assumptions rb_gradient.

(** the cost does not depend on what else is requested *)
Theorem rb_cost_same b apply_loss w1 w2 j1 j2 s1 s2 m1 m2 m1' m2' :
  (num_scratch b <= s1)%nat -> (num_scratch b <= s2)%nat -> (forall p, In p (rb_params b) -> pblock_ok p) ->
  (forall s, loss_usable (active_loss b apply_loss) s) ->
  (forall k, an_residuals (rb_cost b (map pb_state (rb_params b)) j1) k = an_residuals (rb_cost b (map pb_state (rb_params b)) j2) k) ->
  evaluate b apply_loss w1 j1 s1 m1 = Some (true, m1') -> evaluate b apply_loss w2 j2 s2 m2 = Some (true, m2') ->
  m1' BCost 0%nat = m2' BCost 0%nat.
Proof.
  intros E1 E2 Hb HL HR H1 H2.
  assert (K : forall w j sc m m', (num_scratch b <= sc)%nat -> evaluate b apply_loss w j sc m = Some (true, m') ->
    exists r J, complete (rb_num b) (rb_params b) j (rb_cost b (map pb_state (rb_params b)) j) r J /\
      m' BCost 0%nat = Num (block_cost (active_loss b apply_loss) (norm2 (rb_num b) r))).
  { intros w j sc m m' Es HE.
    destruct (Classical_Prop.classic (exists r J, complete (rb_num b) (rb_params b) j (rb_cost b (map pb_state (rb_params b)) j) r J)) as [(r & J & HC)|N].
    - exists r, J. split; [exact HC|]. destruct (rb_success b apply_loss w j sc m r J Es Hb HC (HL _)) as (m2'' & E & C & _).
      rewrite HE in E. injection E as <-. exact C.
    - destruct (rb_failure b apply_loss w j sc m Es N) as (m2'' & E). rewrite HE in E. discriminate. }
  destruct (K _ _ _ _ _ E1 H1) as (r1 & J1 & (_ & C1 & _) & ->). destruct (K _ _ _ _ _ E2 H2) as (r2 & J2 & (_ & C2 & _) & ->).
  do 2 f_equal. unfold norm2. apply sum_ext. intros k Hk. destruct (C1 k Hk) as [A _], (C2 k Hk) as [B _]. rewrite HR, B in A. injection A as ->. reflexivity.
Qed.
Print Assumptions rb_cost_same.

(** nothing but the requested outputs (and the scratch space) changes, also on failure *)
Lemma jac_frame b jacobians l e bf j : setup b jacobians l e -> (forall s, bf = BJacobian s -> ~ requested b false jacobians bf j) -> bf <> BScratch ->
  (forall s p, In s l -> sl_global s = Some p -> outside (p, (rb_num b * pb_size (sl_pb s))%nat, fun _ => None) bf j) /\
  (forall s, In s l -> sl_global s <> None -> bf = BJacobian (sl_i s) -> (rb_num b * pb_tangent (sl_pb s) <= j)%nat).
Proof.
  intros [S1 S2 S3 S4 S5] HN HS. split.
  - intros s p Hs E. unfold outside. cbn [fst snd]. specialize (S1 s Hs). unfold slot_ok in S1. rewrite E in S1.
    destruct S1 as [[-> _]|(o & P & -> & _)]; cbn [fst snd]; [|left; exact HS].
    destruct (buffer_eq_dec bf (BJacobian (sl_i s))) as [Eb|]; [|left; assumption].
    right. right. destruct (le_lt_dec (0 + rb_num b * pb_size (sl_pb s)) j) as [|L]; [assumption|]. exfalso.
    apply (HN _ Eb). rewrite Eb. cbn [requested]. destruct (S4 s Hs) as [A B]. split; [apply B; congruence|]. exists (sl_pb s). split; [exact A|]. left. exact L.
  - intros s Hs E Eb. destruct (le_lt_dec (rb_num b * pb_tangent (sl_pb s)) j) as [|L]; [assumption|]. exfalso.
    apply (HN _ Eb). rewrite Eb. cbn [requested]. destruct (S4 s Hs) as [A B]. split; [apply B; exact E|]. exists (sl_pb s). split; [exact A|]. right. exact L.
Qed.
Theorem rb_frame b apply_loss w jacobians scratch m ok m' :
  evaluate b apply_loss w jacobians scratch m = Some (ok, m') ->
  forall bf j, ~ requested b w jacobians bf j -> m' bf j = m bf j.
Proof.
  intros H bf j HN. unfold evaluate in H. fold (slots_of b jacobians) in H. pose proof (setup_ok b jacobians) as SU.
  destruct (slots_of b jacobians) as [l e]. cbn [fst snd] in *.
  change (if w then (BResiduals, 0%nat) else (BScratch, e)) with (rptr w e) in H. set (nr := rb_num b) in *. set (rp := rptr w e) in *.
  destruct (scratch <? _)%nat; [discriminate|].
  set (a := rb_cost b _ _) in *.
  assert (HS : bf <> BScratch) by (intros ->; apply HN; exact I).
  assert (HJ : forall s, bf = BJacobian s -> ~ requested b false jacobians bf j).
  { intros s ->. exact HN. }
  destruct (jac_frame b jacobians l e bf j SU HJ HS) as [F1 F2].
  assert (HRP : bf <> fst rp \/ (j < snd rp)%nat \/ (snd rp + nr <= j)%nat).
  { unfold rp, rptr. destruct w; cbn [fst snd]; [|left; exact HS].
    destruct (buffer_eq_dec bf BResiduals) as [->|]; [|left; assumption]. right. right.
    destruct (le_lt_dec (0 + nr) j); [assumption|]. exfalso. apply HN. cbn. split; [reflexivity|assumption]. }
  assert (HCO : bf <> BCost \/ (1 <= j)%nat).
  { destruct (buffer_eq_dec bf BCost) as [->|]; [|left; assumption]. right. destruct j; [|lia]. exfalso. apply HN. reflexivity. }
  destruct SU as [S1 S2 S3 S4 S5]. fold nr in S1, S2.
  set (m2 := call nr rp l a (invalidate_evaluation nr rp l m)) in *.
  assert (E2 : m2 bf j = m bf j).
  { destruct HCO as [HCO|HCO].
    - apply (after_call nr 0 e l rp a m S1 S2 (rptr_ok w e)); auto.
    - unfold m2, call, invalidate_evaluation, invalidate_array.
      rewrite (jac_writes_fold nr (fun s => an_jacobians a (sl_i s))), (jac_writes_fold nr (fun _ _ => Some (Num impossible))).
      rewrite write_all_out by (intros v Hv; apply jac_writes_in in Hv; destruct Hv as (s & p & Hs & E & ->); apply (F1 s p Hs E)).
      rewrite write_out by exact HRP.
      rewrite write_all_out by (intros v Hv; apply jac_writes_in in Hv; destruct Hv as (s & p & Hs & E & ->); apply (F1 s p Hs E)).
      rewrite write_out by exact HRP. apply write_out. right. right. cbn. lia. }
  destruct (negb (an_ok a)); [injection H as _ <-; exact E2|].
  destruct (negb _); [injection H as _ <-; exact E2|].
  destruct (project_get nr 0 e l m2 S1 S2) as [_ P2]. set (m3 := fold_left (project_one nr) l m2) in *.
  assert (E3 : m3 bf j = m bf j) by (rewrite P2; [exact E2|]; intros s Hs A _; apply F2; auto).
  assert (E4 : forall v, set_cost m3 v bf j = m bf j).
  { intros v. unfold set_cost. rewrite write_out; [exact E3|]. destruct HCO; [left; assumption|]. right. right. cbn. lia. }
  destruct (if apply_loss then rb_loss b else None) as [f|]; [|injection H as _ <-; apply E4].
  set (m4 := set_cost m3 _) in *.
  assert (FIN : forall c, match Some c with None => None | Some c => Some (true, (if w then write (fold_left (correct_one c nr rp) l m4) rp nr (fun k => Some (Num (correct_residuals c nr (view (fold_left (correct_one c nr rp) l m4) rp) k))) else fold_left (correct_one c nr rp) l m4)) end = Some (ok, m') -> m' bf j = m bf j).
  { intros c Q. injection Q as _ <-.
    destruct (correct_get c nr rp (rptr_not_jac w e) l m4 S2) as [_ G2].
    assert (E5 : fold_left (correct_one c nr rp) l m4 bf j = m bf j) by (rewrite G2; [apply E4|exact F2]).
    destruct w; [|exact E5]. rewrite write_out; [exact E5|exact HRP]. }
  destruct jacobians as [jl|].
  - destruct (corrector_new _ _) as [c|]; [|discriminate]. apply (FIN c H).
  - destruct w; [|injection H as _ <-; apply E4]. destruct (corrector_new _ _) as [c|]; [|discriminate]. apply (FIN c H).
Qed.
Print Assumptions rb_frame.

(** Findings.  A cost function that legitimately produces the number 1e302 is reported as a failure. *)
Theorem rb_marker_value_refuted : exists b, (forall p, In p (rb_params b) -> pblock_ok p) /\
  an_ok (rb_cost b [] None) = true /\ (forall k, exists x, an_residuals (rb_cost b [] None) k = Some (Num x)) /\
  forall w m, exists m', evaluate b false w None (num_scratch b) m = Some (false, m').
Proof.
  exists (mkRB (fun _ _ => mkAnswer true (fun _ => Some (Num impossible)) (fun _ _ => None)) 1 None []).
  cbn [rb_params rb_cost an_ok an_residuals]. split; [intros p []|]. split; [reflexivity|]. split; [intros k; eexists; reflexivity|].
  intros w m. apply rb_failure; [lia|]. intros (r & J & _ & H & _). destruct (H 0%nat ltac:(cbn; lia)) as [A B].
  cbn in A. injection A as A. apply B. symmetry. exact A.
Qed.
(** A loss with rho'' > 0 and rho' <= 0 at |r|^2 aborts the process when residuals or jacobians are wanted,
    although the cost alone can be computed. *)
Theorem rb_bad_loss_aborts b f w jacobians scratch m r J : rb_loss b = Some f ->
  (num_scratch b <= scratch)%nat -> (forall p, In p (rb_params b) -> pblock_ok p) ->
  complete (rb_num b) (rb_params b) jacobians (rb_cost b (map pb_state (rb_params b)) jacobians) r J ->
  let s := norm2 (rb_num b) r in 0 < s -> 0 < rho2 (f s) -> rho1 (f s) <= 0 ->
  (w = true \/ jacobians <> None) -> evaluate b true w jacobians scratch m = None.
Proof.
  intros El Hs Hb HC s P1 P2 P3 HW. unfold evaluate. fold (slots_of b jacobians).
  pose proof (enough b w jacobians scratch Hs) as En. pose proof (setup_ok b jacobians) as SU.
  pose proof (valid_iff b jacobians w (rb_cost b (map pb_state (rb_params b)) jacobians) m) as V. cbv zeta in V.
  destruct (slots_of b jacobians) as [l e]. cbn [fst snd] in *. rewrite En. change (if w then (BResiduals, 0%nat) else (BScratch, e)) with (rptr w e).
  set (a := rb_cost b _ _) in *. set (rp := rptr w e) in *. destruct SU as [S1 S2 S3 S4 S5].
  destruct (after_call (rb_num b) 0 e l rp a m S1 S2 (rptr_ok w e)) as (C1 & C2 & _).
  assert (Ea : an_ok a = true) by apply HC. rewrite Ea. cbn [negb].
  rewrite (proj2 (V Ea) (ex_intro _ r (ex_intro _ J HC))). cbn [negb].
  destruct HC as (_ & K1 & K2). rewrite (squared_norm_of (rb_num b) rp _ r).
  2:{ intros k Hk. rewrite C1 by exact Hk. destruct (K1 k Hk) as [-> _]. reflexivity. }
  fold s. rewrite El.
  assert (CN : corrector_new s (f s) = None).
  { unfold corrector_new. destruct (Rlt_dec s 0); [lra|]. destruct (Req_EM_T s 0); [lra|]. destruct (Rle_dec (rho2 (f s)) 0); [lra|].
    destruct (Rlt_dec 0 (rho1 (f s))); [lra|reflexivity]. }
  rewrite CN. destruct jacobians; [reflexivity|]. destruct w; [reflexivity|]. destruct HW as [HW|HW]; [discriminate|contradiction].
Qed.

(** ** a concrete block: two residuals, a plain block of size 2 and a block of size 2 on a one dimensional manifold *)
Definition ex_residuals : nat -> R := fun k => match k with 0%nat => 3 | _ => 4 end.
Definition ex_jacobians : nat -> nat -> R := fun i k => INR i + INR k.
Definition ex_block : residual_block :=
  mkRB (fun _ _ => mkAnswer true (fun k => Some (Num (ex_residuals k))) (fun i k => Some (Num (ex_jacobians i k)))) 2
    (Some (fun s => mkRho (s / 2) (1 / 2) 0))
    [mkPB 2 2 None (fun _ => 0); mkPB 2 1 (Some (fun k => match k with 0%nat => 1 | _ => 2 end)) (fun _ => 1)].
Lemma small_possible x : x < 1000 -> x <> impossible.
Proof.
  intros H E. assert (1000 < impossible); [|lra]. unfold impossible. apply Rlt_le_trans with (10 ^ 4); [lra|].
  apply Rle_pow; [lra|lia].
Qed.
Example ex_complete : complete 2 (rb_params ex_block) (Some [true; true]) (rb_cost ex_block (map pb_state (rb_params ex_block)) (Some [true; true])) ex_residuals ex_jacobians.
Proof.
  split; [reflexivity|]. split.
  - intros k Hk. split; [reflexivity|]. apply small_possible. destruct k; cbn; lra.
  - intros i p k (l & E & Hi) Hp Hk. split; [reflexivity|]. apply small_possible. unfold ex_jacobians.
    injection E as <-.
    assert (i < 2)%nat by (destruct i as [|[|i]]; [lia|lia|destruct i; discriminate]).
    assert (k < 4)%nat by (destruct i as [|[|i]]; [injection Hp as <-; exact Hk|injection Hp as <-; exact Hk|lia]).
    apply lt_INR in H. apply lt_INR in H0. cbn in H, H0. lra.
Qed.
Example ex_pblocks : forall p, In p (rb_params ex_block) -> pblock_ok p.
Proof. intros p [<-|[<-|[]]]; unfold pblock_ok; cbn; congruence. Qed.
Example ex_loss : loss_usable (active_loss ex_block true) (norm2 2 ex_residuals).
Proof. cbn. unfold sane. cbn. lra. Qed.
(** the second jacobian is projected to one column, and scaled by sqrt (1/2) *)
Example ex_value m : exists m', evaluate ex_block true true (Some [true; true]) (num_scratch ex_block) m = Some (true, m') /\
  m' BCost 0%nat = Num (25 / 4) /\ m' (BJacobian 1) 1%nat = Num (sqrt (1 / 2) * 11).
Proof.
  destruct (rb_success ex_block true true (Some [true; true]) (num_scratch ex_block) m ex_residuals ex_jacobians (le_n _) ex_pblocks ex_complete ex_loss)
    as (m' & E & C & _ & HJ).
  exists m'. split; [exact E|]. split.
  - rewrite C. f_equal. cbn. lra.
  - pose proof (HJ 1%nat _ 1%nat 0%nat (ex_intro _ _ (conj eq_refl eq_refl)) eq_refl ltac:(cbn; lia) ltac:(cbn; lia)) as Q.
    cbn [pb_tangent Nat.mul Nat.add] in Q. rewrite Q. f_equal. unfold expected_jacobian, active_loss, ex_block, alpha. cbn [rb_loss rho1 rho2 rb_num].
    assert (N : norm2 2 ex_residuals = 25) by (cbn; lra). rewrite N.
    destruct (Req_EM_T 25 0); [lra|]. destruct (Rle_dec 0 0); [|lra].
    cbn. unfold ex_jacobians. cbn. field.
Qed.
