(** Setters and Evaluate. *)
Require Import ZArith List Lia Bool Permutation.
From Verif Require Import ZMap Dbl ProblemModel ProblemSpec ProblemProofs1 ProblemProofs2 ProblemProofs3 ProblemProofs4 ProblemProofs5.
Import ListNotations.
Open Scope Z_scope.

Lemma write_dbl_ok : forall x l i, (i < length l)%nat ->
  exists l', write_dbl i x l = Some l' /\ length l' = length l /\
    forall k, nth k l' NaN = if Nat.eqb k i then x else nth k l NaN.
Proof.
  intros x; induction l as [|y l IH]; intros i Hi; simpl in Hi; [lia|].
  destruct i as [|i]; simpl.
  - exists (x :: l). split; auto. split; auto. intros [|k]; auto.
  - destruct (IH i) as [l' [-> [L N]]]; [lia|]. exists (y :: l'). split; auto. split; [simpl; lia|].
    intros [|k]; auto. apply N.
Qed.

Lemma nth_repeat_lt : forall A (x d : A) n k, (k < n)%nat -> nth k (repeat x n) d = x.
Proof. intros A x d; induction n as [|n IH]; intros [|k] H; simpl; auto; try lia. apply IH. lia. Qed.

(** A setter that finds the block, transforms it and stores it. *)
Lemma find_block_ok : forall s a v, Inv s -> Rel s a ->
  match find_block v s with
  | Ok (p, b) => zfind p (p_pheap s) = Some b /\ b_addr b = v /\
                 exists i, a_par a v = Some i /\ prel (Some b) (Some i)
  | Abort => a_par a v = None
  | _ => False
  end.
Proof.
  intros s a v I R. unfold find_block. destruct (zfind v (p_pmap s)) as [p|] eqn:E.
  - destruct (view_find s v p I E) as [b [B1 [B2 B3]]]. rewrite B1. cbn [deref bind]. split; auto. split; auto.
    pose proof (proj1 R v) as Q. rewrite B3 in Q. destruct (a_par a v) as [i|]; [eauto|contradiction].
  - apply (rel_par_none s a v R). apply view_none; auto.
Qed.

Lemma set_constant_ok : forall c s a v, Inv s -> Rel s a ->
  match set_constant c v s with
  | Ok s' => a_par a v <> None /\ Inv s' /\
             Rel s' (upd_par v (fun i => mkI (i_size i) c (i_man i) (i_lo i) (i_hi i)) a) /\
             p_opts s' = p_opts s /\ p_mdel s' = p_mdel s /\ p_log s' = p_log s /\ p_rheap s' = p_rheap s
  | Abort => a_par a v = None
  | _ => False
  end.
Proof.
  intros c s a v I R. unfold set_constant. pose proof (find_block_ok s a v I R) as F.
  destruct (find_block v s) as [[p b]| | |]; cbn [bind]; auto.
  destruct F as [B1 [B2 [i [A P]]]]. split; [congruence|].
  split. { eapply inv_update; eauto. unfold same_frame; simpl. destruct (i_bl s I p b B1) as [_ [Q1 Q2]]. auto 10. }
  split; [|auto]. subst v. eapply rel_update; eauto.
  intros i' E [P1 [P2 [P3 P4]]]. split; auto.
Qed.

Section WithManifolds.
Variables (mf_amb mf_tan : Z -> Z).

Lemma pb_set_manifold_ok : forall m ok b i, prel (Some b) (Some i) ->
  match pb_set_manifold mf_amb mf_tan m ok b with
  | Ok b' => manifold_allowed mf_amb mf_tan i m ok /\ same_frame b (with_man b m) /\ b' = with_man b m
             \/ b' = with_man b m /\ manifold_allowed mf_amb mf_tan i m ok
  | Abort => ~ manifold_allowed mf_amb mf_tan i m ok
  | _ => False
  end.
Proof.
  intros m ok b i P. unfold pb_set_manifold, manifold_allowed. destruct P as [P1 [P2 [P3 _]]].
  destruct (Z.eqb_spec m (b_man b)).
  - right. split; [subst; destruct b; reflexivity|]. left. congruence.
  - destruct (Z.eqb_spec m 0); [right; subst; auto|].
    destruct (Z.eqb_spec (mf_amb m) (b_size b)); cbn [check bind]; [|intros [H|[H|[H _]]]; congruence].
    destruct (Z.geb_spec (mf_tan m) 0); cbn [check bind]; [|intros [H1|[H1|[_ [H1 _]]]]; try congruence; lia].
    destruct ok; cbn [check bind]; [|intros [H1|[H1|[_ [_ H1]]]]; congruence].
    right. split; auto. right; right. split; [congruence|]. split; auto.
Qed.

Definition mown (m : Z) (s : problem) : list Z := if negb (m =? 0) && o_man_own (p_opts s) then [m] else [].

Lemma inv_mdel : forall s l, Inv s -> Inv (set_mdel s l).
Proof. intros s l I. destruct I; constructor; auto. Qed.
Lemma rel_mdel : forall s l a, Rel s a -> Rel (set_mdel s l) a.
Proof. intros s l a [R1 R2]; split; auto. Qed.

Lemma internal_set_manifold_ok : forall s a v m ok p b, Inv s -> Rel s a ->
  zfind p (p_pheap s) = Some b -> b_addr b = v ->
  match internal_set_manifold mf_amb mf_tan p m ok s with
  | Ok s' => (exists i, a_par a v = Some i /\ manifold_allowed mf_amb mf_tan i m ok) /\ Inv s' /\
             Rel s' (upd_par v (with_manifold m) a) /\
             p_opts s' = p_opts s /\ p_mdel s' = p_mdel s ++ mown m s /\ p_log s' = p_log s /\ p_rheap s' = p_rheap s
  | Abort => ~ (exists i, a_par a v = Some i /\ manifold_allowed mf_amb mf_tan i m ok)
  | _ => False
  end.
Proof.
  intros s a v m ok p b I R B1 B2. unfold internal_set_manifold.
  set (s0 := if negb (m =? 0) && o_man_own (p_opts s) then set_mdel s (p_mdel s ++ [m]) else s).
  assert (S0 : Inv s0 /\ Rel s0 a /\ p_pheap s0 = p_pheap s /\ p_opts s0 = p_opts s /\ p_mdel s0 = p_mdel s ++ mown m s /\ p_log s0 = p_log s /\ p_rheap s0 = p_rheap s).
  { unfold s0, mown. destruct (negb (m =? 0) && o_man_own (p_opts s)).
    - split; [apply inv_mdel; auto|]. split; [apply rel_mdel; auto|]. auto 10.
    - rewrite app_nil_r. auto 10. }
  destruct S0 as [I0 [R0 [H0 [O0 [M0 [L0 RH0]]]]]]. rewrite <- H0 in B1. rewrite B1. cbn [deref bind].
  assert (V : view v s0 = Some b) by (apply view_pm; eauto).
  pose proof (proj1 R0 v) as Q. rewrite V in Q. destruct (a_par a v) as [i|] eqn:A; [|contradiction].
  pose proof (pb_set_manifold_ok m ok b i Q) as K.
  destruct (pb_set_manifold mf_amb mf_tan m ok b) as [b'| | |]; cbn [bind]; try contradiction.
  2:{ intros [i' [E H]]. inversion E; subst. auto. }
  assert (KK : b' = with_man b m /\ manifold_allowed mf_amb mf_tan i m ok) by tauto. clear K. destruct KK as [-> KA].
  split; [eauto|]. split.
  { eapply inv_update; eauto. unfold same_frame; simpl. destruct (i_bl s0 I0 p b B1) as [_ [Q1 Q2]]. auto 10. }
  split; [|auto]. subst v. eapply rel_update; eauto.
  intros i' E P. destruct P as [P1 [P2 [P3 P4]]]. split; auto.
Qed.

Lemma set_manifold_ok : forall s a v m ok, Inv s -> Rel s a ->
  match set_manifold mf_amb mf_tan v m ok s with
  | Ok s' => (exists i, a_par a v = Some i /\ manifold_allowed mf_amb mf_tan i m ok) /\ Inv s' /\
             Rel s' (upd_par v (with_manifold m) a) /\
             p_opts s' = p_opts s /\ p_mdel s' = p_mdel s ++ mown m s /\ p_log s' = p_log s /\ p_rheap s' = p_rheap s
  | Abort => ~ (exists i, a_par a v = Some i /\ manifold_allowed mf_amb mf_tan i m ok)
  | _ => False
  end.
Proof.
  intros s a v m ok I R. unfold set_manifold. pose proof (find_block_ok s a v I R) as F.
  destruct (find_block v s) as [[p b]| | |]; cbn [bind]; auto.
  - destruct F as [B1 [B2 _]]. eapply internal_set_manifold_ok; eauto.
  - intros [i [E _]]. congruence.
Qed.

Lemma add_parameter_ok : forall s a v size, Inv s -> Rel s a -> o_nochecks (p_opts s) = false ->
  match add_parameter v size s with
  | Ok s' => fits a v size /\ Inv s' /\ Rel s' (add1 v size a) /\
             p_opts s' = p_opts s /\ p_mdel s' = p_mdel s /\ p_log s' = p_log s /\ p_rheap s' = p_rheap s
  | Abort => ~ fits a v size
  | _ => False
  end.
Proof.
  intros s a v size I R NC. unfold add_parameter. pose proof (internal_add_ok s a v size I R NC) as K.
  destruct (internal_add v size s) as [[s1 p]| | |]; cbn [bind]; auto.
  destruct K as [K1 [K2 [K3 [K4 _]]]]. unfold ext in K4. tauto.
Qed.

Lemma add_parameter_manifold_ok : forall s a v size m ok, Inv s -> Rel s a -> o_nochecks (p_opts s) = false ->
  match add_parameter_manifold mf_amb mf_tan v size m ok s with
  | Ok s' => (fits a v size /\ exists i, a_par (add1 v size a) v = Some i /\ manifold_allowed mf_amb mf_tan i m ok) /\
             Inv s' /\ Rel s' (upd_par v (with_manifold m) (add1 v size a)) /\
             p_opts s' = p_opts s /\ p_mdel s' = p_mdel s ++ mown m s /\ p_log s' = p_log s /\ p_rheap s' = p_rheap s
  | Abort => ~ (fits a v size /\ exists i, a_par (add1 v size a) v = Some i /\ manifold_allowed mf_amb mf_tan i m ok)
  | _ => False
  end.
Proof.
  intros s a v size m ok I R NC. unfold add_parameter_manifold. pose proof (internal_add_ok s a v size I R NC) as K.
  destruct (internal_add v size s) as [[s1 p]| | |]; cbn [bind]; auto; [|tauto].
  destruct K as [K1 [K2 [K3 [K4 [_ [_ [_ [b [B1 [B2 B3]]]]]]]]]].
  pose proof (internal_set_manifold_ok s1 (add1 v size a) v m ok p b K2 K3 B1 B2) as J.
  destruct K4 as [E1 [E2 [E3 [E4 [E5 [E6 [E7 [E8 _]]]]]]]].
  destruct (internal_set_manifold mf_amb mf_tan p m ok s1) as [s2| | |]; auto; [|tauto].
  destruct J as [J1 [J2 [J3 [J4 [J5 [J6 J7]]]]]]. split; auto. split; auto. split; auto.
  split; [congruence|]. split; [|split; congruence]. rewrite J5, E7. unfold mown. rewrite E1. auto.
Qed.

Lemma pb_set_lower_ok : forall b i k x, (forall l, b_lo b = Some l -> length l = Z.to_nat (b_size b)) ->
  (forall l, b_hi b = Some l -> length l = Z.to_nat (b_size b)) ->
  prel (Some b) (Some i) -> 0 <= k ->
  match pb_set_lower k x b with
  | Ok b' => k < i_size i /\ same_frame b b' /\ prel (Some b') (Some (mkI (i_size i) (i_const i) (i_man i) (fupd k x (i_lo i)) (i_hi i)))
  | Abort => ~ k < i_size i
  | _ => False
  end.
Proof.
  intros b i k x LL LH [P1 [P2 [P3 P4]]] Hk. unfold pb_set_lower.
  destruct (Z.ltb_spec k (b_size b)); cbn [check bind]; [|lia].
  assert (G : forall l0, length l0 = Z.to_nat (b_size b) -> (forall j, 0 <= j < b_size b -> reports_lo (i_lo i j) (nth (Z.to_nat j) l0 NaN)) ->
    match (if k <? 0 then Crash else do l <- deref (write_dbl (Z.to_nat k) x l0); Ok (with_lo b (Some l))) with
  | Ok b' => k < i_size i /\ same_frame b b' /\ prel (Some b') (Some (mkI (i_size i) (i_const i) (i_man i) (fupd k x (i_lo i)) (i_hi i)))
  | Abort => ~ k < i_size i
  | _ => False
  end).
  { intros l0 HL0 HR. destruct (Z.ltb_spec k 0); [lia|].
    destruct (write_dbl_ok x l0 (Z.to_nat k)) as [l' [W1 [W2 W3]]]; [lia|]. rewrite W1. cbn [deref bind].
    split; [lia|]. split.
    - unfold same_frame; simpl. split; auto. split; auto. split; auto. split; auto. split; auto.
      intros l E. inversion E; subst. lia.
    - simpl. split; auto. split; auto. split; auto. intros j Hj. split; [|apply P4; auto].
      unfold lo_at; simpl. rewrite W3. unfold fupd. destruct (Nat.eqb_spec (Z.to_nat j) (Z.to_nat k)); destruct (Z.eqb_spec j k); try lia.
      + left; auto.
      + apply HR; auto. }
  destruct (b_lo b) as [l0|] eqn:EL.
  - apply G; auto. intros j Hj. destruct (P4 j Hj) as [Q _]. unfold lo_at in Q. rewrite EL in Q. auto.
  - destruct (dle x DBL_LOWEST) eqn:DX.
    + split; [lia|]. split.
      * unfold same_frame. rewrite EL. auto 10.
      * simpl. split; auto. split; auto. split; auto. intros j Hj. split; [|apply P4; auto].
        unfold lo_at. rewrite EL. unfold fupd. destruct (j =? k).
        -- right. auto.
        -- destruct (P4 j Hj) as [Q _]. unfold lo_at in Q. rewrite EL in Q. auto.
    + apply G; [apply repeat_length|]. intros j Hj. destruct (P4 j Hj) as [Q _]. unfold lo_at in Q. rewrite EL in Q.
      rewrite nth_repeat_lt by lia. auto.
Qed.

Lemma pb_set_upper_ok : forall b i k x, (forall l, b_lo b = Some l -> length l = Z.to_nat (b_size b)) ->
  (forall l, b_hi b = Some l -> length l = Z.to_nat (b_size b)) ->
  prel (Some b) (Some i) -> 0 <= k ->
  match pb_set_upper k x b with
  | Ok b' => k < i_size i /\ same_frame b b' /\ prel (Some b') (Some (mkI (i_size i) (i_const i) (i_man i) (i_lo i) (fupd k x (i_hi i))))
  | Abort => ~ k < i_size i
  | _ => False
  end.
Proof.
  intros b i k x LL LH [P1 [P2 [P3 P4]]] Hk. unfold pb_set_upper.
  destruct (Z.ltb_spec k (b_size b)); cbn [check bind]; [|lia].
  assert (G : forall l0, length l0 = Z.to_nat (b_size b) -> (forall j, 0 <= j < b_size b -> reports_hi (i_hi i j) (nth (Z.to_nat j) l0 NaN)) ->
    match (if k <? 0 then Crash else do l <- deref (write_dbl (Z.to_nat k) x l0); Ok (with_hi b (Some l))) with
  | Ok b' => k < i_size i /\ same_frame b b' /\ prel (Some b') (Some (mkI (i_size i) (i_const i) (i_man i) (i_lo i) (fupd k x (i_hi i))))
  | Abort => ~ k < i_size i
  | _ => False
  end).
  { intros l0 HL0 HR. destruct (Z.ltb_spec k 0); [lia|].
    destruct (write_dbl_ok x l0 (Z.to_nat k)) as [l' [W1 [W2 W3]]]; [lia|]. rewrite W1. cbn [deref bind].
    split; [lia|]. split.
    - unfold same_frame; simpl. split; auto. split; auto. split; auto. split; auto. split; auto.
      intros l E. inversion E; subst. lia.
    - simpl. split; auto. split; auto. split; auto. intros j Hj. split; [apply P4; auto|].
      unfold hi_at; simpl. rewrite W3. unfold fupd. destruct (Nat.eqb_spec (Z.to_nat j) (Z.to_nat k)); destruct (Z.eqb_spec j k); try lia.
      + left; auto.
      + apply HR; auto. }
  destruct (b_hi b) as [l0|] eqn:EL.
  - apply G; auto. intros j Hj. destruct (P4 j Hj) as [_ Q]. unfold hi_at in Q. rewrite EL in Q. auto.
  - destruct (dle DBL_MAX x) eqn:DX.
    + split; [lia|]. split.
      * unfold same_frame. rewrite EL. auto 10.
      * simpl. split; auto. split; auto. split; auto. intros j Hj. split; [apply P4; auto|].
        unfold hi_at. rewrite EL. unfold fupd. destruct (j =? k).
        -- right. auto.
        -- destruct (P4 j Hj) as [_ Q]. unfold hi_at in Q. rewrite EL in Q. auto.
    + apply G; [apply repeat_length|]. intros j Hj. destruct (P4 j Hj) as [_ Q]. unfold hi_at in Q. rewrite EL in Q.
      rewrite nth_repeat_lt by lia. auto.
Qed.

Lemma set_lower_ok : forall s a v k x, Inv s -> Rel s a -> 0 <= k ->
  match set_lower v k x s with
  | Ok s' => (exists i, a_par a v = Some i /\ k < i_size i) /\ Inv s' /\
             Rel s' (upd_par v (fun i => mkI (i_size i) (i_const i) (i_man i) (fupd k x (i_lo i)) (i_hi i)) a) /\
             p_opts s' = p_opts s /\ p_mdel s' = p_mdel s /\ p_log s' = p_log s /\ p_rheap s' = p_rheap s
  | Abort => ~ (exists i, a_par a v = Some i /\ k < i_size i)
  | _ => False
  end.
Proof.
  intros s a v k x I R Hk. unfold set_lower. pose proof (find_block_ok s a v I R) as F.
  destruct (find_block v s) as [[p b]| | |]; cbn [bind]; auto.
  2:{ intros [i [E _]]. congruence. }
  destruct F as [B1 [B2 [i [A P]]]]. destruct (i_bl s I p b B1) as [_ [Q1 Q2]].
  pose proof (pb_set_lower_ok b i k x Q1 Q2 P Hk) as K.
  destruct (pb_set_lower k x b) as [b'| | |]; cbn [bind]; try contradiction.
  2:{ intros [i' [E H]]. congruence. }
  destruct K as [K1 [K2 K3]]. split; [eauto|]. split; [eapply inv_update; eauto|]. split; [|auto].
  subst v. eapply rel_update; eauto. { apply K2. }
  intros i' E _. assert (i' = i) by congruence. subst. auto.
Qed.

Lemma set_upper_ok : forall s a v k x, Inv s -> Rel s a -> 0 <= k ->
  match set_upper v k x s with
  | Ok s' => (exists i, a_par a v = Some i /\ k < i_size i) /\ Inv s' /\
             Rel s' (upd_par v (fun i => mkI (i_size i) (i_const i) (i_man i) (i_lo i) (fupd k x (i_hi i))) a) /\
             p_opts s' = p_opts s /\ p_mdel s' = p_mdel s /\ p_log s' = p_log s /\ p_rheap s' = p_rheap s
  | Abort => ~ (exists i, a_par a v = Some i /\ k < i_size i)
  | _ => False
  end.
Proof.
  intros s a v k x I R Hk. unfold set_upper. pose proof (find_block_ok s a v I R) as F.
  destruct (find_block v s) as [[p b]| | |]; cbn [bind]; auto.
  2:{ intros [i [E _]]. congruence. }
  destruct F as [B1 [B2 [i [A P]]]]. destruct (i_bl s I p b B1) as [_ [Q1 Q2]].
  pose proof (pb_set_upper_ok b i k x Q1 Q2 P Hk) as K.
  destruct (pb_set_upper k x b) as [b'| | |]; cbn [bind]; try contradiction.
  2:{ intros [i' [E H]]. congruence. }
  destruct K as [K1 [K2 K3]]. split; [eauto|]. split; [eapply inv_update; eauto|]. split; [|auto].
  subst v. eapply rel_update; eauto. { apply K2. }
  intros i' E _. assert (i' = i) by congruence. subst. auto.
Qed.
End WithManifolds.
