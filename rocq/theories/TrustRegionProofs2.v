(** Trust region loop: acceptance rule, feasibility, evaluation callback, final cost. *)
Require Import List ZArith Bool Lia.
From Verif Require Import Dbl DblArith DblArithProofs TrustRegionModel TrustRegionSpec TrustRegionProofs.
Import ListNotations.
Open Scope Z_scope.

Definition leq (a b : dbl) : Prop := a = b \/ dlt a b = true.

Lemma leq_refl : forall a, leq a a. Proof. left; auto. Qed.
Lemma leq_trans : forall a b c, leq a b -> leq b c -> leq a c.
Proof. intros a b c [->|A] [->|B]; unfold leq; auto. right. eapply dlt_trans; eauto. Qed.
Lemma lt_leq_trans : forall a b c, dlt a b = true -> leq b c -> dlt a c = true.
Proof. intros a b c A [->|B]; auto. eapply dlt_trans; eauto. Qed.
Lemma nlt_leq : forall a b, a <> NaN -> b <> NaN -> dlt a b = false -> leq b a.
Proof.
  intros [| | x |] [| | y |] A B; simpl; unfold leq; try congruence; auto.
  rewrite Z.ltb_ge. intros H. destruct (Z.eq_dec x y) as [->|]; auto. right. apply Z.ltb_lt. lia.
Qed.
Lemma dlt_not_nan : forall a b, dlt a b = true -> a <> NaN /\ b <> NaN.
Proof. intros [| | |] [| | |]; simpl; try discriminate; split; discriminate. Qed.
Lemma dlt_irrefl : forall a, dlt a a = false.
Proof. intros [| | |]; simpl; auto. apply Z.ltb_irrefl. Qed.
Lemma dlt0_trans : forall m q, dle (Fin 0) m = true -> dlt m q = true -> dlt (Fin 0) q = true.
Proof.
  intros [| | x |] [| | y |]; simpl; try discriminate; auto.
  rewrite Z.leb_le, !Z.ltb_lt. lia.
Qed.

(** ** The step evaluator *)
Lemma dmax_pos : forall a b, dlt (Fin 0) (dmax a b) = true -> dlt (Fin 0) a = true \/ dlt (Fin 0) b = true.
Proof. intros a b. unfold dmax. destruct (dlt a b); auto. Qed.

Lemma quality_nan : forall se c, dlt (Fin 0) (step_quality se c NaN) = false.
Proof.
  intros se c. unfold step_quality. destruct (dle DBL_MAX c); [reflexivity|].
  destruct (dsub (se_cur se) c); destruct (dsub (se_ref se) c); destruct (se_acc_ref se); reflexivity.
Qed.

(** A step of positive quality has a cost below the current or the reference cost. *)
Lemma quality_lt : forall se c mcc,
  dlt (Fin 0) mcc = true -> dle (Fin 0) (se_acc_ref se) = true ->
  dlt (Fin 0) (step_quality se c mcc) = true ->
  dlt c (se_cur se) = true \/ dlt c (se_ref se) = true.
Proof.
  intros se c mcc M A. unfold step_quality. destruct (dle DBL_MAX c); [discriminate|].
  intros Q. apply dmax_pos in Q. destruct Q as [Q|Q].
  - left. exact (quotient_pos_lt _ _ _ M Q).
  - right. exact (quotient_pos_lt _ _ _ (dadd_pos _ _ A M) Q).
Qed.

Lemma quality_not_max : forall se c mcc,
  dlt (Fin 0) (step_quality se c mcc) = true -> dle DBL_MAX c = false.
Proof. intros se c mcc. unfold step_quality. destruct (dle DBL_MAX c); auto. Qed.

(** Invariant relating the step evaluator to the accepted costs [h]. *)
Definition seinv (e : step_ev) (h : list dbl) : Prop :=
  exists pre m mid h0 hr,
    h = pre ++ m :: mid /\ h = h0 :: hr /\
    (forall d, In d pre -> dlt m d = true) /\
    (forall d, In d mid -> dlt d m = false /\ d <> NaN) /\
    se_min e = m /\ se_num e = Z.of_nat (length mid) /\ 0 <= se_max e /\
    In (se_cand e) (m :: mid) /\
    (forall d, In d (m :: mid) -> leq d (se_cand e)) /\
    leq (se_cand e) (se_ref e) /\ leq (se_ref e) h0 /\
    (se_max e <= se_num e -> In (se_ref e) (m :: mid)) /\
    (se_max e = 0 -> mid = []) /\
    In (se_cur e) (m :: mid) /\
    dle (Fin 0) (se_acc_ref e) = true /\ dle (Fin 0) (se_acc_cand e) = true /\
    below_first h /\ forced_descent (se_max e) h /\
    (se_max e = 0 -> descending h).

Lemma seinv_new : forall c m, 0 <= m -> seinv (se_new c m) [c].
Proof.
  intros c m M. exists [], c, [], c, []. simpl. unfold se_new; simpl.
  repeat match goal with |- _ /\ _ => split end; auto; try (intros; contradiction); try apply leq_refl; try lia.
  - intros d [->|[]]. apply leq_refl.
  - intros c0 r X c1 I. inversion X; subst. contradiction.
  - intros pre m0 mid c0 post X. exfalso.
    apply (f_equal (@length dbl)) in X. simpl in X. rewrite app_length in X. simpl in X.
    rewrite app_length in X. simpl in X. lia.
  - intros _ pre d post X e I. destruct pre; [contradiction|].
    apply (f_equal (@length dbl)) in X. simpl in X. rewrite app_length in X. simpl in X. lia.
Qed.

Lemma snoc_split : forall (A : Type) (h : list A) c a x b,
  h ++ [c] = a ++ x :: b -> (b = [] /\ x = c /\ a = h) \/ (exists b', b = b' ++ [c] /\ h = a ++ x :: b').
Proof.
  intros A h c a x b X. destruct (exists_last (l := x :: b) ltac:(discriminate)) as [b' [z Z]].
  rewrite Z in X. rewrite app_assoc in X. apply app_inj_tail in X. destruct X as [X ->].
  destruct b' as [|w b'].
  - simpl in Z. inversion Z; subst. left. rewrite app_nil_r. auto.
  - simpl in Z. inversion Z; subst. right. exists b'. auto.
Qed.

(** the best cost so far and the point where it was reached are unique *)
Lemma split_unique : forall pre m mid pre' m' mid',
  pre ++ m :: mid = pre' ++ m' :: mid' ->
  (forall d, In d pre -> dlt m d = true) -> (forall d, In d mid -> dlt d m = false) ->
  (forall d, In d pre' -> dlt m' d = true) -> (forall d, In d mid' -> dlt d m' = false) ->
  pre = pre' /\ m = m' /\ mid = mid'.
Proof.
  induction pre as [|a pre IH]; intros m mid pre' m' mid' X A B A' B'; destruct pre' as [|a' pre']; simpl in X.
  - inversion X; auto.
  - inversion X; subst. exfalso.
    pose proof (A' a' (or_introl eq_refl)).
    assert (In m' (pre' ++ m' :: mid')) by (apply in_app_iff; right; left; auto).
    rewrite (B _ H0) in H. discriminate.
  - inversion X; subst. exfalso.
    pose proof (A m' (or_introl eq_refl)).
    assert (In m (pre ++ m :: mid)) by (apply in_app_iff; right; left; auto).
    rewrite (B' _ H0) in H. discriminate.
  - inversion X; subst.
    destruct (IH m mid pre' m' mid') as (-> & -> & ->); auto; intros d D; [apply A|apply A']; right; auto.
Qed.

Lemma seinv_accept : forall e h c mcc, seinv e h ->
  dlt (Fin 0) mcc = true -> (dlt c (se_cur e) = true \/ dlt c (se_ref e) = true) ->
  seinv (se_accept e c mcc) (h ++ [c]).
Proof.
  intros e h c mcc (pre & m & mid & h0 & hr & Hh & Hf & Hpre & Hmid & Hmin & Hnum & Hmax & Hcand & Hle & Hcr & Hr0 & Hri & Hmono & Hcur & Har & Hac & Hbf & Hfd & Hdesc) M L.
  assert (Lr : dlt c (se_ref e) = true).
  { destruct L as [L|L]; auto. eapply lt_leq_trans; [exact L|].
    eapply leq_trans; [apply Hle; auto|auto]. }
  clear L.
  assert (L0 : dlt c h0 = true) by (eapply lt_leq_trans; eauto).
  destruct (dlt_not_nan _ _ Lr) as [Nc Nr].
  assert (Ncand : se_cand e <> NaN).
  { destruct Hcr as [X|X]; [congruence|]. apply dlt_not_nan in X. tauto. }
  assert (Nall : forall d, In d (m :: mid) -> d <> NaN).
  { intros d D. destruct (Hle d D) as [X|X]; [congruence|]. apply dlt_not_nan in X; tauto. }
  assert (Acc : forall a, dle (Fin 0) a = true -> dle (Fin 0) (dadd a mcc) = true).
  { intros a A. apply dlt_le. apply dadd_pos; auto. }
  (* the observable parts *)
  assert (BF : below_first (h ++ [c])).
  { intros c0 r X d D. rewrite Hf in X. simpl in X. inversion X; subst c0 r.
    apply in_app_iff in D. destruct D as [D|[D|[]]]; [|subst; auto]. apply (Hbf h0 hr Hf d D). }
  assert (FD : forced_descent (se_max e) (h ++ [c])).
  { intros p n md k post X P1 P2 P3.
    replace (p ++ n :: md ++ k :: post) with ((p ++ n :: md) ++ k :: post) in X by (rewrite <- app_assoc; reflexivity).
    apply snoc_split in X. destruct X as [(-> & -> & X)|(b' & -> & X)].
    - destruct (split_unique p n md pre m mid) as (-> & -> & ->); auto.
      { congruence. } { intros d D; apply Hmid; auto. }
      exists (se_ref e). split; auto. apply Hri. lia.
    - rewrite <- app_assoc in X. eapply (Hfd p n md k b'); eauto. }
  assert (DS : se_max e = 0 -> descending (h ++ [c])).
  { intros Z p k post X d D. apply snoc_split in X. destruct X as [(-> & -> & ->)|(b' & -> & X)].
    - specialize (Hmono Z). subst mid. rewrite Z, Hnum in Hri. simpl in Hri.
      destruct (Hri ltac:(lia)) as [R|[]]. rewrite R in *.
      rewrite Hh in D. apply in_app_iff in D. destruct D as [D|[D|[]]]; [|subst; auto].
      eapply dlt_trans; [exact Lr|apply Hpre; auto].
    - eapply Hdesc; eauto. }
  unfold se_accept.
  destruct (dlt c (se_min e)) eqn:Lm.
  - (* new minimum *)
    rewrite Hmin in Lm.
    assert (All : forall d, In d h -> dlt c d = true).
    { intros d D. rewrite Hh in D. apply in_app_iff in D. destruct D as [D|[D|D]].
      - eapply dlt_trans; eauto.
      - subst; auto.
      - destruct (Hmid d D) as [X Y]. eapply lt_leq_trans; [exact Lm|].
        apply nlt_leq; auto. apply dlt_not_nan in Lm; tauto. }
    exists h, c, [], h0, (hr ++ [c]).
    destruct (Z.eqb_spec 0 (se_max e)) as [Z|Z]; cbn [se_max se_min se_cur se_ref se_cand se_acc_ref se_acc_cand se_num].
    + rewrite Hf in *. repeat match goal with |- _ /\ _ => split end; auto; try (intros; contradiction); try apply leq_refl; try (simpl; auto; lia).
      * intros d [->|[]]. apply leq_refl.
      * right; auto.
    + rewrite Hf in *. repeat match goal with |- _ /\ _ => split end; auto; try (intros; contradiction); try (simpl; auto; lia).
      * intros d [->|[]]. apply leq_refl.
      * right; auto.
  - (* not a new minimum *)
    rewrite Hmin in Lm.
    assert (Z0 : se_max e <> 0).
    { intros Z. specialize (Hmono Z). subst mid. rewrite Z, Hnum in Hri. simpl in Hri.
      destruct (Hri ltac:(lia)) as [R|[]]. rewrite R in Lm. congruence. }
    set (cand' := if dlt (se_cand e) c then c else se_cand e).
    set (acc' := if dlt (se_cand e) c then Fin 0 else dadd (se_acc_cand e) mcc).
    assert (R : (let '(mn, num, cand, ac) :=
                 if dlt (se_cand e) c then (se_min e, se_num e + 1, c, Fin 0)
                 else (se_min e, se_num e + 1, se_cand e, dadd (se_acc_cand e) mcc) in
               if num =? se_max e then mkSE (se_max e) mn c cand cand ac ac num
               else mkSE (se_max e) mn c (se_ref e) cand (dadd (se_acc_ref e) mcc) ac num) =
            if se_num e + 1 =? se_max e then mkSE (se_max e) (se_min e) c cand' cand' acc' acc' (se_num e + 1)
            else mkSE (se_max e) (se_min e) c (se_ref e) cand' (dadd (se_acc_ref e) mcc) acc' (se_num e + 1)).
    { unfold cand', acc'. destruct (dlt (se_cand e) c); reflexivity. }
    rewrite R. clear R.
    assert (Icand : In cand' (m :: mid ++ [c])).
    { unfold cand'. destruct (dlt (se_cand e) c); [right; apply in_app_iff; right; left; auto|].
      destruct Hcand as [X|X]; [left; auto|right; apply in_app_iff; auto]. }
    assert (LeC : forall d, In d (m :: mid ++ [c]) -> leq d cand').
    { intros d D. assert (D' : In d (m :: mid) \/ d = c).
      { destruct D as [D|D]; [left; left; auto|]. apply in_app_iff in D. destruct D as [D|[D|[]]]; auto. left; right; auto. }
      unfold cand'. destruct (dlt (se_cand e) c) eqn:X; destruct D' as [D'| ->].
      - eapply leq_trans; [apply Hle; auto|right; auto].
      - apply leq_refl.
      - apply Hle; auto.
      - apply nlt_leq; auto. }
    assert (CR : leq cand' (se_ref e)).
    { unfold cand'. destruct (dlt (se_cand e) c); auto. right; auto. }
    assert (AC : dle (Fin 0) acc' = true).
    { unfold acc'. destruct (dlt (se_cand e) c); auto. }
    assert (Hin : In c (m :: mid ++ [c])) by (right; apply in_app_iff; right; left; auto).
    assert (Hr' : In (se_ref e) (m :: mid) -> In (se_ref e) (m :: mid ++ [c])).
    { intros [X|X]; [left; auto|right; apply in_app_iff; auto]. }
    assert (Len : se_num e + 1 = Z.of_nat (length (mid ++ [c]))).
    { rewrite app_length; simpl; lia. }
    assert (Mid' : forall d, In d (mid ++ [c]) -> dlt d m = false /\ d <> NaN).
    { intros d D. apply in_app_iff in D. destruct D as [D|[D|[]]]; auto. subst; auto. }
    exists pre, m, (mid ++ [c]), h0, (hr ++ [c]).
    assert (Eq1 : h ++ [c] = pre ++ m :: mid ++ [c]) by (rewrite Hh, <- app_assoc; reflexivity).
    assert (Eq2 : h ++ [c] = h0 :: hr ++ [c]) by (rewrite Hf; reflexivity).
    destruct (Z.eqb_spec (se_num e + 1) (se_max e)) as [Z|Z]; cbn [se_max se_min se_cur se_ref se_cand se_acc_ref se_acc_cand se_num].
    + repeat match goal with |- _ /\ _ => split end; auto; try (intros; congruence); try apply leq_refl.
      eapply leq_trans; eauto.
    + repeat match goal with |- _ /\ _ => split end; auto; try (intros; congruence).
      intros X. apply Hr', Hri. lia.
Qed.

Opaque dz.

Section P.
Variable E : tr_env.
Variable Op : tr_options.
Notation state := (state E).
Notation finalize := (finalize E Op).
Notation body := (body E Op).
Notation loop := (loop E Op).

(** cost-only evaluations and evaluations with derivatives agree on the cost *)
Definition consistent_cost : Prop :=
  forall y c xc j, ev_cost E y = Some c -> ev_jac E y = Some (xc, j) -> xc = c.
(** inner iterations, when they can be evaluated, do not increase the cost *)
Definition inner_descends : Prop :=
  forall k y c ic, ev_cost E y = Some c -> ev_cost E (inner E k y) = Some ic -> dle ic c = true.

Lemma candidate_cost : forall x d t y c t1, compute_candidate E x d t = (y, c, t1) ->
  dle DBL_MAX c = true \/ ev_cost E y = Some c.
Proof.
  intros x d t y c t1. unfold compute_candidate. destruct (ev_plus E x d) as [[] z].
  - destruct (ev_cost E z) eqn:X; intros Y; inversion Y; subst; auto.
  - intros Y; inversion Y; subst; auto.
Qed.

Lemma dle0_dsub : forall a b, dle b a = true -> dle (Fin 0) (dsub a b) = true \/ dsub a b = NaN.
Proof.
  intros [| | x |] [| | y |] L; simpl in L; try discriminate; unfold dsub; cbn [dneg dadd]; auto.
  left. apply Z.leb_le in L. rewrite <- rnd1_zero. apply rnd1_mono. lia.
Qed.

Lemma dadd_pos_r : forall m a, dlt (Fin 0) m = true -> dle (Fin 0) a = true \/ a = NaN ->
  dlt (Fin 0) (dadd m a) = true \/ dadd m a = NaN.
Proof.
  intros m a M [A| ->].
  - left. destruct m as [| | x |], a as [| | y |]; simpl in M, A; try discriminate; auto.
    simpl. rewrite Z.leb_le in A. rewrite Z.ltb_lt in M. apply rnd1_pos. lia.
  - right. destruct m; reflexivity.
Qed.

(** what is known of an accepted step *)
Lemma accepted_step : forall k xc on y0 c0 mcc0 t1 y c mcc on' useful t2 se,
  (on = false \/ inner_descends) ->
  (dle DBL_MAX c0 = true \/ ev_cost E y0 = Some c0) ->
  dlt (Fin 0) mcc0 = true -> dle (Fin 0) (o_min_rel Op) = true ->
  dle (Fin 0) (se_acc_ref se) = true ->
  do_inner E Op k xc on y0 c0 mcc0 t1 = (y, c, mcc, on', useful, t2) ->
  useful = true \/ dlt (o_min_rel Op) (step_quality se c mcc) = true ->
  ev_cost E y = Some c /\ dlt (Fin 0) mcc = true /\
  (dlt c xc = true \/ dlt c (se_cur se) = true \/ dlt c (se_ref se) = true).
Proof.
  intros k xc on y0 c0 mcc0 t1 y c mcc on' useful t2 se Hin C0 M0 MR AR D A.
  assert (Qual : forall c mcc, dlt (Fin 0) mcc = true \/ mcc = NaN ->
            dlt (o_min_rel Op) (step_quality se c mcc) = true ->
            dlt (Fin 0) mcc = true /\ (dlt c (se_cur se) = true \/ dlt c (se_ref se) = true) /\ dle DBL_MAX c = false).
  { intros c' m' [M| ->] Q; apply (dlt0_trans _ _ MR) in Q.
    - split; auto. split; [exact (quality_lt _ _ _ M AR Q)|exact (quality_not_max _ _ _ Q)].
    - rewrite quality_nan in Q. discriminate. }
  unfold do_inner in D. destruct (negb on || dle DBL_MAX c0) eqn:Off.
  - inversion D; subst. destruct A as [A|A]; [discriminate|].
    destruct (Qual _ _ (or_introl M0) A) as (X & Y & Z).
    split; [|split; auto]. destruct C0; auto. congruence.
  - apply orb_false_iff in Off. destruct Off as [On Cm]. apply negb_false_iff in On. subst on.
    destruct Hin as [Hin|Hin]; [discriminate|].
    destruct C0 as [C0|C0]; [congruence|].
    destruct (ev_cost E (inner E k y0)) as [ic|] eqn:Ei.
    + inversion D; subst.
      pose proof (Hin k y0 c0 c C0 Ei) as Le.
      pose proof (dadd_pos_r mcc0 _ M0 (dle0_dsub c0 c Le)) as P.
      split; auto. destruct A as [A|A].
      * unfold dmin in A.
        assert (L1 : dlt c xc = true).
        { destruct (dlt c0 xc) eqn:X; auto. eapply dlt_trans; eauto. }
        split; auto. destruct P as [P|P]; auto. exfalso.
        apply dadd_nan_inv in P. destruct P as [P|[P|[[P1 P2]|[P1 P2]]]].
        -- subst. discriminate.
        -- destruct (dsub_nan_inv _ _ P Le) as [-> [->| ->]]; [discriminate Cm|].
           destruct (dlt NInf xc) eqn:X; [discriminate|]. congruence.
        -- destruct (dle0_dsub _ _ Le) as [Q|Q]; rewrite P2 in Q; discriminate.
        -- subst. discriminate.
      * destruct (Qual _ _ P A) as (X & Y & Z). auto.
    + inversion D; subst. destruct A as [A|A]; [discriminate|].
      destruct (Qual _ _ (or_introl M0) A) as (X & Y & Z). auto.
Qed.

(** accepted costs, including the one about to be finalised *)
Definition hist (s : state) : list dbl := map snd (s_accepted E (finalize_book E s)).

Record accinv (s : state) : Prop := {
  ai_se : seinv (s_se E s) (hist s);
  ai_cur : se_cur (s_se E s) = s_xcost E s;
  ai_on : s_inner_on E s = true -> o_inner Op = true }.

Lemma se_accept_cur : forall e c m, se_cur (se_accept e c m) = c.
Proof.
  intros. unfold se_accept. destruct (dlt c (se_min e)); [|destruct (dlt (se_cand e) c)];
    match goal with |- context [if ?b then _ else _] => destruct b end; reflexivity.
Qed.
Lemma se_accept_max : forall e c m, se_max (se_accept e c m) = se_max e.
Proof.
  intros. unfold se_accept. destruct (dlt c (se_min e)); [|destruct (dlt (se_cand e) c)];
    match goal with |- context [if ?b then _ else _] => destruct b end; reflexivity.
Qed.

Lemma inner_on_mono : forall k xc on y0 c0 mcc0 t1 y c mcc on' useful t2,
  do_inner E Op k xc on y0 c0 mcc0 t1 = (y, c, mcc, on', useful, t2) -> on' = true -> on = true.
Proof.
  intros until t2. unfold do_inner. destruct (negb on || dle DBL_MAX c0) eqn:X.
  - intros Y; inversion Y; subst; auto.
  - apply orb_false_iff in X. destruct X as [X _]. apply negb_false_iff in X. auto.
Qed.

Definition goodhist (w : Z) (h : list dbl) : Prop :=
  below_first h /\ forced_descent w h /\ (w = 0 -> descending h).

Lemma seinv_good : forall e h, seinv e h -> goodhist (se_max e) h.
Proof. intros e h (pre & m & mid & h0 & hr & H). unfold goodhist. tauto. Qed.

Section Acc.
Hypothesis Hcons : consistent_cost.
Hypothesis Hinner : o_inner Op = false \/ inner_descends.
Hypothesis Hmr : dle (Fin 0) (o_min_rel Op) = true.

Lemma hist_term : forall s t, hist (set_term E s t) = hist s.
Proof. reflexivity. Qed.

Lemma body_acc : forall s s1 s2, accinv s -> finalize s = (s1, true) -> body s1 = (s2, true) ->
  accinv s2 /\ se_max (s_se E s2) = se_max (s_se E s).
Proof.
  intros s s1 s2 [A C On] F B.
  destruct (finalize_shape E Op s s1 true F) as (t & -> & _ & _).
  set (s1 := set_term E (finalize_book E s) t) in *.
  assert (H1 : map snd (s_accepted E s1) = hist s) by reflexivity.
  assert (S1 : s_se E s1 = s_se E s) by reflexivity.
  assert (X1 : s_xcost E s1 = s_xcost E s) by reflexivity.
  assert (O1 : s_inner_on E s1 = s_inner_on E s) by reflexivity.
  clearbody s1.
  apply body_cases in B. inversion B; subst.
  - assert (Hh : hist s2 = hist s).
    { unfold hist at 1. unfold finalize_book. cbn [TrustRegionModel.s_accepted].
      match goal with X : is_successful _ = false |- _ => rewrite X end. congruence. }
    split; [split|]; try congruence. intros X. apply On. congruence.
  - match goal with Z : _ \/ _ |- _ => destruct Z as [X|[X|[X|X]]] end; try (destruct X; discriminate).
    + destruct X as (_ & Ac & xc & j & g & X). decompose [and] X. clear X.
      assert (AR : dle (Fin 0) (se_acc_ref (s_se E s1)) = true).
      { rewrite S1. destruct A as (pre & m & mid & h0 & hr & A). tauto. }
      assert (Hi : s_inner_on E s1 = false \/ inner_descends).
      { destruct Hinner as [Hi|Hi]; auto. left. destruct (s_inner_on E s1) eqn:Y; auto.
        rewrite On in Hi; congruence. }
      match goal with D : do_inner _ _ _ _ _ _ _ _ _ = _, K : compute_candidate _ _ _ _ = _ |- _ =>
        destruct (accepted_step _ _ _ _ _ _ _ _ _ _ _ _ _ (s_se E s1) Hi (candidate_cost _ _ _ _ _ _ K) ltac:(eassumption) Hmr AR D Ac) as (P1 & P2 & P3);
        pose proof (inner_on_mono _ _ _ _ _ _ _ _ _ _ _ _ _ D) as Om end.
      assert (xc = c). { eapply Hcons; [exact P1|]. eapply evaluate_gradient_jac; eauto. }
      subst xc.
      assert (Hh : hist s2 = hist s ++ [c]).
      { unfold hist at 1. unfold finalize_book. cbn [TrustRegionModel.s_accepted].
        match goal with X : is_successful _ = true |- _ => rewrite X end.
        rewrite map_app. simpl. congruence. }
      assert (P4 : dlt c (se_cur (s_se E s1)) = true \/ dlt c (se_ref (s_se E s1)) = true).
      { destruct P3 as [P3|P3]; auto. left. rewrite S1, C, <- X1. auto. }
      split; [split|].
      * rewrite Hh. match goal with X : s_se E s2 = _ |- _ => rewrite X end.
        rewrite S1 in *. apply seinv_accept; auto.
      * match goal with X : s_se E s2 = _ |- _ => rewrite X end. rewrite se_accept_cur. congruence.
      * intros Y. apply On. rewrite <- O1. apply Om. congruence.
      * match goal with X : s_se E s2 = _ |- _ => rewrite X end. rewrite se_accept_max. congruence.
    + decompose [and] X. clear X.
      assert (Hh : hist s2 = hist s).
      { unfold hist at 1. unfold finalize_book. cbn [TrustRegionModel.s_accepted].
        match goal with X : is_successful _ = false |- _ => rewrite X end. congruence. }
      split; [split|]; try congruence.
      intros Y. apply On. rewrite <- O1.
      match goal with D : do_inner _ _ _ _ _ _ _ _ _ = _ |- _ =>
        eapply (inner_on_mono _ _ _ _ _ _ _ _ _ _ _ _ _ D) end. congruence.
Qed.

Lemma loop_acc : forall fuel s r, accinv s -> loop fuel s = Some r ->
  goodhist (se_max (s_se E s)) (map snd (s_accepted E r)).
Proof.
  intros fuel s r A L.
  apply (loop_inv E Op (fun x => accinv x /\ se_max (s_se E x) = se_max (s_se E s))
           (fun x => goodhist (se_max (s_se E s)) (map snd (s_accepted E x)))) with (fuel := fuel) (s := s); auto.
  - intros s0 s1 [A0 M0] F. destruct (finalize_shape E Op s0 s1 false F) as (t & -> & _ & _).
    rewrite <- M0. apply seinv_good. apply (ai_se _ A0).
  - intros s0 s1 s2 [A0 M0] F B. destruct (body_acc _ _ _ A0 F B). split; congruence.
  - intros s0 s1 s2 [A0 M0] F B. destruct (finalize_shape E Op s0 s1 true F) as (t & -> & _ & _).
    assert (Ha : s_accepted E s2 = s_accepted E (finalize_book E s0)).
    { apply body_cases in B. inversion B; auto. }
    rewrite Ha, <- M0. apply seinv_good. apply (ai_se _ A0).
Qed.

End Acc.

(** ** Feasibility (C27) *)
Section Feas.
Variable box : pt E -> Prop.
Hypothesis Hplus : forall x d y, ev_plus E x d = (true, y) -> box y.
Hypothesis Hin : forall k y, box y -> box (inner E k y).
Hypothesis Hmr : dle (Fin 0) (o_min_rel Op) = true.

Definition feas (s : state) : Prop :=
  box (s_x E s) /\ box (s_params E s) /\ forall y d, In (y, d) (s_accepted E s) -> box y.
Definition feas_end (s : state) : Prop :=
  box (s_params E s) /\ forall y d, In (y, d) (s_accepted E s) -> box y.

Lemma finalize_feas : forall s s1 go, feas s -> finalize s = (s1, go) -> feas s1.
Proof.
  intros s s1 go (A & B & C) F. destruct (finalize_shape E Op s s1 go F) as (t & -> & _ & _).
  unfold feas, finalize_book. simpl. split; auto. split.
  - destruct (is_successful _ && dlt _ _); auto.
  - destruct (is_successful _); auto. intros y d Y. apply in_app_iff in Y.
    destruct Y as [Y|[Y|[]]]; eauto. inversion Y; subst; auto.
Qed.

Lemma not_max_accept : forall se c mcc, dle DBL_MAX c = true -> dlt (o_min_rel Op) (step_quality se c mcc) = false.
Proof.
  intros se c mcc M. unfold step_quality. rewrite M.
  destruct (dlt (o_min_rel Op) DBL_LOWEST) eqn:X; auto.
  pose proof (dlt0_trans _ _ Hmr X). discriminate.
Qed.

Lemma candidate_box : forall x d t y c t1, compute_candidate E x d t = (y, c, t1) ->
  dle DBL_MAX c = true \/ box y.
Proof.
  intros x d t y c t1. unfold compute_candidate. destruct (ev_plus E x d) as [[] z] eqn:P.
  - intros Y; inversion Y; subst. right. eapply Hplus; eauto.
  - intros Y; inversion Y; subst; auto.
Qed.

Lemma accept_box : forall k xc on y0 c0 mcc0 t1 y c mcc on' useful t2 se,
  dle DBL_MAX c0 = true \/ box y0 ->
  do_inner E Op k xc on y0 c0 mcc0 t1 = (y, c, mcc, on', useful, t2) ->
  useful = true \/ dlt (o_min_rel Op) (step_quality se c mcc) = true -> box y.
Proof.
  intros until se. intros B D A. unfold do_inner in D.
  destruct (dle DBL_MAX c0) eqn:M.
  - rewrite orb_true_r in D. inversion D; subst. rewrite not_max_accept in A by auto. destruct A; discriminate.
  - destruct B as [B|B]; [discriminate|]. destruct (negb on || false); [inversion D; subst; auto|].
    destruct (ev_cost E (inner E k y0)); inversion D; subst; auto.
Qed.

Lemma loop_feas : forall fuel s r, feas s -> loop fuel s = Some r -> feas_end r.
Proof.
  apply (loop_inv E Op feas feas_end).
  - intros s s1 A F. destruct (finalize_feas _ _ _ A F) as (_ & X). auto.
  - intros s s1 s2 A F B. destruct (finalize_feas _ _ _ A F) as (P & Q & R).
    apply body_cases in B. inversion B; subst; unfold feas.
    + repeat match goal with X : _ E s2 = _ E s1 |- _ => rewrite X; clear X end. auto.
    + match goal with Z : _ \/ _ |- _ => destruct Z as [X|[X|[X|X]]] end; try (destruct X; discriminate).
      * destruct X as (_ & Ac & xc & j & g & X). decompose [and] X. clear X.
        match goal with D : do_inner _ _ _ _ _ _ _ _ _ = _, K : compute_candidate _ _ _ _ = _ |- _ =>
          pose proof (accept_box _ _ _ _ _ _ _ _ _ _ _ _ _ _ (candidate_box _ _ _ _ _ _ K) D Ac) end.
        repeat match goal with X : ?f E s2 = _ |- _ => rewrite X; clear X end. auto.
      * decompose [and] X. repeat match goal with X : ?f E s2 = _ |- _ => rewrite X; clear X end. auto.
  - intros s s1 s2 A F B. destruct (finalize_feas _ _ _ A F) as (P & Q & R).
    apply body_cases in B. inversion B; subst; unfold feas_end;
    repeat match goal with X : _ E s2 = _ E s1 |- _ => rewrite X; clear X end; auto.
Qed.
End Feas.

(** ** Evaluation callback (C32) *)
Section Eval.
Hypothesis Hset : forall x c, ev_cost E x = Some c -> ev_set E x = true.
Hypothesis Hmr : dle (Fin 0) (o_min_rel Op) = true.

Lemma honest_true : forall t (x : pt E), same_point_honest t -> same_point_honest (t ++ [(x, true)]).
Proof.
  intros t x H pre y post X. apply snoc_split in X. destruct X as [(_ & X & _)|(b & -> & X)]; [discriminate|].
  eapply H; eauto.
Qed.
Lemma honest_prepare_true : forall t x, same_point_honest t -> same_point_honest (prepare E x true t).
Proof. intros t x H. unfold prepare. destruct (ev_set E x); auto. apply honest_true; auto. Qed.
Lemma honest_fold : forall l t, same_point_honest t ->
  same_point_honest (fold_left (fun t z => prepare E z true t) l t).
Proof. induction l; simpl; auto. intros. apply IHl, honest_prepare_true; auto. Qed.
Lemma honest_false : forall t (x : pt E) b, same_point_honest (t ++ [(x, b)]) ->
  same_point_honest ((t ++ [(x, b)]) ++ [(x, false)]).
Proof.
  intros t x b H pre y post X. apply snoc_split in X.
  destruct X as [(-> & X & ->)|(b' & -> & X)]; [|eapply H; eauto].
  inversion X; subst. eauto.
Qed.

Definition tr_ok (s : state) : Prop := same_point_honest (s_trace E s) /\ s_inner_on E s = false.

Lemma loop_trace : forall fuel s r, tr_ok s -> loop fuel s = Some r -> same_point_honest (s_trace E r).
Proof.
  assert (Step : forall x d t t0 y0 c0 t1 k xc mcc0 y c mcc on useful t2 se,
    same_point_honest t -> t0 = t -> compute_candidate E x d t0 = (y0, c0, t1) ->
    do_inner E Op k xc false y0 c0 mcc0 t1 = (y, c, mcc, on, useful, t2) ->
    same_point_honest t2 /\ on = false /\
    (useful = true \/ dlt (o_min_rel Op) (step_quality se c mcc) = true -> same_point_honest (prepare E y false t2))).
  { intros until se. intros H -> C D. unfold do_inner in D. simpl in D. inversion D; subst. clear D.
    unfold compute_candidate in C. destruct (ev_plus E x d) as [[] z] eqn:P; inversion C; subst; clear C.
    - split; [apply honest_prepare_true; auto|]. split; auto. intros [X|X]; [discriminate|].
      destruct (ev_cost E y) eqn:Ec.
      + unfold prepare. rewrite (Hset _ _ Ec). apply honest_false. apply honest_true; auto.
      + rewrite not_max_accept in X by auto. discriminate.
    - split; auto. split; auto. intros [X|X]; [discriminate|].
      rewrite not_max_accept in X by auto. discriminate. }
  apply (loop_inv E Op tr_ok (fun r => same_point_honest (s_trace E r))).
  - intros s s1 [A _] F. destruct (finalize_shape E Op s s1 false F) as (t & -> & _ & _). exact A.
  - intros s s1 s2 [A On] F B. destruct (finalize_shape E Op s s1 true F) as (t & -> & _ & _).
    apply body_cases in B. unfold tr_ok. inversion B; subst.
    + repeat match goal with X : ?f E s2 = _ |- _ => rewrite X; clear X end. auto.
    + match goal with D : do_inner _ _ _ _ _ _ _ _ _ = _ |- _ => cbn in D; rewrite On in D end.
      match goal with D : do_inner _ _ _ _ _ _ _ _ _ = _, K : compute_candidate _ _ _ _ = _ |- _ =>
        destruct (Step _ _ _ _ _ _ _ _ _ _ _ _ _ _ _ _ (s_se E s) (honest_fold visited _ A) eq_refl K D) as (P1 & P2 & P3) end.
      match goal with Z : _ \/ _ |- _ => destruct Z as [X|[X|[X|X]]] end; try (destruct X; discriminate).
      * destruct X as (_ & Ac & xc & j & g & X). decompose [and] X. clear X.
        match goal with T : s_trace E s2 = _ |- _ => rewrite T end. split; [apply P3; auto|congruence].
      * decompose [and] X. match goal with T : s_trace E s2 = _ |- _ => rewrite T end. split; auto; congruence.
  - intros s s1 s2 [A On] F B. destruct (finalize_shape E Op s s1 true F) as (t & -> & _ & _).
    apply body_cases in B. inversion B; subst.
    + repeat match goal with X : ?f E s2 = _ |- _ => rewrite X; clear X end. auto.
    + match goal with D : do_inner _ _ _ _ _ _ _ _ _ = _ |- _ => cbn in D; rewrite On in D end.
      match goal with D : do_inner _ _ _ _ _ _ _ _ _ = _, K : compute_candidate _ _ _ _ = _ |- _ =>
        destruct (Step _ _ _ _ _ _ _ _ _ _ _ _ _ _ _ _ (s_se E s) (honest_fold visited _ A) eq_refl K D) as (P1 & P2 & P3) end.
      match goal with Z : _ \/ _ |- _ => destruct Z as [X|[X|[X|X]]] end.
      * decompose [and] X. match goal with T : s_trace E s2 = _ |- _ => rewrite T end. auto.
      * decompose [and] X. match goal with T : s_trace E s2 = _ |- _ => rewrite T end. apply P3; auto.
      * destruct X; discriminate.
      * destruct X; discriminate.
Qed.
End Eval.
End P.
