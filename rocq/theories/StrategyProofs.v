(** Proofs for the Levenberg-Marquardt strategy. *)
Require Import List ZArith Lia Bool.
From Verif Require Import Dbl DblArith DblArithProofs DblArithProofs2 TrustRegionModel StrategyModel StrategySpec.
Import ListNotations.
Open Scope Z_scope.

(** ** constants *)
Lemma dz2 : dz 2 = Fin (2 * ONEU). Proof. vm_compute. reflexivity. Qed.
Lemma dz1 : dz 1 = Fin ONEU. Proof. vm_compute. reflexivity. Qed.
Lemma dzm1 : dz (-1) = Fin (- ONEU). Proof. vm_compute. reflexivity. Qed.
Definition THIRD : Z := Eval vm_compute in match dq 1 3 with Fin z => z | _ => 0 end.
Lemma dq13 : dq 1 3 = Fin THIRD. Proof. vm_compute. reflexivity. Qed.
Lemma THIRD_pos : 0 < THIRD. Proof. reflexivity. Qed.
Lemma THIRD_lt : THIRD <= ONEU. Proof. vm_compute. discriminate. Qed.
Lemma THIRD_close : ONEU * 2 ^ 53 <= 3 * THIRD * (2 ^ 53 + 1). Proof. vm_compute. discriminate. Qed.
Lemma THIRD_close2 : 3 * THIRD <= ONEU. Proof. vm_compute. discriminate. Qed.
#[global] Opaque dz dq ONEU THIRD MAXU.

Lemma rnd_nonneg : forall n d, 0 < d -> 0 <= n -> dle (Fin 0) (rnd n d) = true.
Proof.
  intros n d D N. replace (Fin 0) with (rnd 0 1) by reflexivity. apply rnd_mono; lia.
Qed.

Lemma ddiv_fin : forall u w, 0 < w -> ddiv (Fin u) (Fin w) = rnd (u * ONEU) w.
Proof.
  intros u w W. unfold ddiv. destruct (Z.eqb_spec w 0); [lia|]. destruct (Z.ltb_spec 0 w); [auto|lia].
Qed.

(** x / w decreases in w *)
Lemma ddiv_anti : forall x w1 w2, dle (Fin 0) x = true -> 0 < w1 -> w1 <= w2 ->
  dle (ddiv x (Fin w2)) (ddiv x (Fin w1)) = true.
Proof.
  intros [| | u |] w1 w2 X W1 L; try discriminate.
  - rewrite !ddiv_fin by lia. pose proof ONEU_pos. apply Z.leb_le in X.
    apply rnd_mono; try lia. nia.
  - unfold ddiv. destruct (Z.ltb_spec w2 0); [lia|]. destruct (Z.ltb_spec w1 0); [lia|]. reflexivity.
Qed.

Lemma rnd_scale : forall n d k, 0 < k -> 0 < d -> rnd (n * k) (d * k) = rnd n d.
Proof.
  intros n d k K D. unfold rnd.
  destruct (Z.leb_spec 0 (n * k)); destruct (Z.leb_spec 0 n); try nia; rewrite !rnd_pos_rv.
  - rewrite rv_scale; auto.
  - replace (- (n * k)) with (- n * k) by lia. rewrite rv_scale; auto.
Qed.
Lemma rnd_scale1 : forall n k, 0 < k -> rnd (n * k) k = rnd n 1.
Proof. intros n k K. pose proof (rnd_scale n 1 k K ltac:(lia)) as H. rewrite Z.mul_1_l in H. exact H. Qed.

Lemma ddiv_one : forall x, dvalid x -> ddiv x (dz 1) = x.
Proof.
  intros [| | u |] V; rewrite dz1; auto.
  rewrite ddiv_fin by apply ONEU_pos. rewrite rnd_scale1 by apply ONEU_pos. exact V.
Qed.

Lemma dmin_le_l : forall a b, a <> NaN -> dle (dmin a b) a = true.
Proof. intros a b H. unfold dmin. destruct (dlt b a) eqn:E; [apply dlt_le; auto|apply dle_refl; auto]. Qed.
Lemma dmin_le_r : forall a b, a <> NaN -> b <> NaN -> dle (dmin a b) b = true.
Proof. intros a b A B. unfold dmin. destruct (dlt b a) eqn:E; [apply dle_refl; auto|]. apply dlt_false_le; auto. Qed.
Lemma dmin_glb : forall a b c, dle c a = true -> dle c b = true -> dle c (dmin a b) = true.
Proof. intros a b c A B. unfold dmin. destruct (dlt b a); auto. Qed.
Lemma dle_not_nan : forall a b, dle a b = true -> a <> NaN /\ b <> NaN.
Proof. intros [| | |] [| | |]; simpl; try discriminate; split; discriminate. Qed.
Lemma dmin_mono : forall m a b, m <> NaN -> dle a b = true -> dle (dmin m a) (dmin m b) = true.
Proof.
  intros m a b M L. destruct (dle_not_nan _ _ L).
  apply dmin_glb. apply dmin_le_l; auto. eapply dle_trans; [apply dmin_le_r|]; auto.
Qed.

(** ** the divisor of StepAccepted *)
Section P.
Variable pow3 : dbl -> dbl.
Hypothesis P3 : pow3_ok pow3.

Definition divisor (q : dbl) : dbl :=
  dmax (dq 1 3) (dsub (dz 1) (pow3 (dsub (dmul (dz 2) q) (dz 1)))).

Lemma dmul2_mono : forall a b, dle (Fin 0) a = true -> dle a b = true -> dle (dmul (dz 2) a) (dmul (dz 2) b) = true.
Proof.
  rewrite dz2. pose proof ONEU_pos as ON.
  assert (S2 : inf_of_sign (2 * ONEU) = PInf). { destruct ONEU; try lia; reflexivity. }
  intros [| | x |] [| | y |] A L; try discriminate; cbn [dmul]; rewrite ?S2; auto.
  - simpl in L. apply Z.leb_le in L. apply rnd_mono; try lia. nia.
  - pose proof (rnd_not_nan (2 * ONEU * x) ONEU). destruct (rnd (2 * ONEU * x) ONEU); auto; congruence.
Qed.

Lemma dsub1_mono : forall a b, dle a b = true -> dle (dsub a (dz 1)) (dsub b (dz 1)) = true.
Proof.
  intros a b L. unfold dsub. rewrite dz1. cbn [dneg]. destruct (dle_not_nan _ _ L).
  apply dadd_mono; auto; try discriminate; intros X; apply dadd_nan_inv in X; decompose [or and] X; try congruence; discriminate.
Qed.

Lemma oneminus_anti : forall a b, dle a b = true -> dle (dsub (dz 1) b) (dsub (dz 1) a) = true.
Proof.
  rewrite dz1. intros [| | x |] [| | y |] L; try discriminate; unfold dsub; cbn [dneg dadd]; auto.
  1,3: match goal with |- context [rnd ?a ?b] => pose proof (rnd_not_nan a b); destruct (rnd a b); auto; congruence end.
  simpl in L. apply Z.leb_le in L. apply rnd_mono; lia.
Qed.

Lemma dmax_mono : forall m a b, m <> NaN -> dle a b = true -> dle (dmax m a) (dmax m b) = true.
Proof.
  intros m a b M L. destruct (dle_not_nan _ _ L). unfold dmax.
  destruct (dlt m a) eqn:A; destruct (dlt m b) eqn:B; auto.
  - apply dlt_false_le in B; auto. eapply dle_trans; eauto.
  - apply dlt_le; auto.
  - apply dle_refl; auto.
Qed.

Lemma third_not_nan : dq 1 3 <> NaN. Proof. rewrite dq13. discriminate. Qed.

(** better quality, smaller divisor *)
Lemma divisor_anti : forall q1 q2, dle (Fin 0) q1 = true -> dle q1 q2 = true ->
  dle (divisor q2) (divisor q1) = true.
Proof.
  intros q1 q2 Q L. unfold divisor. apply dmax_mono; [apply third_not_nan|].
  apply oneminus_anti, (p3_mono _ P3), dsub1_mono, dmul2_mono; auto.
Qed.

Lemma val0 : dsub (dmul (dz 2) (Fin 0)) (dz 1) = dz (-1). Proof. vm_compute. reflexivity. Qed.
Lemma valh : dsub (dmul (dz 2) (dq 1 2)) (dz 1) = Fin 0. Proof. vm_compute. reflexivity. Qed.
Lemma val1 : dsub (dmul (dz 2) (dz 1)) (dz 1) = dz 1. Proof. vm_compute. reflexivity. Qed.
Lemma divisor_0 : divisor (Fin 0) = dz 2.
Proof. unfold divisor. rewrite val0, (p3_m1 _ P3). vm_compute. reflexivity. Qed.
Lemma divisor_half : divisor (dq 1 2) = dz 1.
Proof. unfold divisor. rewrite valh, (p3_0 _ P3). vm_compute. reflexivity. Qed.
Lemma divisor_1 : divisor (dz 1) = dq 1 3.
Proof. unfold divisor. rewrite val1, (p3_1 _ P3). vm_compute. reflexivity. Qed.

Lemma divisor_fin : forall q, dlt (Fin 0) q = true ->
  exists w, divisor q = Fin w /\ THIRD <= w <= 2 * ONEU.
Proof.
  intros q Q.
  pose proof (divisor_anti (Fin 0) q eq_refl (dlt_le _ _ Q)) as U.
  rewrite divisor_0, dz2 in U.
  assert (L : dle (dq 1 3) (divisor q) = true).
  { unfold divisor, dmax. destruct (dlt (dq 1 3) _) eqn:E; [apply dlt_le; auto|apply dle_refl, third_not_nan]. }
  rewrite dq13 in L. destruct (divisor q) as [| | w |]; cbn [dle] in U, L; try discriminate.
  exists w. split; auto. apply Z.leb_le in U, L. lia.
Qed.

Definition accepted_radius (m : dbl) (q r : dbl) : dbl := dmin m (ddiv r (divisor q)).

Lemma lm_accepted_radius : forall o q s s', lm_accepted pow3 o q s = Some s' ->
  dlt (Fin 0) q = true /\ s' = mkLM (accepted_radius (lo_max o) q (lm_radius s)) (dz 2) false (lm_diag s).
Proof.
  intros o q s s'. unfold lm_accepted. destruct (dlt (Fin 0) q) eqn:E; [|discriminate].
  intros X. injection X as <-. auto.
Qed.

Lemma div_not_nan : forall q r, dlt (Fin 0) q = true -> dle (Fin 0) r = true ->
  dle (Fin 0) (ddiv r (divisor q)) = true.
Proof.
  intros q r Q R. destruct (divisor_fin q Q) as (w & -> & W1 & W2). pose proof THIRD_pos.
  destruct r as [| | u |]; try discriminate.
  - rewrite ddiv_fin by lia. apply rnd_nonneg; try lia. apply Z.leb_le in R. pose proof ONEU_pos. nia.
  - cbn [ddiv]. destruct (Z.ltb_spec w 0); [lia|reflexivity].
Qed.

Lemma accepted_mono : forall m q1 q2 r, m <> NaN -> dle (Fin 0) r = true ->
  dlt (Fin 0) q1 = true -> dle q1 q2 = true ->
  dle (accepted_radius m q1 r) (accepted_radius m q2 r) = true.
Proof.
  intros m q1 q2 r M R Q L. unfold accepted_radius. apply dmin_mono; auto.
  assert (Q2 : dlt (Fin 0) q2 = true). { destruct q1, q2; simpl in *; try discriminate; auto. lia. }
  pose proof (divisor_anti q1 q2 (dlt_le _ _ Q) L) as A.
  destruct (divisor_fin q1 Q) as (w1 & E1 & W1 & W2). destruct (divisor_fin q2 Q2) as (w2 & E2 & W3 & W4).
  rewrite E1, E2 in *. simpl in A. apply Z.leb_le in A. pose proof THIRD_pos. apply ddiv_anti; auto; lia.
Qed.

Lemma accepted_within : forall m q r, dle (Fin 0) m = true -> dle (Fin 0) r = true -> dlt (Fin 0) q = true ->
  within m (accepted_radius m q r).
Proof.
  intros m q r M R Q. destruct (dle_not_nan _ _ M). split.
  - apply dmin_glb; auto. apply div_not_nan; auto.
  - apply dmin_le_l; auto.
Qed.

Lemma accepted_good : forall m q r, m <> NaN -> dle (Fin 0) r = true -> dvalid r -> dlt (Fin 0) q = true ->
  dle (dq 1 2) q = true -> dle (dmin m r) (accepted_radius m q r) = true.
Proof.
  intros m q r M R V Q H. apply dmin_mono; auto.
  rewrite <- (ddiv_one r V) at 1.
  pose proof (divisor_anti (dq 1 2) q ltac:(vm_compute; reflexivity) H) as A. rewrite divisor_half in A.
  destruct (divisor_fin q Q) as (w & E & W1 & W2). rewrite E in *. rewrite dz1 in *.
  simpl in A. apply Z.leb_le in A. pose proof THIRD_pos. apply ddiv_anti; auto; lia.
Qed.

Lemma accepted_poor : forall m q r, m <> NaN -> dle (Fin 0) r = true -> dvalid r -> dlt (Fin 0) q = true ->
  dle q (dq 1 2) = true -> dle (accepted_radius m q r) r = true.
Proof.
  intros m q r M R V Q H.
  eapply dle_trans; [apply dmin_le_r; auto; apply (dle_not_nan _ _ (div_not_nan q r Q R))|].
  rewrite <- (ddiv_one r V) at 2.
  pose proof (divisor_anti q (dq 1 2) (dlt_le _ _ Q) H) as A. rewrite divisor_half in A.
  destruct (divisor_fin q Q) as (w & E & W1 & W2). rewrite E in *. rewrite dz1 in *.
  simpl in A. apply Z.leb_le in A. pose proof ONEU_pos. apply ddiv_anti; auto; lia.
Qed.

Lemma accepted_halves_at_most : forall m q r, m <> NaN -> dle (Fin 0) r = true -> dlt (Fin 0) q = true ->
  dle (dmin m (ddiv r (dz 2))) (accepted_radius m q r) = true.
Proof.
  intros m q r M R Q. apply dmin_mono; auto.
  destruct (divisor_fin q Q) as (w & E & W1 & W2). rewrite E, dz2.
  pose proof THIRD_pos. apply ddiv_anti; auto; lia.
Qed.

Lemma accepted_triples_at_most : forall m q r, m <> NaN -> dle (Fin 0) r = true -> dlt (Fin 0) q = true ->
  dle (accepted_radius m q r) (ddiv r (dq 1 3)) = true.
Proof.
  intros m q r M R Q. destruct (divisor_fin q Q) as (w & E & W1 & W2). pose proof THIRD_pos.
  eapply dle_trans; [apply dmin_le_r; auto; apply (dle_not_nan _ _ (div_not_nan q r Q R))|].
  rewrite E, dq13. apply ddiv_anti; auto; lia.
Qed.

End P.

(** dividing by the double nearest to 1/3 multiplies by 3, up to rounding *)
Lemma third_bound : forall u v, 0 <= u -> v <= MAXU -> dle (Fin v) (ddiv (Fin u) (dq 1 3)) = true ->
  2 ^ 51 * v <= (3 * 2 ^ 51 + 2) * u + 2 ^ 51.
Proof.
  intros u v U VM. rewrite dq13, ddiv_fin by apply THIRD_pos.
  pose proof ONEU_pos as ON. pose proof THIRD_pos as TP.
  unfold rnd. destruct (Z.leb_spec 0 (u * ONEU)); [|nia].
  rewrite rnd_pos_rv. intros V.
  assert (VV : v <= rv (u * ONEU) THIRD).
  { destruct (Z.ltb_spec MAXU (rv (u * ONEU) THIRD)); [lia|]. apply Z.leb_le in V. auto. }
  clear V.
  pose proof (rv_error (u * ONEU) THIRD TP H) as R.
  pose proof THIRD_close as C.
  set (w := rv (u * ONEU) THIRD) in *.
  set (n := u * ONEU) in *.
  assert (NB : n * 2 ^ 53 <= 3 * u * THIRD * (2 ^ 53 + 1)) by (unfold n; nia).
  assert (R2 : 2 ^ 53 * (w * THIRD) <= 2 ^ 53 * n + n + 2 ^ 52 * THIRD) by lia.
  assert (R3 : 2 ^ 106 * (w * THIRD) <= (2 ^ 53 + 1) * (3 * u * THIRD * (2 ^ 53 + 1)) + 2 ^ 105 * THIRD).
  { change (2 ^ 106) with (2 ^ 53 * 2 ^ 53). change (2 ^ 105) with (2 ^ 53 * 2 ^ 52). nia. }
  assert (R4 : 2 ^ 106 * w <= (2 ^ 53 + 1) * (3 * u * (2 ^ 53 + 1)) + 2 ^ 105) by nia.
  change (2 ^ 106) with (2 ^ 55 * 2 ^ 51) in R4. lia.
Qed.

Lemma valid_le_max : forall z, dvalid (Fin z) -> z <= MAXU.
Proof.
  intros z V. simpl in V. unfold rnd in V. destruct (Z.leb_spec 0 z); [|pose proof MAXU_pos; lia].
  rewrite rnd_pos_rv in V. destruct (Z.ltb_spec MAXU (rv z 1)); [discriminate|]. injection V as V. lia.
Qed.

(** ** rejections *)
Lemma double_pow : forall k, 0 <= k <= 1021 ->
  dmul (Fin (2 ^ k * ONEU)) (dz 2) = Fin (2 ^ (k + 1) * ONEU).
Proof.
  intros k K. rewrite dz2. cbn [dmul]. pose proof ONEU_pos as ON.
  assert (P : 0 < 2 ^ k) by (apply pow_pos'; lia).
  unfold rnd. destruct (Z.leb_spec 0 (2 ^ k * ONEU * (2 * ONEU))); [|nia].
  rewrite rnd_pos_rv.
  replace (2 ^ k * ONEU * (2 * ONEU)) with (2 ^ (k + 1) * ONEU * ONEU) by (rewrite Z.pow_add_r by lia; ring).
  replace (rv (2 ^ (k + 1) * ONEU * ONEU) ONEU) with (2 ^ (k + 1) * ONEU).
  2:{ pose proof (rv_scale (2 ^ (k + 1) * ONEU) 1 ONEU ON ltac:(lia)) as RS. rewrite Z.mul_1_l in RS. rewrite RS.
      replace (2 ^ (k + 1) * ONEU) with (1 * 2 ^ (k + 1 + 1074)).
      2:{ rewrite Z.pow_add_r by lia. change (2 ^ 1074) with ONEU. lia. }
      rewrite rv_exact; lia. }
  assert (2 ^ (k + 1) * ONEU <= MAXU).
  { transitivity (2 ^ 1022 * ONEU).
    - apply Z.mul_le_mono_nonneg_r; [lia|]. apply Z.pow_le_mono_r; lia.
    - vm_compute. discriminate. }
  destruct (Z.ltb_spec MAXU (2 ^ (k + 1) * ONEU)); [lia|auto].
Qed.

Lemma div_pow_exact : forall z k, 0 <= k -> dvalid (Fin (z * 2 ^ k)) -> dvalid (Fin z) ->
  ddiv (Fin (z * 2 ^ k)) (Fin (2 ^ k * ONEU)) = Fin z.
Proof.
  intros z k K _ V. pose proof ONEU_pos as ON. pose proof (pow_pos' k K).
  rewrite ddiv_fin by nia.
  replace (z * 2 ^ k * ONEU) with (z * (2 ^ k * ONEU)) by ring.
  rewrite rnd_scale1 by nia. exact V.
Qed.

(** a quotient of a valid double by a power of two is valid when exact and the
    number has at most 53 bits *)
Lemma valid_quotient : forall z k, 0 <= k -> 0 <= z -> dvalid (Fin (z * 2 ^ k)) -> dvalid (Fin z).
Proof.
  intros z k K Z0 V. simpl in *. pose proof (pow_pos' k K) as PK.
  destruct (Z.eq_dec z 0) as [->|NZ]; [reflexivity|].
  unfold rnd in *. destruct (Z.leb_spec 0 (z * 2 ^ k)); [|nia]. destruct (Z.leb_spec 0 z); [|lia].
  rewrite rnd_pos_rv in V. destruct (Z.ltb_spec MAXU (rv (z * 2 ^ k) 1)) as [|MX]; [discriminate|].
  injection V as V.
  destruct (rv_form (z * 2 ^ k) 1 ltac:(lia) ltac:(lia)) as [j [E J]]. rewrite V, Z.div_1_r in E.
  rewrite V in MX.
  set (e := ulp_exp (z * 2 ^ k)) in *. pose proof (ulp_exp_nonneg (z * 2 ^ k)) as E0. fold e in E0.
  assert (RV : rv z 1 = z).
  { destruct (Z.le_gt_cases k e) as [L|L].
    - assert (z = j * 2 ^ (e - k)).
      { replace e with (e - k + k) in E by lia. rewrite Z.pow_add_r, Z.mul_assoc in E by lia. nia. }
      rewrite H1. apply rv_exact; lia.
    - assert (j = z * 2 ^ (k - e)).
      { replace k with (k - e + e) in E at 1 by lia. rewrite Z.pow_add_r, Z.mul_assoc in E by lia.
        pose proof (pow_pos' e E0). nia. }
      assert (z <= 2 ^ 53). { pose proof (pow_pos' (k - e) ltac:(lia)). nia. }
      replace z with (z * 2 ^ 0) by (rewrite Z.pow_0_r; lia). rewrite rv_exact; rewrite ?Z.pow_0_r; lia. }
  rewrite rnd_pos_rv, RV. destruct (Z.ltb_spec MAXU z); [nia|auto].
Qed.

(** halving (or dividing by more) strictly shrinks a positive double *)
Lemma ddiv_lt : forall u k, 1 <= k -> 0 < u ->
  exists v, ddiv (Fin u) (Fin (2 ^ k * ONEU)) = (if MAXU <? v then PInf else Fin v) /\ 0 <= v < u.
Proof.
  intros u k K U. pose proof ONEU_pos as ON. pose proof (pow_pos' k ltac:(lia)) as PK.
  rewrite ddiv_fin by nia. exists (rv (u * ONEU) (2 ^ k * ONEU)).
  unfold rnd. destruct (Z.leb_spec 0 (u * ONEU)); [|nia]. rewrite rnd_pos_rv. split; auto.
  rewrite rv_scale by lia. split; [apply rv_nonneg; lia|].
  assert (P2 : 2 <= 2 ^ k). { change 2 with (2 ^ 1) at 1. apply Z.pow_le_mono_r; lia. }
  apply Z.le_lt_trans with (rv u 2). { apply rv_mono_q; try lia. nia. }
  destruct (Z.eq_dec u 1) as [->|]; [reflexivity|].
  pose proof (rv_error u 2 ltac:(lia) ltac:(lia)). lia.
Qed.

(** how far division can underflow: the result is positive unless the exact
    quotient is at most half the smallest double *)
Lemma ddiv_pos : forall u w, 0 < u -> 0 < w -> w < 2 * (u * ONEU) ->
  dlt (Fin 0) (ddiv (Fin u) (Fin w)) = true.
Proof.
  intros u w U W L. rewrite ddiv_fin by auto. pose proof ONEU_pos as ON.
  unfold rnd. destruct (Z.leb_spec 0 (u * ONEU)); [|nia]. rewrite rnd_pos_rv.
  assert (0 < rv (u * ONEU) w).
  { pose proof (rv_nonneg (u * ONEU) w H W). destruct (Z.eq_dec (rv (u * ONEU) w) 0) as [Z|]; [|lia].
    exfalso. unfold rv in Z. cbv zeta in Z. pose proof (pow_pos' _ (ulp_exp_nonneg (u * ONEU / w))) as PP.
    assert (Z2 : rne (u * ONEU) (w * 2 ^ ulp_exp (u * ONEU / w)) = 0) by nia.
    destruct (Z.eq_dec (u * ONEU / w) 0) as [Q|Q].
    - rewrite Q in Z2. change (ulp_exp 0) with 0 in Z2. rewrite Z.pow_0_r, Z.mul_1_r in Z2.
      unfold rne in Z2. rewrite Q in Z2. pose proof (Z.div_mod (u * ONEU) w ltac:(lia)) as DM. rewrite Q in DM.
      destruct (Z.ltb_spec (2 * (u * ONEU mod w)) w); [lia|].
      destruct (Z.ltb_spec w (2 * (u * ONEU mod w))); lia.
    - pose proof (Z.div_pos (u * ONEU) w H W).
      pose proof (rv_mono_q w w (u * ONEU) w W W ltac:(lia)) as MM.
      assert (RW : rv w w = 1). { pose proof (rv_scale 1 1 w W ltac:(lia)) as RS. rewrite Z.mul_1_l in RS. rewrite RS. reflexivity. }
      rewrite RW in MM. assert (w * w <= u * ONEU * w).
      { apply Z.mul_le_mono_nonneg_r; [lia|]. pose proof (Z.mul_div_le (u * ONEU) w W). nia. }
      specialize (MM H2). unfold rv in MM. cbv zeta in MM. rewrite Z2 in MM. lia. }
  destruct (MAXU <? rv (u * ONEU) w); simpl; auto. apply Z.ltb_lt; auto.
Qed.
