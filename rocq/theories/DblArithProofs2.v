(** More facts about the rounded arithmetic of DblArith.v: monotonicity for
    rational values, idempotence, exactness, the rounding error. *)
Require Import ZArith Lia Bool.
From Verif Require Import Dbl DblArith DblArithProofs.
Open Scope Z_scope.

Lemma rne_scale : forall n d k, 0 < k -> 0 < d -> rne (n * k) (d * k) = rne n d.
Proof.
  intros n d k K D. unfold rne.
  rewrite Z.div_mul_cancel_r by lia. rewrite Z.mul_mod_distr_r by lia.
  replace (2 * (n mod d * k) <? d * k) with (2 * (n mod d) <? d).
  2:{ destruct (Z.ltb_spec (2 * (n mod d)) d); destruct (Z.ltb_spec (2 * (n mod d * k)) (d * k)); auto; nia. }
  replace (d * k <? 2 * (n mod d * k)) with (d <? 2 * (n mod d)); auto.
  destruct (Z.ltb_spec d (2 * (n mod d))); destruct (Z.ltb_spec (d * k) (2 * (n mod d * k))); auto; nia.
Qed.

Lemma rv_scale : forall n d k, 0 < k -> 0 < d -> rv (n * k) (d * k) = rv n d.
Proof.
  intros n d k K D. unfold rv. cbv zeta.
  rewrite Z.div_mul_cancel_r by lia.
  pose proof (pow_pos' _ (ulp_exp_nonneg (n / d))).
  replace (d * k * 2 ^ ulp_exp (n / d)) with (d * 2 ^ ulp_exp (n / d) * k) by ring.
  rewrite rne_scale; auto. nia.
Qed.

Lemma ulp_upper : forall q, 0 <= q -> q + 1 <= 2 ^ (53 + ulp_exp q).
Proof.
  intros q Q. destruct (Z.eq_dec q 0) as [->|].
  { unfold ulp_exp. simpl Z.log2. vm_compute. discriminate. }
  pose proof (Z.log2_spec q ltac:(lia)) as [_ U].
  assert (Z.succ (Z.log2 q) <= 53 + ulp_exp q) by (unfold ulp_exp; lia).
  pose proof (Z.pow_le_mono_r 2 _ _ ltac:(lia) H). lia.
Qed.

Lemma rv_mono : forall n m d, 0 < d -> 0 <= n <= m -> rv n d <= rv m d.
Proof.
  intros n m d D [N L].
  unfold rv. cbv zeta.
  pose proof (Z.div_le_mono n m d D L) as QL.
  pose proof (Z.div_pos n d N D) as QN.
  set (q := n / d) in *. set (p := m / d) in *.
  set (e := ulp_exp q). set (f := ulp_exp p).
  pose proof (ulp_exp_nonneg q) as E. fold e in E.
  pose proof (pow_pos' e E) as PE.
  pose proof (Z.log2_le_mono q p QL) as LL.
  assert (EF : e <= f) by (unfold e, f, ulp_exp; lia).
  pose proof (pow_pos' f ltac:(lia)) as PF.
  destruct (Z.eq_dec e f) as [X|X].
  { rewrite <- X. apply Z.mul_le_mono_nonneg_r; [lia|]. apply rne_mono; auto. nia. }
  assert (F1 : f = Z.log2 p - 52) by (unfold f, ulp_exp in *; lia).
  assert (P0 : 0 < p).
  { destruct (Z.eq_dec p 0) as [Z0|]; [|lia]. rewrite Z0 in F1. simpl in F1.
    unfold f in F1. rewrite Z0 in F1. vm_compute in F1. discriminate. }
  assert (NB : n <= 2 ^ (53 + e) * d).
  { pose proof (ulp_upper q QN) as U. fold e in U.
    pose proof (Z.mul_succ_div_gt n d D). fold q in H. nia. }
  assert (MB : 2 ^ (52 + f) * d <= m).
  { assert (2 ^ (52 + f) <= p).
    { rewrite F1. replace (52 + (Z.log2 p - 52)) with (Z.log2 p) by lia. apply Z.log2_spec. lia. }
    pose proof (Z.mul_div_le m d D). fold p in H0. nia. }
  assert (A1 : rne n (d * 2 ^ e) <= 2 ^ 53).
  { rewrite <- (rne_exact (2 ^ 53) (d * 2 ^ e)) by nia.
    apply rne_mono; [nia|]. rewrite (Z.mul_comm d), Z.mul_assoc, <- Z.pow_add_r by lia. auto. }
  assert (A2 : 2 ^ 52 <= rne m (d * 2 ^ f)).
  { rewrite <- (rne_exact (2 ^ 52) (d * 2 ^ f)) by nia.
    apply rne_mono; [nia|]. rewrite (Z.mul_comm d), Z.mul_assoc, <- Z.pow_add_r by lia. auto. }
  transitivity (2 ^ 53 * 2 ^ e); [apply Z.mul_le_mono_nonneg_r; lia|].
  transitivity (2 ^ 52 * 2 ^ f); [|apply Z.mul_le_mono_nonneg_r; lia].
  rewrite <- !Z.pow_add_r by lia. apply Z.pow_le_mono_r; lia.
Qed.

Lemma rv_mono_q : forall n d n' d', 0 < d -> 0 < d' -> 0 <= n -> n * d' <= n' * d -> rv n d <= rv n' d'.
Proof.
  intros n d n' d' D D' N L.
  rewrite <- (rv_scale n d d') by auto. rewrite <- (rv_scale n' d' d) by auto.
  rewrite (Z.mul_comm d' d). apply rv_mono; nia.
Qed.

Lemma MAXU_pos : 0 < MAXU. Proof. reflexivity. Qed.

(** rounding rationals is monotone *)
Theorem rnd_mono : forall n d n' d', 0 < d -> 0 < d' -> n * d' <= n' * d ->
  dle (rnd n d) (rnd n' d') = true.
Proof.
  intros n d n' d' D D' L. unfold rnd.
  destruct (Z.leb_spec 0 n); destruct (Z.leb_spec 0 n').
  - rewrite !rnd_pos_rv. pose proof (rv_mono_q n d n' d' D D' ltac:(lia) L).
    destruct (Z.ltb_spec MAXU (rv n d)); destruct (Z.ltb_spec MAXU (rv n' d')); simpl; auto; try lia.
  - exfalso. nia.
  - rewrite !rnd_pos_rv. pose proof (rv_nonneg (- n) d ltac:(lia) D).
    pose proof (rv_nonneg n' d' ltac:(lia) D').
    destruct (Z.ltb_spec MAXU (rv (- n) d)); destruct (Z.ltb_spec MAXU (rv n' d')); simpl; auto; try lia.
  - rewrite !rnd_pos_rv. pose proof (rv_mono_q (- n') d' (- n) d D' D ltac:(lia) ltac:(lia)).
    destruct (Z.ltb_spec MAXU (rv (- n) d)); destruct (Z.ltb_spec MAXU (rv (- n') d')); simpl; auto; try lia.
Qed.

(** a multiple of 2^e with at most 53 significant bits is left alone *)
Lemma rv_exact : forall k e, 0 <= e -> 0 <= k <= 2 ^ 53 -> rv (k * 2 ^ e) 1 = k * 2 ^ e.
Proof.
  intros k e E K.
  destruct (Z.eq_dec k 0) as [->|K0]. { rewrite Z.mul_0_l. apply rv_zero. lia. }
  pose proof (pow_pos' e E) as PE.
  assert (D : exists j, k * 2 ^ e = j * 2 ^ ulp_exp (k * 2 ^ e)).
  { destruct (Z.eq_dec k (2 ^ 53)) as [->|K1].
    - rewrite <- Z.pow_add_r by lia. exists (2 ^ (53 + e - ulp_exp (2 ^ (53 + e)))).
      unfold ulp_exp. rewrite Z.log2_pow2 by lia.
      rewrite <- Z.pow_add_r by lia. f_equal. lia.
    - assert (U : ulp_exp (k * 2 ^ e) <= e).
      { unfold ulp_exp. rewrite Z.log2_mul_pow2 by lia.
        assert (Z.log2 k <= 52). { assert (Z.log2 k < 53); [|lia]. apply Z.log2_lt_pow2; lia. }
        lia. }
      pose proof (ulp_exp_nonneg (k * 2 ^ e)).
      exists (k * 2 ^ (e - ulp_exp (k * 2 ^ e))).
      rewrite <- Z.mul_assoc, <- Z.pow_add_r by lia. f_equal. f_equal. lia. }
  destruct D as [j J]. unfold rv. cbv zeta. rewrite Z.div_1_r, Z.mul_1_l.
  pose proof (pow_pos' _ (ulp_exp_nonneg (k * 2 ^ e))) as P.
  set (w := 2 ^ ulp_exp (k * 2 ^ e)) in *. rewrite J.
  rewrite rne_exact; auto.
Qed.

Lemma rv_form : forall n d, 0 < d -> 0 <= n ->
  exists k, rv n d = k * 2 ^ ulp_exp (n / d) /\ 0 <= k <= 2 ^ 53.
Proof.
  intros n d D N. pose proof (pow_pos' _ (ulp_exp_nonneg (n / d))) as P.
  exists (rne n (d * 2 ^ ulp_exp (n / d))). split; [reflexivity|]. split.
  - apply rne_nonneg; auto. nia.
  - rewrite <- (rne_exact (2 ^ 53) (d * 2 ^ ulp_exp (n / d))) by nia.
    apply rne_mono; [nia|].
    rewrite (Z.mul_comm d), Z.mul_assoc, <- Z.pow_add_r by (try lia; apply ulp_exp_nonneg).
    pose proof (ulp_upper (n / d) (Z.div_pos n d N D)).
    pose proof (Z.mul_succ_div_gt n d D). nia.
Qed.

Lemma rv_idem : forall n d, 0 < d -> 0 <= n -> rv (rv n d) 1 = rv n d.
Proof.
  intros n d D N. destruct (rv_form n d D N) as [k [E K]]. rewrite E.
  apply rv_exact; auto. apply ulp_exp_nonneg.
Qed.

(** the values that are doubles *)
Definition dvalid (a : dbl) : Prop := match a with Fin z => rnd z 1 = Fin z | _ => True end.

Lemma rnd_pos_idem : forall n d z, 0 < d -> 0 <= n -> rnd_pos n d = Fin z -> 0 <= z /\ rnd_pos z 1 = Fin z.
Proof.
  intros n d z D N. rewrite !rnd_pos_rv.
  destruct (Z.ltb_spec MAXU (rv n d)); [discriminate|]. intros E; injection E as <-.
  split; [apply rv_nonneg; auto|].
  rewrite rv_idem by auto. destruct (Z.ltb_spec MAXU (rv n d)); [lia|auto].
Qed.

Lemma rnd_opp : forall n d, 0 < d -> rnd (- n) d = dneg (rnd n d).
Proof.
  intros n d D. unfold rnd.
  destruct (Z.leb_spec 0 n); destruct (Z.leb_spec 0 (- n)); try lia.
  - assert (n = 0) by lia. subst. change (- 0) with 0. rewrite rnd_pos_rv, rv_zero by auto.
    destruct (Z.ltb_spec MAXU 0) as [X|X]; [pose proof MAXU_pos; lia|]. reflexivity.
  - rewrite Z.opp_involutive. reflexivity.
  - rewrite rnd_pos_rv. destruct (MAXU <? rv (- n) d); simpl; auto. f_equal. lia.
Qed.

Theorem rnd_valid : forall n d, 0 < d -> dvalid (rnd n d).
Proof.
  intros n d D. destruct (Z.le_ge_cases 0 n) as [N|N].
  - unfold rnd. destruct (Z.leb_spec 0 n); [|lia].
    destruct (rnd_pos n d) eqn:E; simpl; auto.
    destruct (rnd_pos_idem n d units D N E) as [A B]. unfold rnd.
    destruct (Z.leb_spec 0 units); [auto|lia].
  - replace n with (- (- n)) by lia. rewrite rnd_opp by auto.
    unfold rnd at 1. destruct (Z.leb_spec 0 (- n)); [|lia].
    destruct (rnd_pos (- n) d) eqn:E; simpl; auto.
    destruct (rnd_pos_idem (- n) d units D ltac:(lia) E) as [A B].
    rewrite rnd_opp by lia. unfold rnd. destruct (Z.leb_spec 0 units); [|lia]. rewrite B. reflexivity.
Qed.

Lemma dneg_valid : forall a, dvalid a -> dvalid (dneg a).
Proof. intros [| | z |]; simpl; auto. intros V. rewrite rnd_opp, V by lia. reflexivity. Qed.

Lemma dadd_valid : forall a b, dvalid (dadd a b).
Proof. intros [| | x |] [| | y |]; simpl; auto. apply rnd_valid. lia. Qed.
Lemma dsub_valid : forall a b, dvalid (dsub a b).
Proof. intros. apply dadd_valid. Qed.
Lemma inf_of_sign_valid : forall s, dvalid (inf_of_sign s).
Proof. intros [| |]; simpl; auto. Qed.
Lemma ONEU_pos : 0 < ONEU. Proof. reflexivity. Qed.
Lemma dmul_valid : forall a b, dvalid (dmul a b).
Proof.
  intros [| | x |] [| | y |]; cbn [dmul]; try exact I; try apply inf_of_sign_valid.
  apply rnd_valid. exact ONEU_pos.
Qed.
Lemma ddiv_valid : forall a b, dvalid (ddiv a b).
Proof.
  intros [| | x |] [| | y |]; cbn [ddiv]; try exact I; try reflexivity.
  - destruct (y <? 0); exact I.
  - destruct (Z.eqb_spec y 0). apply inf_of_sign_valid.
    destruct (Z.ltb_spec 0 y); apply rnd_valid; lia.
  - destruct (y <? 0); exact I.
Qed.
Lemma dq_valid : forall n d, dvalid (dq n d).
Proof. intros. apply rnd_valid. lia. Qed.

(** a positive valid double of at least 2^(52+s) units is a multiple of 2^s *)
Lemma valid_multiple : forall z s, 0 <= s -> dvalid (Fin z) -> 2 ^ (52 + s) <= z -> exists k, z = k * 2 ^ s.
Proof.
  intros z s S V L. simpl in V. pose proof (pow_pos' (52 + s) ltac:(lia)).
  unfold rnd in V. destruct (Z.leb_spec 0 z); [|lia].
  rewrite rnd_pos_rv in V. destruct (MAXU <? rv z 1); [discriminate|]. injection V as V.
  destruct (rv_form z 1 ltac:(lia) ltac:(lia)) as [k [E _]]. rewrite V, Z.div_1_r in E.
  assert (s <= ulp_exp z).
  { unfold ulp_exp. pose proof (Z.log2_le_mono _ _ L). rewrite Z.log2_pow2 in H1 by lia. lia. }
  exists (k * 2 ^ (ulp_exp z - s)). rewrite <- Z.mul_assoc, <- Z.pow_add_r by lia.
  replace (ulp_exp z - s + s) with (ulp_exp z) by lia. auto.
Qed.

(** the rounding error: half a unit in the last place *)
Lemma rne_error : forall n d, 0 < d -> 2 * Z.abs (rne n d * d - n) <= d.
Proof.
  intros n d D. pose proof (Z.div_mod n d ltac:(lia)) as E. pose proof (Z.mod_pos_bound n d D).
  unfold rne.
  destruct (Z.ltb_spec (2 * (n mod d)) d); [|destruct (Z.ltb_spec d (2 * (n mod d)))];
    try (destruct (Z.even (n / d))); nia.
Qed.

Theorem rv_error : forall n d, 0 < d -> 0 <= n ->
  2 ^ 53 * Z.abs (rv n d * d - n) <= Z.max n (2 ^ 52 * d).
Proof.
  intros n d D N. unfold rv. cbv zeta.
  set (e := ulp_exp (n / d)). pose proof (ulp_exp_nonneg (n / d)) as E. fold e in E.
  pose proof (pow_pos' e E) as PE.
  pose proof (rne_error n (d * 2 ^ e) ltac:(nia)) as R.
  replace (rne n (d * 2 ^ e) * 2 ^ e * d) with (rne n (d * 2 ^ e) * (d * 2 ^ e)) by ring.
  set (a := Z.abs (rne n (d * 2 ^ e) * (d * 2 ^ e) - n)) in *.
  change (2 ^ 53) with (2 ^ 52 * 2).
  assert (2 ^ 52 * (d * 2 ^ e) <= Z.max n (2 ^ 52 * d)); [|nia].
  destruct (Z.eq_dec e 0) as [E0|E0].
  - rewrite E0, Z.pow_0_r. lia.
  - assert (e = Z.log2 (n / d) - 52) by (unfold e, ulp_exp in *; lia).
    assert (0 < n / d).
    { pose proof (Z.div_pos n d N D). destruct (Z.eq_dec (n / d) 0) as [X|]; [|lia].
      rewrite X in H. simpl in H. lia. }
    pose proof (Z.log2_spec (n / d) H0) as [A _].
    assert (2 ^ 52 * 2 ^ e <= n / d). { rewrite <- Z.pow_add_r by lia. replace (52 + e) with (Z.log2 (n / d)) by lia. auto. }
    pose proof (Z.mul_div_le n d D). nia.
Qed.
