(** Facts about the rounded arithmetic of DblArith.v. *)
Require Import ZArith Lia Bool.
From Verif Require Import Dbl DblArith.
Open Scope Z_scope.

Lemma rne_bounds : forall n d, 0 < d -> n / d <= rne n d <= n / d + 1.
Proof. intros n d D. unfold rne. repeat match goal with |- context [if ?b then _ else _] => destruct b end; lia. Qed.

Lemma rne_nonneg : forall n d, 0 <= n -> 0 < d -> 0 <= rne n d.
Proof. intros n d N D. pose proof (rne_bounds n d D). pose proof (Z.div_pos n d N D). lia. Qed.

Lemma rne_zero : forall d, 0 < d -> rne 0 d = 0.
Proof. intros d D. unfold rne. rewrite Z.div_0_l, Z.mod_0_l by lia. replace (2 * 0 <? d) with true; auto. symmetry; apply Z.ltb_lt; lia. Qed.

Lemma rne_exact : forall n d, 0 < d -> rne (n * d) d = n.
Proof.
  intros n d D. unfold rne. rewrite Z.div_mul, Z.mod_mul by lia.
  replace (2 * 0 <? d) with true; auto. symmetry; apply Z.ltb_lt; lia.
Qed.

(** rounding an integer quotient is monotone *)
Lemma rne_mono : forall n m d, 0 < d -> n <= m -> rne n d <= rne m d.
Proof.
  intros n m d D L.
  pose proof (Z.div_le_mono n m d D L) as Q.
  destruct (Z.eq_dec (n / d) (m / d)) as [E|E].
  - unfold rne. rewrite <- E.
    pose proof (Z.div_mod n d ltac:(lia)). pose proof (Z.div_mod m d ltac:(lia)).
    rewrite E in H. assert (n mod d <= m mod d) by lia.
    destruct (Z.ltb_spec (2 * (n mod d)) d); destruct (Z.ltb_spec (2 * (m mod d)) d);
    destruct (Z.ltb_spec d (2 * (n mod d))); destruct (Z.ltb_spec d (2 * (m mod d)));
    destruct (Z.even (n / d)); lia.
  - pose proof (rne_bounds n d D). pose proof (rne_bounds m d D). lia.
Qed.

Lemma ulp_exp_nonneg : forall q, 0 <= ulp_exp q.
Proof. intros; unfold ulp_exp; lia. Qed.

Lemma pow_pos' : forall e, 0 <= e -> 0 < 2 ^ e.
Proof. intros; apply Z.pow_pos_nonneg; lia. Qed.

(** the rounded integer, before the overflow check *)
Definition rv (n d : Z) : Z := let e := ulp_exp (n / d) in rne n (d * 2 ^ e) * 2 ^ e.

Lemma pdiv_eucl_eq : forall n d, pdiv_eucl n d = (Zpos n / Zpos d, Zpos n mod Zpos d).
Proof.
  assert (B : forall n d, Z.pos_div_eucl n (Zpos d) = (Zpos n / Zpos d, Zpos n mod Zpos d)).
  { intros n d. unfold Z.div, Z.modulo. simpl Z.div_eucl. destruct (Z.pos_div_eucl n (Zpos d)). reflexivity. }
  induction n as [n IH|n IH|]; intros d; destruct d as [d|d|]; try apply B.
  cbn [pdiv_eucl]. rewrite IH. rewrite (Pos2Z.inj_xO n), (Pos2Z.inj_xO d).
  rewrite Z.div_mul_cancel_l, Z.mul_mod_distr_l by lia. reflexivity.
Qed.
Lemma fdiv_eucl_eq : forall n d, fdiv_eucl n d = (n / d, n mod d).
Proof. intros n d. destruct n, d; auto. apply pdiv_eucl_eq. Qed.
Lemma frne_eq : forall n d, frne n d = rne n d.
Proof. intros n d. unfold frne, rne. rewrite fdiv_eucl_eq. reflexivity. Qed.

Lemma rnd_pos_rv : forall n d, rnd_pos n d = if MAXU <? rv n d then PInf else Fin (rv n d).
Proof.
  intros n d. unfold rnd_pos, rv. rewrite fdiv_eucl_eq, frne_eq. cbn [fst].
  rewrite !Z.shiftl_mul_pow2 by apply ulp_exp_nonneg. reflexivity.
Qed.

Lemma rv_nonneg : forall n d, 0 <= n -> 0 < d -> 0 <= rv n d.
Proof.
  intros n d N D. unfold rv. cbv zeta.
  pose proof (pow_pos' _ (ulp_exp_nonneg (n / d))).
  apply Z.mul_nonneg_nonneg; [|lia]. apply rne_nonneg; auto. nia.
Qed.

Lemma rv_zero : forall d, 0 < d -> rv 0 d = 0.
Proof.
  intros d D. unfold rv. cbv zeta.
  pose proof (pow_pos' _ (ulp_exp_nonneg (0 / d))). rewrite rne_zero; nia.
Qed.

(** an integer number of units that is positive stays positive *)
Lemma rv_pos1 : forall n, 0 < n -> 0 < rv n 1.
Proof.
  intros n N. unfold rv. cbv zeta. rewrite Z.div_1_r, Z.mul_1_l.
  set (e := ulp_exp n). pose proof (ulp_exp_nonneg n) as E. fold e in E.
  pose proof (pow_pos' e E).
  assert (1 <= n / 2 ^ e).
  { apply Z.div_le_lower_bound; auto. rewrite Z.mul_1_r.
    pose proof (Z.log2_spec n N) as [L _].
    assert (e <= Z.log2 n). { unfold e, ulp_exp. pose proof (Z.log2_nonneg n). lia. }
    transitivity (2 ^ Z.log2 n); auto. apply Z.pow_le_mono_r; lia. }
  pose proof (rne_bounds n (2 ^ e) H). nia.
Qed.

Lemma dlt0_rnd_pos : forall n d, 0 < d -> dlt (Fin 0) (rnd n d) = true -> 0 < n.
Proof.
  intros n d D. unfold rnd. destruct (Z.leb_spec 0 n).
  - destruct (Z.eq_dec n 0) as [->|]; [|lia].
    rewrite rnd_pos_rv, rv_zero by auto.
    destruct (Z.ltb_spec MAXU 0) as [X|X]; [exfalso; revert X; vm_compute; discriminate|].
    simpl. discriminate.
  - rewrite rnd_pos_rv. pose proof (rv_nonneg (- n) d ltac:(lia) D).
    destruct (MAXU <? rv (- n) d); simpl; [discriminate|].
    rewrite Z.ltb_lt. lia.
Qed.

Lemma rnd1_pos : forall n, 0 < n -> dlt (Fin 0) (rnd n 1) = true.
Proof.
  intros n N. unfold rnd. destruct (Z.leb_spec 0 n); [|lia].
  rewrite rnd_pos_rv. pose proof (rv_pos1 n N).
  destruct (MAXU <? rv n 1); simpl; auto. apply Z.ltb_lt; auto.
Qed.

Lemma rnd1_zero : rnd 0 1 = Fin 0.
Proof. reflexivity. Qed.

Lemma ddiv_pos_num : forall v m, dlt (Fin 0) m = true -> dlt (Fin 0) (ddiv v m) = true ->
  dlt (Fin 0) v = true.
Proof.
  intros [| | z |] [| | u |] M Q; simpl in M; try discriminate; auto.
  - cbn [ddiv] in Q. apply Z.ltb_lt in M. destruct (Z.ltb_spec u 0); [lia|discriminate].
  - apply Z.ltb_lt in M. unfold ddiv in Q.
    destruct (Z.eqb_spec u 0); [lia|]. destruct (Z.ltb_spec 0 u); [|lia].
    apply dlt0_rnd_pos in Q; auto.
    simpl. apply Z.ltb_lt. assert (0 < ONEU) by reflexivity. nia.
Qed.

Lemma dsub_pos_lt : forall a b, dlt (Fin 0) (dsub a b) = true -> dlt b a = true.
Proof.
  intros [| | x |] [| | y |] Q; unfold dsub in Q; cbn [dneg dadd] in Q; simpl; try discriminate Q; auto.
  apply dlt0_rnd_pos in Q; [|lia]. apply Z.ltb_lt. lia.
Qed.

(** IEEE: if (a - b) / m > 0 and m > 0 then b < a, exactly. *)
Theorem quotient_pos_lt : forall a b m,
  dlt (Fin 0) m = true -> dlt (Fin 0) (ddiv (dsub a b) m) = true -> dlt b a = true.
Proof. intros a b m M Q. exact (dsub_pos_lt a b (ddiv_pos_num _ m M Q)). Qed.

Lemma dadd_pos : forall a m, dle (Fin 0) a = true -> dlt (Fin 0) m = true ->
  dlt (Fin 0) (dadd a m) = true.
Proof.
  intros [| | x |] [| | u |] A M; simpl in *; try discriminate; auto.
  rewrite Z.leb_le in A. rewrite Z.ltb_lt in M. apply rnd1_pos; lia.
Qed.

(** rounding integers is monotone *)
Lemma rv1_mono : forall n m, 0 <= n <= m -> rv n 1 <= rv m 1.
Proof.
  intros n m [N L].
  destruct (Z.eq_dec n 0) as [->|Nz].
  { rewrite rv_zero by lia. apply rv_nonneg; lia. }
  unfold rv. cbv zeta. rewrite !Z.div_1_r, !Z.mul_1_l.
  set (e := ulp_exp n). set (f := ulp_exp m).
  pose proof (ulp_exp_nonneg n) as E. fold e in E.
  pose proof (pow_pos' e E) as PE.
  pose proof (Z.log2_le_mono n m L) as LL.
  assert (EF : e <= f) by (unfold e, f, ulp_exp; lia).
  pose proof (pow_pos' f ltac:(lia)) as PF.
  destruct (Z.eq_dec e f) as [X|X].
  { rewrite <- X. apply Z.mul_le_mono_nonneg_r; [lia|]. apply rne_mono; auto. }
  (* n < 2^(53+e) <= 2^(52+f) <= m *)
  assert (F1 : f = Z.log2 m - 52) by (unfold f, ulp_exp in *; lia).
  assert (NB : n <= 2 ^ (53 + e)).
  { pose proof (Z.log2_spec n ltac:(lia)) as [_ U].
    assert (Z.succ (Z.log2 n) <= 53 + e) by (unfold e, ulp_exp; lia).
    pose proof (Z.pow_le_mono_r 2 _ _ ltac:(lia) H). lia. }
  assert (MB : 2 ^ (52 + f) <= m).
  { rewrite F1. replace (52 + (Z.log2 m - 52)) with (Z.log2 m) by lia.
    apply Z.log2_spec. lia. }
  assert (A1 : rne n (2 ^ e) <= 2 ^ 53).
  { rewrite <- (rne_exact (2 ^ 53) (2 ^ e)) by auto.
    apply rne_mono; auto. rewrite <- Z.pow_add_r by lia. auto. }
  assert (A2 : 2 ^ 52 <= rne m (2 ^ f)).
  { rewrite <- (rne_exact (2 ^ 52) (2 ^ f)) by auto.
    apply rne_mono; auto. rewrite <- Z.pow_add_r by lia. auto. }
  transitivity (2 ^ 53 * 2 ^ e); [apply Z.mul_le_mono_nonneg_r; lia|].
  transitivity (2 ^ 52 * 2 ^ f); [|apply Z.mul_le_mono_nonneg_r; lia].
  rewrite <- !Z.pow_add_r by lia. apply Z.pow_le_mono_r; lia.
Qed.

Lemma rnd1_mono : forall n m, n <= m -> dle (rnd n 1) (rnd m 1) = true.
Proof.
  intros n m L. unfold rnd.
  destruct (Z.leb_spec 0 n); destruct (Z.leb_spec 0 m); try lia.
  - rewrite !rnd_pos_rv. pose proof (rv1_mono n m ltac:(lia)).
    destruct (Z.ltb_spec MAXU (rv n 1)); destruct (Z.ltb_spec MAXU (rv m 1)); simpl; auto; try lia.
    
  - rewrite !rnd_pos_rv. pose proof (rv_nonneg (- n) 1 ltac:(lia) ltac:(lia)).
    pose proof (rv_nonneg m 1 ltac:(lia) ltac:(lia)).
    destruct (Z.ltb_spec MAXU (rv (- n) 1)); destruct (Z.ltb_spec MAXU (rv m 1)); simpl; auto; try lia.
    
  - rewrite !rnd_pos_rv. pose proof (rv1_mono (- m) (- n) ltac:(lia)).
    destruct (Z.ltb_spec MAXU (rv (- n) 1)); destruct (Z.ltb_spec MAXU (rv (- m) 1)); simpl; auto; try lia.
    
Qed.

Theorem dadd_mono : forall a b c, c <> NaN -> dle a b = true -> dadd a c <> NaN -> dadd b c <> NaN ->
  dle (dadd a c) (dadd b c) = true.
Proof.
  intros [| | x |] [| | y |] [| | z |] C L A B; simpl in *; try congruence; auto.
  all: try (apply rnd1_mono; lia).
  all: match goal with |- context [rnd ?a ?b] => destruct (rnd a b) eqn:?; auto; congruence end.
Qed.

Lemma dadd_zero_l : forall m, is_dbl m -> (forall z, m = Fin z -> rnd z 1 = Fin z) -> dadd (Fin 0) m = m.
Proof. intros [| | z |] I H; simpl; auto. Qed.

Lemma rnd_not_nan : forall n d, rnd n d <> NaN.
Proof.
  intros n d. unfold rnd. destruct (0 <=? n); rewrite rnd_pos_rv;
    match goal with |- context [if ?b then _ else _] => destruct b end; simpl; discriminate.
Qed.

Lemma rnd_pos_not_ninf : forall n d, rnd_pos n d <> NInf.
Proof. intros. rewrite rnd_pos_rv. match goal with |- context [if ?b then _ else _] => destruct b end; discriminate. Qed.

Lemma dadd_nan_inv : forall a b, dadd a b = NaN ->
  a = NaN \/ b = NaN \/ (a = PInf /\ b = NInf) \/ (a = NInf /\ b = PInf).
Proof.
  intros [| | x |] [| | y |]; cbn [dadd]; auto 6; try discriminate.
  intros H. exfalso. exact (rnd_not_nan _ _ H).
Qed.

Lemma dsub_nan_inv : forall a b, dsub a b = NaN -> dle b a = true -> a = b /\ (a = PInf \/ a = NInf).
Proof.
  intros a b H L. apply dadd_nan_inv in H.
  destruct H as [H|[H|[[H1 H2]|[H1 H2]]]].
  - subst. destruct b; discriminate.
  - destruct b; try discriminate.
  - destruct b; simpl in H2; try discriminate. auto.
  - destruct b; simpl in H2; try discriminate. auto.
Qed.
