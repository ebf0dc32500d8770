(* Proofs about the operations of JetModel.v, one at a time. *)

From Coq Require Import Reals List ZArith Bool Lra Lia.
From Coquelicot Require Import Coquelicot.
From Verif Require Import JetModel JetSpec.
Import ListNotations.
Local Open Scope R_scope.

(* ---------------- helpers ---------------- *)

Lemma is_derive_eq (f : R -> R) (x l l' : R) : is_derive f x l -> l = l' -> is_derive f x l'.
Proof. intros H <-. exact H. Qed.

Lemma is_derive_chain (f g : R -> R) (x df dg : R) :
  is_derive f (g x) df -> is_derive g x dg -> is_derive (fun t => f (g t)) x (df * dg).
Proof.
  intros H1 H2. apply (is_derive_eq _ _ _ _ (is_derive_comp f g x df dg H1 H2)).
  unfold scal; simpl; unfold mult; simpl. ring.
Qed.

Lemma locally_lt (a : R) x : a < x -> locally x (fun t : R => a < t).
Proof. intro H. apply (open_gt a). exact H. Qed.
Lemma locally_gt (a : R) x : x < a -> locally x (fun t : R => t < a).
Proof. intro H. apply (open_lt a). exact H. Qed.
Lemma locally_neq (a : R) x : x <> a -> locally x (fun t : R => t <> a).
Proof. intro H. apply (open_neq a). exact H. Qed.

Lemma continuous_at (f : R -> R) (x l : R) : is_derive f x l -> filterlim f (locally x) (locally (f x)).
Proof.
  intro H. apply (ex_derive_continuous (K:=R_AbsRing) (V:=R_NormedModule)). exists l. exact H.
Qed.

(* a property that holds near f x holds of f t for t near x *)
Lemma locally_through (f : R -> R) (x l : R) (P : R -> Prop) :
  is_derive f x l -> locally (f x) P -> locally x (fun t => P (f t)).
Proof. intros H HP. exact (continuous_at f x l H P HP). Qed.

Lemma int_part_between x : IZR (Int_part x) <= x < IZR (Int_part x) + 1.
Proof. destruct (base_Int_part x) as [H1 H2]. lra. Qed.

Lemma int_part_unique x (z : Z) : IZR z <= x < IZR z + 1 -> Int_part x = z.
Proof.
  intros H. destruct (int_part_between x) as [H1 H2].
  assert (A : IZR (Int_part x) < IZR (z + 1)) by (rewrite plus_IZR; lra).
  assert (B : IZR z < IZR (Int_part x + 1)) by (rewrite plus_IZR; lra).
  apply lt_IZR in A. apply lt_IZR in B. lia.
Qed.

Lemma int_part_IZR z : Int_part (IZR z) = z.
Proof. apply int_part_unique. lra. Qed.

Lemma integer_int_part x : integer x <-> x = IZR (Int_part x).
Proof.
  split; [intros [z ->]; now rewrite int_part_IZR|]. intro H. exists (Int_part x). exact H.
Qed.

Lemma int_part_locally x : ~ integer x -> locally x (fun t => Int_part t = Int_part x).
Proof.
  intro H. destruct (int_part_between x) as [H1 H2].
  assert (H1' : IZR (Int_part x) < x).
  { destruct H1 as [H1|H1]; [exact H1|]. exfalso. apply H. exists (Int_part x). auto. }
  generalize (filter_and _ _ (locally_lt _ _ H1') (locally_gt _ _ H2)).
  apply filter_imp. intros t [A B]. apply int_part_unique. lra.
Qed.

Lemma is_derive_const0 (f : R -> R) (c x : R) : locally x (fun t => f t = c) -> is_derive f x 0.
Proof.
  intro H. apply (is_derive_ext_loc (fun _ => c)).
  - generalize H. apply filter_imp. intros t E. now rewrite E.
  - apply (is_derive_const (K:=R_AbsRing) (V:=R_NormedModule)).
Qed.

(* powerRZ *)
Lemma is_derive_powerRZ z (x : R) :
  x <> 0 \/ (1 <= z)%Z -> is_derive (fun t => powerRZ t z) x (IZR z * powerRZ x (z - 1)).
Proof.
  intro H. destruct (Z_le_gt_dec 0 z) as [Hz|Hz].
  - (* a natural power *)
    rewrite <- (Z2Nat.id z Hz). generalize (Z.to_nat z). intro n.
    apply (is_derive_ext (fun t => t ^ n)); [intro t; apply pow_powerRZ|].
    eapply is_derive_eq; [apply is_derive_pow; apply (is_derive_id (K:=R_AbsRing))|].
    rewrite <- INR_IZR_INZ. unfold one; simpl.
    destruct n as [|n].
    + simpl. ring.
    + cbn [Init.Nat.pred]. replace (Z.of_nat (S n) - 1)%Z with (Z.of_nat n) by lia.
      rewrite <- pow_powerRZ. ring.
  - (* a negative power *)
    destruct H as [Hx|Hz1]; [|lia].
    set (n := Z.to_nat (- z)). assert (Ez : z = (- Z.of_nat n)%Z) by (unfold n; lia).
    assert (Hn : (0 < n)%nat) by (unfold n; lia).
    rewrite Ez. apply (is_derive_ext (fun t => / t ^ n)).
    { intro t. rewrite powerRZ_neg', <- pow_powerRZ. reflexivity. }
    assert (P : x ^ n <> 0) by (apply pow_nonzero; exact Hx).
    eapply is_derive_eq.
    { apply is_derive_inv; [|exact P]. apply is_derive_pow. apply (is_derive_id (K:=R_AbsRing)). }
    unfold one; simpl. replace (- Z.of_nat n - 1)%Z with (- Z.of_nat (S n))%Z by lia.
    rewrite opp_IZR, <- INR_IZR_INZ, powerRZ_neg', <- pow_powerRZ.
    destruct n as [|n]; [lia|]. cbn [Init.Nat.pred pow].
    assert (Q : x ^ n <> 0) by (apply pow_nonzero; exact Hx).
    field. split; [exact Q|exact Hx].
Qed.

(* ---------------- functions that the library does not differentiate ---------------- *)

Lemma is_derive_asin (x : R) : -1 < x < 1 -> is_derive asin x (/ sqrt (1 - x * x)).
Proof.
  intro H. apply is_derive_Reals.
  replace (/ sqrt (1 - x * x)) with (derive_pt asin x (derivable_pt_asin x H)).
  - apply (derive_pt_eq_1 asin x _ (derivable_pt_asin x H)). reflexivity.
  - rewrite derive_pt_asin. unfold Rsqr, Rdiv. ring.
Qed.
Lemma is_derive_acos (x : R) : -1 < x < 1 -> is_derive acos x (- / sqrt (1 - x * x)).
Proof.
  intro H. apply is_derive_Reals.
  replace (- / sqrt (1 - x * x)) with (derive_pt acos x (derivable_pt_acos x H)).
  - apply (derive_pt_eq_1 acos x _ (derivable_pt_acos x H)). reflexivity.
  - rewrite derive_pt_acos. unfold Rsqr, Rdiv. ring.
Qed.
Lemma is_derive_sinh (x : R) : is_derive sinh x (cosh x).
Proof. apply is_derive_Reals, derivable_pt_lim_sinh. Qed.
Lemma is_derive_cosh (x : R) : is_derive cosh x (sinh x).
Proof. apply is_derive_Reals, derivable_pt_lim_cosh. Qed.
Lemma cosh_pos x : 0 < cosh x.
Proof. unfold cosh. generalize (exp_pos x) (exp_pos (- x)). lra. Qed.
Lemma is_derive_tanh (x : R) : is_derive tanh x (1 - tanh x * tanh x).
Proof.
  unfold tanh. generalize (cosh_pos x). intro P.
  eapply is_derive_eq.
  { apply is_derive_div; [apply is_derive_sinh|apply is_derive_cosh|lra]. }
  field. lra.
Qed.

Lemma sqrt_PI_pos : 0 < sqrt PI.
Proof. apply sqrt_lt_R0. exact PI_RGT_0. Qed.

Lemma erf_continuous x : continuous (fun t => 2 / sqrt PI * exp (- t ^ 2)) x.
Proof.
  apply (ex_derive_continuous (K:=R_AbsRing) (V:=R_NormedModule)).
  generalize sqrt_PI_pos. intro. auto_derive. lra.
Qed.
Lemma is_derive_erf (x : R) : is_derive erf x (2 / sqrt PI * exp (- x ^ 2)).
Proof.
  unfold erf. apply (is_derive_RInt (fun t => 2 / sqrt PI * exp (- t ^ 2)) _ 0 x).
  - apply filter_forall. intro b. apply (RInt_correct (V:=R_CompleteNormedModule)). apply (ex_RInt_continuous (V:=R_CompleteNormedModule)).
    intros z _. apply erf_continuous.
  - apply erf_continuous.
Qed.
Lemma rerf_erf (x : R) : rerf x = erf x.
Proof.
  unfold rerf, erf.
  change (scal (2 / sqrt PI) (RInt (fun t => exp (- (t * t))) 0 x)
          = RInt (fun t => 2 / sqrt PI * exp (- t ^ 2)) 0 x).
  rewrite <- (RInt_scal (V:=R_CompleteNormedModule) (fun t => exp (- (t * t))) 0 x (2 / sqrt PI)).
  - apply RInt_ext. intros t _. unfold scal; simpl; unfold mult; simpl.
    replace (t * (t * 1)) with (t * t) by ring. reflexivity.
  - apply (ex_RInt_continuous (V:=R_CompleteNormedModule)). intros z _. apply (ex_derive_continuous (K:=R_AbsRing) (V:=R_NormedModule)).
    auto_derive. exact I.
Qed.
Lemma sqrt_atan1 : 1 / sqrt (atan 1) = 2 / sqrt PI.
Proof.
  rewrite atan_1. generalize sqrt_PI_pos; intro P.
  rewrite sqrt_div_alt by lra. replace 4 with (2 * 2) by ring. rewrite sqrt_square by lra.
  field. lra.
Qed.

Lemma is_derive_rcbrt (x : R) : x <> 0 -> is_derive rcbrt x (1 / (3 * rcbrt (x * x))).
Proof.
  intro H. assert (S : 0 < x * x) by nra.
  assert (E : rcbrt (x * x) = exp (ln (x * x) / 3)).
  { unfold rcbrt. destruct (Rlt_dec 0 (x * x)); [reflexivity|lra]. }
  rewrite E. destruct (Rlt_dec 0 x) as [P|P].
  - apply (is_derive_ext_loc (fun t => exp (ln t / 3))).
    { generalize (locally_lt 0 x P). apply filter_imp. intros t Ht. unfold rcbrt.
      destruct (Rlt_dec 0 t); [reflexivity|lra]. }
    eapply is_derive_eq; [auto_derive; [exact P|reflexivity]|].
    rewrite ln_mult by lra.
    replace ((ln x + ln x) / 3) with (ln x + - (ln x / 3)) by field.
    rewrite exp_plus, exp_Ropp, exp_ln by lra. generalize (exp_pos (ln x / 3)). intro.
    unfold Rdiv. field. lra.
  - assert (P' : 0 < - x) by lra.
    apply (is_derive_ext_loc (fun t => - exp (ln (- t) / 3))).
    { assert (Q : x < 0) by lra. generalize (locally_gt 0 x Q). apply filter_imp. intros t Ht. unfold rcbrt.
      destruct (Rlt_dec 0 t); [lra|]. destruct (Rlt_dec t 0); [reflexivity|lra]. }
    eapply is_derive_eq; [auto_derive; [exact P'|reflexivity]|].
    replace (x * x) with ((- x) * (- x)) by ring.
    rewrite ln_mult by lra.
    replace ((ln (- x) + ln (- x)) / 3) with (ln (- x) + - (ln (- x) / 3)) by field.
    rewrite exp_plus, exp_Ropp, exp_ln by lra. generalize (exp_pos (ln (- x) / 3)). intro.
    unfold Rdiv. field. lra.
Qed.

Lemma rcbrt_cube (x : R) : rcbrt x ^ 3 = x.
Proof.
  unfold rcbrt. assert (A : forall y, 0 < y -> exp (ln y / 3) ^ 3 = y).
  { intros y Hy. simpl. rewrite Rmult_1_r, <- !exp_plus.
    replace (ln y / 3 + (ln y / 3 + ln y / 3)) with (ln y) by field. apply exp_ln, Hy. }
  destruct (Rlt_dec 0 x); [apply A; lra|]. destruct (Rlt_dec x 0).
  - replace ((- exp (ln (- x) / 3)) ^ 3) with (- (exp (ln (- x) / 3) ^ 3)) by ring.
    rewrite A by lra. ring.
  - simpl. assert (x = 0) by lra. subst. ring.
Qed.
