(* Manifolds given by the exponential chart and a linear map. *)
From Coq Require Import Reals List Arith Lia Lra Psatz.
From Verif Require Import RotationModel RotationSpec RotationProofs RotationProofs4 ManifoldModel ManifoldSpec ManifoldProofs.
Import ListNotations.
Open Scope R_scope.

Lemma mvec_ext n a x y : eqn n x y -> forall i, mvec n a x i = mvec n a y i.
Proof. intros H i. apply sumn_ext. intros j Hj. rewrite (H j Hj). reflexivity. Qed.
Lemma mvec_add n a x y i : mvec n a (fun j => x j + y j) i = mvec n a x i + mvec n a y i.
Proof. unfold mvec. rewrite <- sumn_add. apply sumn_ext. intros. ring. Qed.
Lemma mvec_sub n a x y i : mvec n a (fun j => x j - y j) i = mvec n a x i - mvec n a y i.
Proof. unfold mvec. rewrite <- sumn_sub. apply sumn_ext. intros. ring. Qed.
Definition size_of (n : nat) (a : mat) : R := sumn n (fun i => sumn n (fun j => Rabs (a i j))).
Lemma size_nonneg n a : 0 <= size_of n a.
Proof. apply sumn_nonneg. intros. apply sumn_nonneg. intros. apply Rabs_pos. Qed.
Lemma mvec_bound n a x M : 0 <= M -> (forall j, (j < n)%nat -> Rabs (x j) <= M) ->
  forall i, (i < n)%nat -> Rabs (mvec n a x i) <= size_of n a * M.
Proof.
  intros HM H i Hi. unfold mvec. eapply Rle_trans; [apply sumn_abs|].
  apply Rle_trans with (sumn n (fun j => Rabs (a i j)) * M).
  - rewrite Rmult_comm, <- sumn_scal. apply sumn_le. intros j Hj. rewrite Rabs_mult, Rmult_comm. apply Rmult_le_compat_r; [apply Rabs_pos|apply H; exact Hj].
  - apply Rmult_le_compat_r; [exact HM|]. unfold size_of.
    apply (sumn_nonneg_le n (fun i => sumn n (fun j => Rabs (a i j)))); [intros; apply sumn_nonneg; intros; apply Rabs_pos|exact Hi].
Qed.

Definition ek (k : nat) : arr := fun i => identity i k.

Section Chart.
Variable k : nat.
Variable x : arr.
Variables mA mB : mat.
Hypothesis HBA : forall z, eqn (S k) (mvec (S k) mB (mvec (S k) mA z)) z.
Hypothesis HAB : forall z, eqn (S k) (mvec (S k) mA (mvec (S k) mB z)) z.
Hypothesis HX : forall i, (i < S k)%nat -> mA i k = x i.
(* what is returned when the head of the transformed vector is zero *)
Variable degenerate : R -> arr.
Hypothesis HD : forall w, 0 <= w -> eqn k (degenerate w) zeros.

Definition chart_plus (d : arr) : arr := if Req_EM_T (norm k d) 0 then x else mvec (S k) mA (exp_chart k d).
Definition chart_minus (y : arr) : arr :=
  let u := mvec (S k) mB y in if Req_EM_T (norm k u) 0 then degenerate (u k) else log_chart k u.

Lemma mA_ek : eqn (S k) (mvec (S k) mA (ek k)) x.
Proof. intros i Hi. unfold mvec, ek. rewrite (sumn_identity_r (S k) (fun j => mA i j) k) by lia. apply HX. exact Hi. Qed.
Lemma mB_x : eqn (S k) (mvec (S k) mB x) (ek k).
Proof. intros i Hi. rewrite <- (mvec_ext (S k) mB _ _ mA_ek i). apply HBA. exact Hi. Qed.
Lemma ek_head : norm k (ek k) = 0.
Proof. apply norm_zeros. intros i Hi. unfold ek, identity, zeros. destruct (Nat.eqb_spec i k); [lia|reflexivity]. Qed.
Lemma ek_last : ek k k = 1.
Proof. unfold ek, identity. rewrite Nat.eqb_refl. reflexivity. Qed.

Lemma chart_zero d : eqn k d zeros -> chart_plus d = x.
Proof. intro H. unfold chart_plus. rewrite (norm_zeros k d H). destruct (Req_EM_T 0 0); [reflexivity|lra]. Qed.

Lemma chart_plus_minus y : norm (S k) (mvec (S k) mB y) = 1 ->
  norm k (mvec (S k) mB y) <> 0 -> eqn (S k) (chart_plus (chart_minus y)) y.
Proof.
  intros U N. set (u := mvec (S k) mB y) in *. unfold chart_minus. fold u. cbv zeta. destruct (Req_EM_T (norm k u) 0) as [E|_]; [contradiction|].
  pose proof (log_norm k u N U) as L. cbv zeta in L. destruct L as (L1 & L2 & _).
  unfold chart_plus. destruct (Req_EM_T (norm k (log_chart k u)) 0) as [E|_]; [lra|].
  intros i Hi. rewrite (mvec_ext (S k) mA _ _ (exp_log k u N U) i). apply HAB. exact Hi.
Qed.

Lemma chart_minus_plus d : norm k d < PI -> eqn k (chart_minus (chart_plus d)) d.
Proof.
  intro L. unfold chart_plus. destruct (Req_EM_T (norm k d) 0) as [E|E].
  - unfold chart_minus. cbv zeta. rewrite (norm_ext k (mvec (S k) mB x) (ek k)) by (intros i Hi; apply mB_x; lia). rewrite ek_head.
    destruct (Req_EM_T 0 0) as [_|C]; [|lra]. intros i Hi. rewrite (mB_x k), ek_last by lia. rewrite (HD 1 ltac:(lra) i Hi).
    unfold zeros. symmetry. apply (norm_zero k d E i Hi).
  - destruct (log_exp k d E L) as [N LE]. intros i Hi. unfold chart_minus. cbv zeta.
    rewrite (norm_ext k _ (exp_chart k d)) by (intros j Hj; apply HBA; lia).
    destruct (Req_EM_T (norm k (exp_chart k d)) 0) as [C|_]; [contradiction|].
    rewrite (log_ext k _ _ (HBA (exp_chart k d)) i Hi). apply LE. exact Hi.
Qed.

Lemma chart_plus_derivative : derivative_at_zero (S k) k (fun d => Some (chart_plus d)) x mA.
Proof.
  intros eps He. set (C := size_of (S k) mA + 1). pose proof (size_nonneg (S k) mA) as C0. assert (1 <= C) as C1 by (unfold C; lra).
  destruct (exp_first_order k (eps / C)) as (del & Hd & H); [apply Rdiv_lt_0_compat; lra|].
  exists del. split; [exact Hd|]. intros h Hh. eexists. split; [reflexivity|]. intros i Hi. pose proof (norm_nonneg k h) as N0.
  unfold chart_plus. destruct (Req_EM_T (norm k h) 0) as [E|E].
  - rewrite (mvec_ext k mA h zeros) by (intros j Hj; apply (norm_zero k h E j Hj)).
    unfold mvec, zeros. rewrite (sumn_ext k _ (fun _ => 0)), sumn_zero by (intros; ring).
    replace (x i - x i - 0) with 0 by ring. rewrite Rabs_R0, E. lra.
  - destruct (H h E Hh) as [H1 H2].
    assert (mvec (S k) mA (exp_chart k h) i - x i - mvec k mA h i = mvec (S k) mA (fun j => exp_chart k h j - append k h 1 j) i) as ->.
    { rewrite mvec_sub. assert (mvec (S k) mA (append k h 1) i = x i + mvec k mA h i) as ->; [|ring].
      unfold mvec. cbn [sumn]. rewrite append_last, HX by exact Hi.
      rewrite (sumn_ext k _ (fun j => mA i j * h j)); [ring|]. intros j Hj. rewrite append_lt by exact Hj. reflexivity. }
    eapply Rle_trans; [apply (mvec_bound (S k) mA _ (eps / C * norm k h))|].
    + apply Rmult_le_pos; [|exact N0]. apply Rlt_le, Rdiv_lt_0_compat; lra.
    + intros j Hj. destruct (Nat.eq_dec j k) as [->|Nj]; [rewrite append_last; exact H2|rewrite append_lt by lia; apply H1; lia].
    + exact Hi.
    + assert (0 <= eps / C) by (apply Rlt_le, Rdiv_lt_0_compat; lra).
      assert (0 <= eps / C * norm k h) by (apply Rmult_le_pos; lra).
      replace (eps * norm k h) with (C * (eps / C * norm k h)) by (field; lra).
      apply Rmult_le_compat_r; [assumption|unfold C; lra].
Qed.

Lemma chart_minus_derivative : derivative_at_zero k (S k) (fun h => Some (chart_minus (fun i => x i + h i))) zeros mB.
Proof.
  intros eps He. set (C0 := size_of (S k) mB). set (C := (INR k + 1) * C0 + 1).
  pose proof (size_nonneg (S k) mB) as P0. fold C0 in P0. pose proof (pos_INR k) as PI0. assert (1 <= C) as C1 by (unfold C; nra).
  destruct (log_first_order k (eps / C)) as (del & Hd & H); [apply Rdiv_lt_0_compat; lra|].
  exists (Rmin (1 / C) (del / C)). split; [apply Rmin_pos; apply Rdiv_lt_0_compat; lra|]. intros h Hh. eexists. split; [reflexivity|].
  intros i Hi. pose proof (norm_nonneg (S k) h) as N0. set (N := norm (S k) h) in *.
  assert (C * N < 1 /\ C * N < del) as [L1 L2].
  { pose proof (Rmin_l (1 / C) (del / C)). pose proof (Rmin_r (1 / C) (del / C)).
    split; [replace 1 with (C * (1 / C)) by (field; lra)|replace del with (C * (del / C)) by (field; lra)]; apply Rmult_lt_compat_l; lra. }
  set (u := mvec (S k) mB (fun i => x i + h i)).
  assert (forall j, (j < S k)%nat -> u j = ek k j + mvec (S k) mB h j) as EU.
  { intros j Hj. unfold u. rewrite mvec_add, (mB_x j Hj). reflexivity. }
  assert (forall j, (j < S k)%nat -> Rabs (mvec (S k) mB h j) <= C0 * N) as BU
    by (apply mvec_bound; [exact N0|intros j Hj; apply entry_le_norm; exact Hj]).
  assert (forall j, (j < k)%nat -> u j = mvec (S k) mB h j) as EH.
  { intros j Hj. rewrite (EU j) by lia. unfold ek, identity. destruct (Nat.eqb_spec j k); [lia|]. ring. }
  assert (u k - 1 = mvec (S k) mB h k) as EW by (rewrite (EU k), ek_last by lia; ring).
  assert (0 <= C0 * N) as P1 by (apply Rmult_le_pos; lra). assert (0 <= INR k * (C0 * N)) as P2 by (apply Rmult_le_pos; lra).
  assert (C * N = INR k * (C0 * N) + C0 * N + N) as EC by (unfold C; ring).
  assert (norm k u <= C * N) as BH.
  { eapply Rle_trans; [apply (norm_le_sum k u (C0 * N))|].
    - exact P1. - intros j Hj. rewrite (EH j Hj). apply BU. lia. - lra. }
  assert (Rabs (u k - 1) <= C * N) as BW by (rewrite EW; eapply Rle_trans; [apply BU; lia|]; lra).
  unfold zeros. rewrite <- (EH i Hi). unfold chart_minus. cbv zeta. fold u. destruct (Req_EM_T (norm k u) 0) as [E|E].
  - assert (0 <= u k) as W0 by (unfold Rabs in BW; destruct (Rcase_abs _); lra).
    rewrite (HD (u k) W0 i Hi), (norm_zero k u E i Hi). unfold zeros. replace (0 - 0 - 0) with 0 by ring. rewrite Rabs_R0. apply Rmult_le_pos; lra.
  - rewrite Rminus_0_r. eapply Rle_trans; [apply (H u (C * N)); try assumption; lra|]. right. field. lra.
Qed.

Lemma chart_inverse : eqm k k (mmul (S k) mB mA) identity.
Proof.
  intros r c Hr Hc. pose proof (HBA (fun j => identity j c) r ltac:(lia)) as E. cbv beta in E. rewrite <- E.
  unfold mmul. unfold mvec at 1. apply sumn_ext. intros j Hj. unfold mvec. rewrite (sumn_identity_r (S k) (fun l => mA j l) c) by lia. reflexivity.
Qed.
End Chart.

Lemma default_right ambient tangent pj x J a rows : pj x = Some J ->
  exists b, DefaultRightMultiply ambient tangent pj x a = Some b /\ eqm rows tangent b (mmul ambient a J).
Proof.
  intro E. unfold DefaultRightMultiply. destruct (Nat.eqb_spec tangent 0) as [->|N].
  - eexists. split; [reflexivity|]. intros i j Hi Hj. lia.
  - rewrite E. eexists. split; [reflexivity|]. intros i j Hi Hj. reflexivity.
Qed.

Lemma derivative_ext rows cols f g y y' J J' :
  (forall h, eqo rows (f h) (g h)) -> eqn rows y y' -> eqm rows cols J J' ->
  derivative_at_zero rows cols f y J -> derivative_at_zero rows cols g y' J'.
Proof.
  intros Hf Hy HJ H eps He. destruct (H eps He) as (del & Hd & K). exists del. split; [exact Hd|]. intros h Hh.
  destruct (K h Hh) as (z & Ez & Kz). specialize (Hf h). rewrite Ez in Hf. destruct (g h) as [z'|] eqn:Eg; [|destruct Hf].
  exists z'. split; [reflexivity|]. intros i Hi. cbn [eqo] in Hf. rewrite <- (Hf i Hi), <- (Hy i Hi).
  assert (mvec cols J' h i = mvec cols J h i) as -> by (apply sumn_ext; intros j Hj; rewrite (HJ i j Hi Hj); reflexivity).
  apply Kz. exact Hi.
Qed.

(* ---------------- Euclidean ---------------- *)
Lemma mvec_identity n h i : (i < n)%nat -> mvec n identity h i = h i.
Proof. intro H. apply sumn_identity_l. exact H. Qed.

Lemma euclidean_is_manifold n : is_manifold (EuclideanManifold n) always always always2 always.
Proof.
  constructor; cbn [EuclideanManifold AmbientSize TangentSize Plus PlusJacobian Minus MinusJacobian RightMultiplyByPlusJacobian]; unfold always, always2; auto.
  - intros x d _ _. eexists. split; [reflexivity|exact I].
  - intros x d _ _ H i Hi. rewrite (H i Hi). unfold zeros. ring.
  - intros x y _ _ _ _. eexists. split; [reflexivity|]. intros i Hi. ring.
  - intros x d _ _ _. eexists. split; [reflexivity|]. intros i Hi. ring.
  - intros x _ _. eexists. split; [reflexivity|]. intros eps He. exists 1. split; [lra|]. intros h Hh. eexists. split; [reflexivity|].
    intros i Hi. rewrite mvec_identity by exact Hi. replace (x i + h i - x i - h i) with 0 by ring. rewrite Rabs_R0. pose proof (norm_nonneg n h). nra.
  - intros x _ _. eexists. split; [reflexivity|]. intros eps He. exists 1. split; [lra|]. intros h Hh. eexists. split; [reflexivity|].
    intros i Hi. rewrite mvec_identity by exact Hi. unfold zeros. replace (x i + h i - x i - 0 - h i) with 0 by ring. rewrite Rabs_R0. pose proof (norm_nonneg n h). nra.
  - intros x _ _. eexists. eexists. split; [reflexivity|]. split; [reflexivity|]. intros r c Hr Hc. unfold mmul.
    apply (sumn_identity_l n (fun j => identity j c)). exact Hr.
  - intros x a rows _ _. eexists. eexists. split; [reflexivity|]. split; [reflexivity|]. intros i j Hi Hj. unfold mmul.
    symmetry. apply (sumn_identity_r n (fun l => a i l)). exact Hj.
  - intros x x' d d' H K i Hi. rewrite (H i Hi), (K i Hi). reflexivity.
  - intros x x' y y' H K i Hi. rewrite (H i Hi), (K i Hi). reflexivity.
Qed.
