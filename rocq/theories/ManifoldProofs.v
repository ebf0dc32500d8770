(* Sums, norms, and the exponential chart of the sphere. *)
From Coq Require Import Reals List Arith Lia Lra Psatz.
From Verif Require Import RotationModel RotationSpec RotationProofs RotationProofs4 ManifoldModel ManifoldSpec.
Import ListNotations.
Open Scope R_scope.

(* ---------------- sums ---------------- *)
Lemma sumn_ext n f g : (forall i, (i < n)%nat -> f i = g i) -> sumn n f = sumn n g.
Proof. induction n as [|n IH]; intro H; cbn [sumn]; [reflexivity|]. rewrite IH, H by (intros; try apply H; lia). reflexivity. Qed.
Lemma sumn_add n f g : sumn n (fun i => f i + g i) = sumn n f + sumn n g.
Proof. induction n as [|n IH]; cbn [sumn]; [ring|]. rewrite IH. ring. Qed.
Lemma sumn_sub n f g : sumn n (fun i => f i - g i) = sumn n f - sumn n g.
Proof. induction n as [|n IH]; cbn [sumn]; [ring|]. rewrite IH. ring. Qed.
Lemma sumn_scal n c f : sumn n (fun i => c * f i) = c * sumn n f.
Proof. induction n as [|n IH]; cbn [sumn]; [ring|]. rewrite IH. ring. Qed.
Lemma sumn_zero n : sumn n (fun _ => 0) = 0.
Proof. induction n as [|n IH]; cbn [sumn]; [ring|]. rewrite IH. ring. Qed.
Lemma sumn_nonneg n f : (forall i, (i < n)%nat -> 0 <= f i) -> 0 <= sumn n f.
Proof. induction n as [|n IH]; intro H; cbn [sumn]; [lra|]. assert (0 <= sumn n f) by (apply IH; intros; apply H; lia). pose proof (H n ltac:(lia)). lra. Qed.
Lemma sumn_le n f g : (forall i, (i < n)%nat -> f i <= g i) -> sumn n f <= sumn n g.
Proof. induction n as [|n IH]; intro H; cbn [sumn]; [lra|]. assert (sumn n f <= sumn n g) by (apply IH; intros; apply H; lia). pose proof (H n ltac:(lia)). lra. Qed.
Lemma sumn_abs n f : Rabs (sumn n f) <= sumn n (fun i => Rabs (f i)).
Proof. induction n as [|n IH]; cbn [sumn]; [rewrite Rabs_R0; lra|]. eapply Rle_trans; [apply Rabs_triang|]. lra. Qed.
Lemma sumn_single n f i : (i < n)%nat -> (forall j, (j < n)%nat -> j <> i -> f j = 0) -> sumn n f = f i.
Proof.
  induction n as [|n IH]; intros Hi H; [lia|]. cbn [sumn]. destruct (Nat.eq_dec i n) as [->|N].
  - rewrite (sumn_ext n f (fun _ => 0)), sumn_zero by (intros; apply H; lia). ring.
  - rewrite IH, (H n) by (try lia; intros; apply H; lia). ring.
Qed.
Lemma sumn_nonneg_le n f i : (forall j, (j < n)%nat -> 0 <= f j) -> (i < n)%nat -> f i <= sumn n f.
Proof.
  induction n as [|n IH]; intros H Hi; [lia|]. cbn [sumn]. destruct (Nat.eq_dec i n) as [->|N].
  - assert (0 <= sumn n f) by (apply sumn_nonneg; intros; apply H; lia). lra.
  - assert (f i <= sumn n f) by (apply IH; [intros; apply H; lia|lia]). pose proof (H n ltac:(lia)). lra.
Qed.
Lemma sumn_split a b f : sumn (a + b) f = sumn a f + sumn b (fun i => f (a + i)%nat).
Proof. induction b as [|b IH]; [rewrite Nat.add_0_r; cbn [sumn]; ring|]. rewrite Nat.add_succ_r. cbn [sumn]. rewrite IH. ring. Qed.
Lemma sumn_identity_l n f i : (i < n)%nat -> sumn n (fun j => identity i j * f j) = f i.
Proof.
  intro H. rewrite (sumn_single n _ i H).
  - unfold identity. rewrite Nat.eqb_refl. ring.
  - intros j _ N. unfold identity. destruct (Nat.eqb_spec i j); [congruence|ring].
Qed.
Lemma sumn_identity_r n f i : (i < n)%nat -> sumn n (fun j => f j * identity j i) = f i.
Proof.
  intro H. rewrite (sumn_single n _ i H).
  - unfold identity. rewrite Nat.eqb_refl. ring.
  - intros j _ N. unfold identity. destruct (Nat.eqb_spec j i); [congruence|ring].
Qed.
Lemma sumn_swap n m f : sumn n (fun i => sumn m (fun j => f i j)) = sumn m (fun j => sumn n (fun i => f i j)).
Proof.
  induction n as [|n IH]; cbn [sumn]; [rewrite sumn_zero; reflexivity|]. rewrite IH. symmetry. apply sumn_add.
Qed.

(* ---------------- norms ---------------- *)
Lemma dot_nonneg n x : 0 <= dot n x x.
Proof. apply sumn_nonneg. intros. nra. Qed.
Lemma norm_nonneg n x : 0 <= norm n x.
Proof. apply sqrt_pos. Qed.
Lemma norm_sq n x : norm n x * norm n x = dot n x x.
Proof. apply sqrt_sq, dot_nonneg. Qed.
Lemma norm_ext n x y : eqn n x y -> norm n x = norm n y.
Proof. intro H. unfold norm, dot. f_equal. apply sumn_ext. intros i Hi. rewrite (H i Hi). reflexivity. Qed.
Lemma dot_ext n x y x' y' : eqn n x x' -> eqn n y y' -> dot n x y = dot n x' y'.
Proof. intros H K. apply sumn_ext. intros i Hi. rewrite (H i Hi), (K i Hi). reflexivity. Qed.
Lemma entry_le_norm n x i : (i < n)%nat -> Rabs (x i) <= norm n x.
Proof.
  intro H. rewrite <- sqrt_Rsqr_abs. apply sqrt_le_1_alt. unfold Rsqr, dot.
  apply (sumn_nonneg_le n (fun i => x i * x i)); [intros; nra|exact H].
Qed.
Lemma norm_zero n x : norm n x = 0 -> forall i, (i < n)%nat -> x i = 0.
Proof. intros H i Hi. pose proof (entry_le_norm n x i Hi) as L. rewrite H in L. pose proof (Rabs_pos (x i)). destruct (Req_dec (x i) 0) as [E|E]; [exact E|]. apply Rabs_pos_lt in E. lra. Qed.
Lemma norm_zeros n x : eqn n x zeros -> norm n x = 0.
Proof. intro H. rewrite (norm_ext n x zeros H). unfold norm, dot. rewrite (sumn_ext n _ (fun _ => 0)), sumn_zero, sqrt_0 by (intros; unfold zeros; ring). reflexivity. Qed.
Lemma norm_scale n c x : norm n (fun i => c * x i) = Rabs c * norm n x.
Proof.
  apply sqrt_uniq.
  - pose proof (Rabs_pos c). pose proof (norm_nonneg n x). nra.
  - transitivity ((Rabs c * Rabs c) * (norm n x * norm n x)); [ring|]. rewrite norm_sq, <- Rabs_mult.
    rewrite (Rabs_pos_eq (c * c)) by nra. unfold dot. rewrite <- sumn_scal. apply sumn_ext. intros. ring.
Qed.
Lemma norm_le_sum n x M : 0 <= M -> (forall i, (i < n)%nat -> Rabs (x i) <= M) -> norm n x <= INR n * M.
Proof.
  intros HM H. assert (0 <= INR n) as HI by apply pos_INR.
  rewrite <- (sqrt_Rsqr (INR n * M)) by nra. apply sqrt_le_1_alt. unfold Rsqr, dot.
  assert (sumn n (fun i => x i * x i) <= INR n * (M * M)) as L.
  { clear HI. induction n as [|n IH]; [cbn; lra|]. cbn [sumn]. rewrite S_INR.
    assert (sumn n (fun i => x i * x i) <= INR n * (M * M)) by (apply IH; intros; apply H; lia).
    pose proof (H n ltac:(lia)) as A. assert (x n * x n <= M * M).
    { assert (x n * x n = Rabs (x n) * Rabs (x n)) as -> by (unfold Rabs; destruct (Rcase_abs _); ring). pose proof (Rabs_pos (x n)). nra. }
    lra. }
  destruct n as [|n]; [cbn [INR] in *; lra|]. assert (1 <= INR (S n)) as H1 by (rewrite S_INR; pose proof (pos_INR n); lra).
  assert (0 <= M * M) by nra. assert (INR (S n) * (M * M) <= INR (S n) * INR (S n) * (M * M)) by (apply Rmult_le_compat_r; nra). lra.
Qed.
Lemma norm_S k x : norm (S k) x * norm (S k) x = norm k x * norm k x + x k * x k.
Proof. rewrite !norm_sq. unfold dot. cbn [sumn]. reflexivity. Qed.
Lemma norm_head_le k x : norm k x <= norm (S k) x.
Proof. apply sqrt_le_1_alt. unfold dot. cbn [sumn]. nra. Qed.
Lemma norm_block n a b x : (a + b <= n)%nat -> norm b (shift a x) <= norm n x.
Proof.
  intro H. apply sqrt_le_1_alt. unfold dot, shift. replace n with (a + (b + (n - a - b)))%nat by lia.
  rewrite sumn_split, sumn_split.
  assert (0 <= sumn a (fun i => x i * x i)) by (apply sumn_nonneg; intros; nra).
  assert (0 <= sumn (n - a - b) (fun i => x (a + (b + i))%nat * x (a + (b + i))%nat)) by (apply sumn_nonneg; intros; nra). lra.
Qed.

(* ---------------- the exponential chart ---------------- *)
Definition exp_chart (k : nat) (d : arr) : arr :=
  append k (fun i => sin (norm k d) / norm k d * d i) (cos (norm k d)).
Definition log_chart (k : nat) (u : arr) : arr := fun i => atan2 (norm k u) (u k) / norm k u * u i.

Lemma append_lt k a l i : (i < k)%nat -> append k a l i = a i.
Proof. intro H. unfold append. destruct (Nat.ltb_spec i k); [reflexivity|lia]. Qed.
Lemma append_last k a l : append k a l k = l.
Proof. unfold append. rewrite Nat.ltb_irrefl. reflexivity. Qed.

Lemma exp_head k d : norm k d <> 0 -> norm k (exp_chart k d) = Rabs (sin (norm k d)).
Proof.
  intro N. rewrite (norm_ext k _ (fun i => sin (norm k d) / norm k d * d i)) by (intros i Hi; apply append_lt; exact Hi).
  rewrite norm_scale. pose proof (norm_nonneg k d). unfold Rdiv. rewrite Rabs_mult, Rabs_inv by assumption.
  rewrite (Rabs_pos_eq (norm k d)) by assumption. field. exact N.
Qed.
Lemma exp_unit k d : norm k d <> 0 -> norm (S k) (exp_chart k d) = 1.
Proof.
  intro N. apply sqrt_uniq; [lra|]. fold (dot (S k) (exp_chart k d) (exp_chart k d)). rewrite <- norm_sq, norm_S, exp_head by exact N.
  unfold exp_chart. rewrite append_last. pose proof (cs1 (norm k d)) as C.
  assert (Rabs (sin (norm k d)) * Rabs (sin (norm k d)) = sin (norm k d) * sin (norm k d)) as -> by (unfold Rabs; destruct (Rcase_abs _); ring).
  lra.
Qed.
Lemma log_exp k d : norm k d <> 0 -> norm k d < PI -> norm k (exp_chart k d) <> 0 /\ eqn k (log_chart k (exp_chart k d)) d.
Proof.
  intros N L. pose proof (norm_nonneg k d) as P. assert (0 < sin (norm k d)) as SP by (apply sin_gt_0; lra).
  rewrite exp_head by exact N. rewrite Rabs_pos_eq by lra. split; [lra|]. intros i Hi. unfold log_chart. rewrite exp_head, Rabs_pos_eq by lra.
  unfold exp_chart at 1. rewrite append_last.
  assert (atan2 (sin (norm k d)) (cos (norm k d)) = norm k d) as ->.
  { pose proof PI_RGT_0. rewrite <- (atan2_polar 1 (norm k d)) at 3 by lra. rewrite !Rmult_1_l. reflexivity. }
  unfold exp_chart. rewrite append_lt by exact Hi. field. lra.
Qed.
Lemma log_norm k u : norm k u <> 0 -> norm (S k) u = 1 ->
  let t := atan2 (norm k u) (u k) in norm k (log_chart k u) = t /\ 0 < t < PI /\ cos t = u k /\ sin t = norm k u.
Proof.
  intros N U. cbv zeta. pose proof (norm_nonneg k u) as P. pose proof (norm_S k u) as S1. rewrite U in S1.
  destruct (atan2_spec (norm k u) (u k) 1 ltac:(lra) ltac:(lra)) as (C & S0 & B).
  unfold Rdiv in C, S0. rewrite Rinv_1, Rmult_1_r in C, S0. set (t := atan2 (norm k u) (u k)) in *.
  assert (0 < t < PI) as T.
  { destruct (Rle_dec t 0) as [L|L].
    - destruct (Req_dec t 0) as [E|E]; [rewrite E, sin_0 in S0; lra|]. pose proof (sin_neg_range t ltac:(lra)). lra.
    - split; [lra|]. destruct (Req_dec t PI) as [E|E]; [rewrite E, sin_PI in S0; lra|lra]. }
  split; [|auto]. unfold log_chart. fold t. rewrite norm_scale. unfold Rdiv. rewrite Rabs_mult, Rabs_inv by assumption.
  rewrite !Rabs_pos_eq by lra. field. exact N.
Qed.
Lemma exp_log k u : norm k u <> 0 -> norm (S k) u = 1 -> eqn (S k) (exp_chart k (log_chart k u)) u.
Proof.
  intros N U. pose proof (log_norm k u N U) as L. cbv zeta in L. destruct L as (L1 & L2 & L3 & L4).
  intros i Hi. unfold exp_chart. rewrite L1, L3, L4. destruct (Nat.eq_dec i k) as [->|Ni]; [apply append_last|].
  rewrite append_lt by lia. unfold log_chart. field. split; lra.
Qed.
Lemma exp_ext k d d' : eqn k d d' -> eqn (S k) (exp_chart k d) (exp_chart k d').
Proof.
  intros H i Hi. unfold exp_chart. rewrite (norm_ext k d d' H). destruct (Nat.eq_dec i k) as [->|Ni]; [rewrite !append_last; reflexivity|].
  rewrite !append_lt by lia. rewrite (H i) by lia. reflexivity.
Qed.
Lemma log_ext k u u' : eqn (S k) u u' -> eqn k (log_chart k u) (log_chart k u').
Proof.
  intros H i Hi. unfold log_chart. rewrite (norm_ext k u u') by (intros j Hj; apply H; lia). rewrite (H k), (H i) by lia. reflexivity.
Qed.

(* first order behaviour *)
Lemma cos_small eps : 0 < eps -> exists del, 0 < del /\ forall t, 0 <= t < del -> Rabs (cos t - 1) <= eps * t.
Proof.
  intro He. pose proof (derivable_pt_lim_cos 0) as D. destruct (D eps He) as [del Hd]. exists (pos del). split; [apply cond_pos|].
  intros t [T0 T1]. destruct (Req_dec t 0) as [->|N]; [rewrite cos_0; replace (1 - 1) with 0 by ring; rewrite Rabs_R0; lra|].
  specialize (Hd t N ltac:(rewrite Rabs_pos_eq; lra)). rewrite Rplus_0_l, cos_0, sin_0 in Hd.
  replace (cos t - 1) with (t * ((cos t - 1) / t - - 0)) by (field; exact N). rewrite Rabs_mult, (Rabs_pos_eq t) by lra. nra.
Qed.
Lemma sin_small eps : 0 < eps -> exists del, 0 < del /\ forall t, 0 < t < del -> Rabs (sin t / t - 1) <= eps.
Proof.
  intro He. pose proof (derivable_pt_lim_sin 0) as D. destruct (D eps He) as [del Hd]. exists (pos del). split; [apply cond_pos|].
  intros t [T0 T1]. specialize (Hd t ltac:(lra) ltac:(rewrite Rabs_pos_eq; lra)). rewrite Rplus_0_l, sin_0, cos_0, Rminus_0_r in Hd. lra.
Qed.
Lemma atan_small eps : 0 < eps -> exists del, 0 < del /\ forall s, 0 < s < del -> Rabs (atan s - s) <= eps * s.
Proof.
  intro He. pose proof (derivable_pt_lim_atan 0) as D. destruct (D eps He) as [del Hd]. exists (pos del). split; [apply cond_pos|].
  intros s [T0 T1]. specialize (Hd s ltac:(lra) ltac:(rewrite Rabs_pos_eq; lra)).
  rewrite Rplus_0_l, atan_0, Rminus_0_r in Hd. replace (/ (1 + 0 ^ 2)) with 1 in Hd by field.
  replace (atan s - s) with (s * (atan s / s - 1)) by (field; lra). rewrite Rabs_mult, (Rabs_pos_eq s) by lra. nra.
Qed.

Lemma exp_first_order k eps : 0 < eps -> exists del, 0 < del /\ forall d, norm k d <> 0 -> norm k d < del ->
  (forall i, (i < k)%nat -> Rabs (exp_chart k d i - d i) <= eps * norm k d) /\ Rabs (exp_chart k d k - 1) <= eps * norm k d.
Proof.
  intro He. destruct (cos_small eps He) as (d1 & P1 & H1). destruct (sin_small eps He) as (d2 & P2 & H2).
  exists (Rmin d1 d2). split; [apply Rmin_pos; assumption|]. intros d N L. pose proof (norm_nonneg k d) as P.
  assert (norm k d < d1 /\ norm k d < d2) as [L1 L2] by (pose proof (Rmin_l d1 d2); pose proof (Rmin_r d1 d2); lra).
  split.
  - intros i Hi. unfold exp_chart. rewrite append_lt by exact Hi.
    replace (sin (norm k d) / norm k d * d i - d i) with ((sin (norm k d) / norm k d - 1) * d i) by ring. rewrite Rabs_mult.
    specialize (H2 (norm k d) ltac:(lra)). pose proof (entry_le_norm k d i Hi). pose proof (Rabs_pos (d i)).
    apply Rmult_le_compat; [apply Rabs_pos|assumption|assumption|assumption].
  - unfold exp_chart. rewrite append_last. apply H1. lra.
Qed.

(* u close to (0, ..., 0, 1) *)
Lemma log_first_order k eps : 0 < eps -> exists del, 0 < del /\ forall u M, norm k u <> 0 -> 0 <= M -> M < del ->
  norm k u <= M -> Rabs (u k - 1) <= M ->
  forall i, (i < k)%nat -> Rabs (log_chart k u i - u i) <= eps * M.
Proof.
  intro He. destruct (atan_small (eps / 4) ltac:(lra)) as (d1 & P1 & H1).
  exists (Rmin (1 / 2) (Rmin (d1 / 2) (eps / 4))). split; [repeat apply Rmin_pos; lra|]. intros u M N M0 ML Hr Hw i Hi.
  assert (M < 1 / 2 /\ M < d1 / 2 /\ M < eps / 4) as (L1 & L2 & L3).
  { pose proof (Rmin_l (1 / 2) (Rmin (d1 / 2) (eps / 4))). pose proof (Rmin_r (1 / 2) (Rmin (d1 / 2) (eps / 4))).
    pose proof (Rmin_l (d1 / 2) (eps / 4)). pose proof (Rmin_r (d1 / 2) (eps / 4)). lra. }
  pose proof (norm_nonneg k u) as P. set (r := norm k u) in *. set (w := u k) in *.
  assert (- M <= w - 1 <= M) as Hw2 by (unfold Rabs in Hw; destruct (Rcase_abs _); lra). assert (1 / 2 < w) as W by lra.
  unfold log_chart. fold r w. assert (atan2 r w = atan (r / w)) as -> by (unfold atan2; destruct (Rlt_dec 0 w); [reflexivity|lra]).
  pose proof (entry_le_norm k u i Hi) as UI. fold r in UI.
  assert (Rabs (atan (r / w) - r) <= eps * M) as K.
  { assert (0 < r / w) as Q0 by (apply Rdiv_lt_0_compat; lra).
    assert (r / w <= 2 * r) as Q1 by (apply (Rmult_le_reg_r w); [lra|]; unfold Rdiv; rewrite Rmult_assoc, Rinv_l, Rmult_1_r by lra; nra).
    specialize (H1 (r / w) ltac:(lra)).
    assert (Rabs (r / w - r) <= 2 * r * M) as Q2.
    { replace (r / w - r) with (r / w * (1 - w)) by (field; lra). rewrite Rabs_mult, (Rabs_pos_eq (r / w)) by lra.
      assert (Rabs (1 - w) <= M) by (apply Rabs_le; lra). pose proof (Rabs_pos (1 - w)). nra. }
    replace (atan (r / w) - r) with ((atan (r / w) - r / w) + (r / w - r)) by ring.
    eapply Rle_trans; [apply Rabs_triang|].
    assert (eps / 4 * (r / w) <= eps / 2 * M) by nra. assert (2 * r * M <= eps / 2 * M) by nra. lra. }
  replace (atan (r / w) / r * u i - u i) with ((atan (r / w) - r) * (u i / r)) by (field; exact N).
  rewrite Rabs_mult. assert (Rabs (u i / r) <= 1) as U1.
  { unfold Rdiv. rewrite Rabs_mult, Rabs_inv, (Rabs_pos_eq r) by assumption. apply (Rmult_le_reg_r r); [lra|]. rewrite Rmult_assoc, Rinv_l by exact N. lra. }
  pose proof (Rabs_pos (atan (r / w) - r)). pose proof (Rabs_pos (u i / r)). nra.
Qed.
