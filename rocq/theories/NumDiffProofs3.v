From Coq Require Import Reals List Arith ZArith Bool Lia Lra.
From Coquelicot Require Import Coquelicot.
From Verif Require Import NumDiffModel NumDiffSpec NumDiffProofs.
Import ListNotations.
Open Scope R_scope.

Lemma moved_0 x b j : valid x b j -> moved x b j 0 = x.
Proof. intro V. rewrite <- set2_moved by exact V. rewrite Rplus_0_r. apply set2_id. exact V. Qed.
Lemma along_0 f x b j i g r0 : valid x b j -> along f x b j i g -> f x = Some r0 -> r0 i = g 0.
Proof. intros V A E. destruct (A 0) as [r [E1 E2]]. rewrite moved_0 in E1 by exact V. congruence. Qed.
Lemma forward_along f r0 x b j h q i g : valid x b j -> along f x b j i g -> f x = Some r0 -> forward f r0 x b j h = Some q -> q i = (g h - g 0) / h.
Proof. intros V A E Q. rewrite <- (along_0 f x b j i g r0 V A E). destruct (A h) as [r [E1 <-]]. unfold forward in Q. rewrite E1 in Q. injection Q as <-. reflexivity. Qed.
Lemma central_along f x b j h q i g : along f x b j i g -> central f x b j h = Some q -> q i = (g h - g (- h)) / (2 * h).
Proof. intros A Q. destruct (A h) as [r [E1 <-]]. destruct (A (- h)) as [r' [E2 <-]]. unfold central in Q. rewrite E1, E2 in Q. injection Q as <-. reflexivity. Qed.

(* ---------------- polynomials ---------------- *)
Fixpoint evens (a : list R) : list R := match a with [] => [] | c :: a' => c :: match a' with [] => [] | _ :: a'' => evens a'' end end.
Definition odds (a : list R) : list R := match a with [] => [] | _ :: a' => evens a' end.
Lemma evens_cons c a : evens (c :: a) = c :: odds a. Proof. destruct a; reflexivity. Qed.
Lemma split_poly a t : polynomial a t = polynomial (evens a) (t * t) + t * polynomial (odds a) (t * t).
Proof. induction a as [|c a IH]; [cbn; ring|]. rewrite evens_cons. cbn [odds polynomial]. rewrite IH. ring. Qed.
Lemma central_poly a h : h <> 0 -> (polynomial a h - polynomial a (- h)) / (2 * h) = polynomial (odds a) (h * h).
Proof. intro H. rewrite (split_poly a h), (split_poly a (- h)). replace (- h * - h) with (h * h) by ring. field. exact H. Qed.
Lemma evens_length : forall n a, (length a <= n)%nat -> (length (evens a) <= S n / 2)%nat.
Proof.
  induction n as [n IH] using lt_wf_ind. intros a H. destruct a as [|c [|c' a]]; [cbn; lia| |].
  - cbn [evens length] in *. apply Nat.div_le_lower_bound; lia.
  - cbn [evens length] in *. assert (length (evens a) <= S (n - 2) / 2)%nat as L by (apply IH; lia). replace (S n) with (S (n - 2) + 1 * 2)%nat by lia. rewrite Nat.div_add by lia. lia.
Qed.
Lemma odds_length k a : (length a <= 2 * k + 1)%nat -> (length (odds a) <= k)%nat.
Proof. destruct a as [|c a]; cbn [odds length]; intro H; [lia|]. pose proof (evens_length (2 * k) a ltac:(lia)) as E. replace (S (2 * k)) with (1 + k * 2)%nat in E by lia. rewrite Nat.div_add in E by lia. cbn in E. lia. Qed.
Lemma odds_0 a : nth 0 (odds a) 0 = nth 1 a 0. Proof. destruct a as [|c [|c' a]]; reflexivity. Qed.

Section Damp.
Variable q : R.
Fixpoint damp (F z : R) (a : list R) : list R := match a with [] => [] | c :: a' => c * (F - z) / (F - 1) :: damp F (z * q) a' end.
Lemma damp_poly F : F <> 1 -> forall a z u, polynomial (damp F z a) u = (F * polynomial a u - z * polynomial a (q * u)) / (F - 1).
Proof. intro H. induction a as [|c a IH]; intros z u; cbn [damp polynomial]; [field; lra|]. rewrite IH. field. lra. Qed.
Lemma damp_length F : forall a z, length (damp F z a) = length a.
Proof. induction a as [|c a IH]; intro z; cbn; auto. Qed.
Lemma damp_nth F : forall a z p, nth p (damp F z a) 0 = nth p a 0 * (F - z * q ^ p) / (F - 1).
Proof.
  induction a as [|c a IH]; intros z [|p]; cbn [damp nth pow]; [unfold Rdiv; ring|unfold Rdiv; ring|rewrite Rmult_1_r; reflexivity|]. rewrite IH. f_equal. f_equal. ring. Qed.
Fixpoint damped (k : nat) (a : list R) : list R := match k with O => a | S k' => damp (q ^ k) 1 (damped k' a) end.
Hypothesis Hq : forall k, (0 < k)%nat -> q ^ k <> 1.
Lemma damped_length k a : length (damped k a) = length a.
Proof. induction k as [|k IH]; cbn [damped]; [reflexivity|]. rewrite damp_length. exact IH. Qed.
Lemma damped_0 k a : nth 0 (damped k a) 0 = nth 0 a 0.
Proof. induction k as [|k IH]; [reflexivity|]. change (damped (S k) a) with (damp (q ^ S k) 1 (damped k a)). rewrite damp_nth, IH. pose proof (Hq (S k) ltac:(lia)). replace (q ^ 0) with 1 by reflexivity. field. lra. Qed.
Lemma damped_zero k a : forall p, (1 <= p <= k)%nat -> nth p (damped k a) 0 = 0.
Proof.
  induction k as [|k IH]; intros p Hp; [lia|]. change (damped (S k) a) with (damp (q ^ S k) 1 (damped k a)). rewrite damp_nth. pose proof (Hq (S k) ltac:(lia)) as Hk.
  destruct (Nat.eq_dec p (S k)) as [->|]; [field; lra|]. rewrite IH by lia. field. lra.
Qed.
Lemma poly_constant : forall a u, (forall p, (1 <= p)%nat -> nth p a 0 = 0) -> polynomial a u = nth 0 a 0.
Proof.
  destruct a as [|c a]; intros u H; [reflexivity|]. cbn [polynomial nth].
  assert (forall a, (forall p, nth p a 0 = 0) -> polynomial a u = 0) as Z.
  { clear. induction a as [|c a IH]; intro H; cbn [polynomial]; [reflexivity|]. rewrite IH by (intro p; apply (H (S p))). pose proof (H 0%nat) as E. cbn in E. rewrite E. ring. }
  rewrite Z; [ring|]. intro p. apply (H (S p)). lia.
Qed.
Lemma damped_exact k a u : (length a <= S k)%nat -> polynomial (damped k a) u = nth 0 a 0.
Proof. intro H. rewrite poly_constant; [apply damped_0|]. intros p Hp. destruct (Nat.le_gt_cases p k); [apply damped_zero; lia|]. apply nth_overflow. rewrite damped_length. lia. Qed.
End Damp.

Lemma pow_gt_1 s k : 1 < s -> (0 < k)%nat -> 1 < s ^ k.
Proof. intros H Hk. apply Rlt_pow_R1; assumption. Qed.
Lemma square_gt_1 s : 1 < s -> 1 < s * s. Proof. intro H. assert (s < s * s); [|lra]. rewrite <- (Rmult_1_r s) at 1. apply Rmult_lt_compat_l; lra. Qed.
(* the tableau of an even power series in the step *)
Lemma tableau_poly s d r o (u : nat -> R) : 1 < s -> (forall i, u i = s * s * u (S i)) ->
  forall k i, (k <= i)%nat -> (forall i', (i' <= i)%nat -> d i' r = polynomial o (u i')) -> tableau s d k i r = polynomial (damped (s * s) k o) (u i).
Proof.
  intros Hs Hu. induction k as [|k IH]; intros i Hi H.
  - cbn [tableau damped]. apply H. lia.
  - cbn [tableau]. rewrite (IH i), (IH (i - 1)%nat) by (try lia; intros; apply H; lia). destruct i as [|i]; [lia|]. replace (S i - 1)%nat with i by lia. rewrite (Hu i).
    change (damped (s * s) (S k) o) with (damp (s * s) ((s * s) ^ S k) 1 (damped (s * s) k o)). rewrite damp_poly; [f_equal; ring|]. pose proof (pow_gt_1 (s * s) (S k) (square_gt_1 s Hs) ltac:(lia)). lra.
Qed.
(* Richardson extrapolation of the central quotients of a polynomial *)
Lemma tableau_exact s d r a (h : nat -> R) : 1 < s -> (forall i, h i <> 0) -> (forall i, h (S i) = h i / s) ->
  forall k i, (k <= i)%nat -> (forall i', (i' <= i)%nat -> d i' r = (polynomial a (h i') - polynomial a (- h i')) / (2 * h i')) ->
  (length a <= 2 * k + 3)%nat -> tableau s d k i r = nth 1 a 0.
Proof.
  intros Hs Hh Hn k i Hi Hd Ha. rewrite (tableau_poly s d r (odds a) (fun i => h i * h i) Hs).
  - rewrite damped_exact; [apply odds_0| |apply odds_length; lia]. intros p Hp. pose proof (pow_gt_1 (s * s) p (square_gt_1 s Hs) Hp). lra.
  - intro i'. rewrite Hn. field. lra.
  - exact Hi.
  - intros i' Hi'. rewrite Hd by exact Hi'. apply central_poly. apply Hh.
Qed.

(* ---------------- smooth functions ---------------- *)
Lemma forward_error g h M : 0 < h -> (forall t k, (k <= 2)%nat -> ex_derive_n g k t) -> (forall t, 0 <= t <= h -> Rabs (Derive_n g 2 t) <= M) ->
  Rabs ((g h - g 0) / h - Derive g 0) <= M / 2 * h.
Proof.
  intros Hh Hd HM. destruct (Taylor_Lagrange g 1 0 h Hh) as [z [Hz E]]; [intros; apply Hd; assumption|].
  cbn [sum_f_R0 pow fact] in E. change (Derive_n g 0 0) with (g 0) in E. change (Derive_n g 1 0) with (Derive g 0) in E.
  replace (INR (1 * 1)) with 1 in E by reflexivity. replace (INR (2 * (1 * 1))) with 2 in E by (cbn; ring).
  assert ((g h - g 0) / h - Derive g 0 = Derive_n g 2 z / 2 * h) as ->.
  { rewrite E. replace (INR 1) with 1 by reflexivity. field. lra. }
  specialize (HM z ltac:(lra)). rewrite Rabs_mult, (Rabs_right h) by lra. apply Rmult_le_compat_r; [lra|]. unfold Rdiv. rewrite Rabs_mult, (Rabs_right (/ 2)) by lra. lra.
Qed.
Lemma central_error g h M : 0 < h -> (forall t k, (k <= 3)%nat -> ex_derive_n g k t) -> (forall t, - h <= t <= h -> Rabs (Derive_n g 3 t) <= M) ->
  Rabs ((g h - g (- h)) / (2 * h) - Derive g 0) <= M / 6 * (h * h).
Proof.
  intros Hh Hd HM.
  assert (forall k t, (k <= 3)%nat -> Derive_n (fun y => g (- y)) k t = (-1) ^ k * Derive_n g k (- t)) as Dm.
  { intros k t Hk. apply Derive_n_comp_opp. apply filter_forall. intros y k' Hk'. apply Hd. lia. }
  assert (forall k t, (k <= 3)%nat -> ex_derive_n (fun y => g (- y)) k t) as Em.
  { intros k t Hk. apply ex_derive_n_comp_opp. apply filter_forall. intros y k' Hk'. apply Hd. lia. }
  destruct (Taylor_Lagrange g 2 0 h Hh) as [z [Hz E]]; [intros; apply Hd; assumption|].
  destruct (Taylor_Lagrange (fun y => g (- y)) 2 0 h Hh) as [w [Hw E']]; [intros; apply Em; assumption|].
  cbn [sum_f_R0] in E, E'. rewrite !Dm in E' by lia. rewrite Ropp_0 in E'. change (Derive_n g 0 0) with (g 0) in E, E'. change (Derive_n g 1 0) with (Derive g 0) in E, E'.
  replace (INR (fact 0)) with 1 in E, E' by reflexivity. replace (INR (fact 1)) with 1 in E, E' by reflexivity.
  replace (INR (fact 2)) with 2 in E, E' by (cbn; ring). replace (INR (fact 3)) with 6 in E, E' by (cbn; ring).
  assert ((g h - g (- h)) / (2 * h) - Derive g 0 = (Derive_n g 3 z + Derive_n g 3 (- w)) / 12 * (h * h)) as ->.
  { rewrite E, E'. field. lra. }
  pose proof (HM z ltac:(lra)) as M1. pose proof (HM (- w) ltac:(lra)) as M2.
  assert (0 < h * h) by (apply Rmult_lt_0_compat; lra). rewrite Rabs_mult, (Rabs_right (h * h)) by lra. apply Rmult_le_compat_r; [lra|].
  unfold Rdiv. rewrite Rabs_mult, (Rabs_right (/ 12)) by lra. pose proof (Rabs_triang (Derive_n g 3 z) (Derive_n g 3 (- w))). lra.
Qed.
