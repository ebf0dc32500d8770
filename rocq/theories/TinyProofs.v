From Coq Require Import Reals List Arith Bool Lra Lia Psatz.
From Verif Require Import SchurModel SchurProofs TinyModel TinySpec.
Import ListNotations.
Open Scope R_scope.

Lemma lt_true a b : lt a b = true -> a < b.
Proof. unfold lt; destruct (Rlt_dec a b); congruence. Qed.
Lemma lt_false a b : lt a b = false -> b <= a.
Proof. unfold lt; destruct (Rlt_dec a b); [congruence|intros; lra]. Qed.

Lemma clamp_pos x lo hi : 0 < lo -> lo < hi -> 0 < clamp x lo hi.
Proof.
  intros H H2; unfold clamp. destruct (lt x lo) eqn:E; [lra|apply lt_false in E].
  destruct (lt hi x); lra.
Qed.
Lemma lo_pos : 0 < / 10 ^ 6.
Proof. apply Rinv_0_lt_compat, pow_lt; lra. Qed.
Lemma lo_hi : / 10 ^ 6 < 10 ^ 32.
Proof.
  apply Rlt_trans with 1.
  - rewrite <- Rinv_1. apply Rinv_lt_contravar; [rewrite Rmult_1_l; apply pow_lt; lra|].
    replace 1 with (1 ^ 6) by ring. apply pow_incr_strict || (simpl; lra).
  - apply Rlt_pow_R1; [lra|lia].
Qed.

(** The state that describes point x with scaling sc. *)
Definition St (m n : nat) (f : Function) (sc : vec) (x : vec) : Solver :=
  let r' := fun i => - f_res f x i in
  let J' := fun i j => f_jac f x i j * sc j in
  let jtj' := fun i j => sumn m (fun k => J' k i * J' k j) in
  let g' := fun i => sumn m (fun k => J' k i * r' k) in
  mkS r' J' sc jtj' g' (squaredNorm m r' / 2) (abs_maxCoeff n g').

Definition sc0 m f x0 : vec := fun j => 1 / (1 + norm m (fun i => f_jac f x0 i j)).

Lemma Update_ok m n f b s x : ok f x = true ->
  snd (Update m n f b s x) = St m n f (if b then sc0 m f x else jacobi_scaling s) x.
Proof. intros H; unfold Update; rewrite H; cbn. destruct b; reflexivity. Qed.

Lemma St_cost m n f sc x : cost (St m n f sc x) = cost_at m f x.
Proof.
  unfold St, cost_at, squaredNorm; cbn [cost].
  rewrite (sumn_ext m _ (fun i => f_res f x i ^ 2)) by (intros; ring). field.
Qed.

Lemma sq_new m f x : squaredNorm m (f_res f x) = 2 * cost_at m f x.
Proof.
  unfold squaredNorm, cost_at.
  rewrite (sumn_ext m _ (fun i => f_res f x i ^ 2)) by (intros; ring). field.
Qed.

Lemma sc0_pos m f x j : 0 < sc0 m f x j.
Proof. unfold sc0. apply Rdiv_lt_0_compat; [lra|]. pose proof (sqrt_pos (squaredNorm m (fun i => f_jac f x i j))). unfold norm; lra. Qed.
Lemma sc0_scale m f x j : sc0 m f x j = scale_at m f x j.
Proof.
  unfold sc0, scale_at, norm, squaredNorm.
  rewrite (sumn_ext m (fun i => f_jac f x i j * f_jac f x i j) (fun i => f_jac f x i j ^ 2)) by (intros; ring).
  unfold Rdiv; ring.
Qed.

Lemma sumn_sq_nonneg n h : 0 <= sumn n (fun i => h i * h i).
Proof. apply sumn_nonneg; intros; nra. Qed.

(** The quadratic form of J'J. *)
Lemma gram_form m n (J : mat) w :
  sumn n (fun i => sumn n (fun j => w i * sumn m (fun k => J k i * J k j) * w j))
  = sumn m (fun k => sumn n (fun i => J k i * w i) * sumn n (fun i => J k i * w i)).
Proof.
  rewrite (sumn_ext n _ (fun i => sumn m (fun k => (J k i * w i) * sumn n (fun j => J k j * w j)))).
  - rewrite sumn_swap. apply sumn_ext; intros k Hk. rewrite <- sumn_scal_r. reflexivity.
  - intros i Hi. rewrite (sumn_ext n _ (fun j => sumn m (fun k => (J k i * w i) * (J k j * w j)))).
    + rewrite sumn_swap. apply sumn_ext; intros k Hk. rewrite sumn_scal. reflexivity.
    + intros j Hj. transitivity (w i * w j * sumn m (fun k => J k i * J k j)); [ring|].
      rewrite <- sumn_scal. apply sumn_ext; intros; ring.
Qed.

Lemma diag_row n i (a : nat -> R) d (h : nat -> R) : (i < n)%nat ->
  sumn n (fun j => (if Nat.eqb i j then a j + d else a j) * h j) = sumn n (fun j => a j * h j) + d * h i.
Proof.
  intros Hi.
  rewrite (sumn_ext n _ (fun j => a j * h j + (if Nat.eqb i j then d * h j else 0))).
  - rewrite sumn_plus. f_equal. rewrite (sumn_single n _ i Hi).
    + rewrite Nat.eqb_refl; reflexivity.
    + intros j Hj Hne. destruct (Nat.eqb_spec i j); [congruence|reflexivity].
  - intros j Hj. destruct (Nat.eqb i j); ring.
Qed.

Section S.
Variables (m n : nat) (f : Function) (sc x : vec) (u : R).
Hypothesis Hu : 0 < u.
Let s := St m n f sc x.
Let D i := u * clamp (jtj s i i) (/ 10 ^ 6) (10 ^ 32).

Lemma D_pos i : 0 < D i.
Proof. unfold D. apply Rmult_lt_0_compat; [exact Hu|apply clamp_pos; [apply lo_pos|apply lo_hi]]. Qed.

Lemma reg_row i h : (i < n)%nat ->
  sumn n (fun j => regularized s u i j * h j) = sumn n (fun j => jtj s i j * h j) + D i * h i.
Proof. intros Hi. unfold regularized. apply (diag_row n i (jtj s i) (D i) h Hi). Qed.

Lemma reg_sym : symmetric n (regularized s u).
Proof.
  intros i j Hi Hj. unfold regularized. rewrite (Nat.eqb_sym j i). destruct (Nat.eqb_spec i j).
  - subst; reflexivity.
  - cbn. apply sumn_ext; intros; ring.
Qed.

Lemma jtj_form w : 0 <= sumn n (fun i => sumn n (fun j => w i * jtj s i j * w j)).
Proof.
  unfold s, St; cbn [jtj]. rewrite (gram_form m n (fun i j => f_jac f x i j * sc j) w). apply sumn_nonneg; intros.
  match goal with |- 0 <= ?a * ?a => nra end.
Qed.

Lemma D_form w : (exists i, (i < n)%nat /\ w i <> 0) -> 0 < sumn n (fun i => D i * w i * w i).
Proof.
  intros [i [Hi Hw]].
  assert (P : forall k, (k < n)%nat -> 0 <= D k * w k * w k).
  { intros k Hk. pose proof (D_pos k). nra. }
  destruct (Rle_lt_or_eq_dec _ _ (sumn_nonneg n _ P)) as [L|E]; [exact L|].
  symmetry in E. pose proof (sumn_nonneg_zero n _ P E i Hi) as Z. cbn in Z.
  pose proof (D_pos i). exfalso. apply Rmult_integral in Z as [Z|Z]; [|exact (Hw Z)].
  apply Rmult_integral in Z as [Z|Z]; [lra|exact (Hw Z)].
Qed.

Lemma reg_pd : positive_definite n (regularized s u).
Proof.
  intros w Hw.
  rewrite (sumn_ext n _ (fun i => sumn n (fun j => w i * jtj s i j * w j) + D i * w i * w i)).
  - rewrite sumn_plus. pose proof (jtj_form w). pose proof (D_form w Hw). lra.
  - intros i Hi. transitivity (w i * sumn n (fun j => regularized s u i j * w j)).
    + rewrite <- sumn_scal. apply sumn_ext; intros; ring.
    + rewrite (reg_row i w Hi). rewrite Rmult_plus_distr_l, <- sumn_scal.
      f_equal; [apply sumn_ext; intros; ring|ring].
Qed.

Variable solve : mat -> vec -> vec.
Hypothesis Hs : exact_solver n solve.
Let h := solve (regularized s u) (g s).

Lemma step_eq i : (i < n)%nat -> sumn n (fun j => jtj s i j * h j) + D i * h i = g s i.
Proof. intros Hi. rewrite <- (reg_row i h Hi). exact (Hs _ _ reg_sym reg_pd i Hi). Qed.

Lemma model_change :
  dot n h (fun i => 2 * g s i - sumn n (fun j => jtj s i j * h j))
  = sumn n (fun i => sumn n (fun j => h i * jtj s i j * h j)) + 2 * sumn n (fun i => D i * h i * h i).
Proof.
  unfold dot. rewrite <- sumn_scal, <- sumn_plus. apply sumn_ext; intros i Hi.
  pose proof (step_eq i Hi) as E. rewrite <- E.
  rewrite (sumn_ext n (fun j => h i * jtj s i j * h j) (fun j => h i * (jtj s i j * h j))) by (intros; ring).
  rewrite sumn_scal. ring.
Qed.

Lemma h_zero_dec : (exists i, (i < n)%nat /\ h i <> 0) \/ (forall i, (i < n)%nat -> h i = 0).
Proof.
  clear. induction n as [|k IH]; [right; intros; lia|].
  destruct IH as [[i [Hi Hw]]|Hz]; [left; exists i; split; [lia|exact Hw]|].
  destruct (Req_dec (h k) 0) as [E|E]; [right|left; exists k; split; [lia|exact E]].
  intros i Hi. destruct (Nat.eq_dec i k); [subst; exact E|apply Hz; lia].
Qed.

Lemma model_nonneg : 0 <= dot n h (fun i => 2 * g s i - sumn n (fun j => jtj s i j * h j)).
Proof.
  rewrite model_change. pose proof (jtj_form h).
  assert (0 <= sumn n (fun i => D i * h i * h i)); [|lra].
  apply sumn_nonneg; intros. pose proof (D_pos i). nra.
Qed.
End S.
