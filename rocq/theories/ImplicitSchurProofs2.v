(* The normal equations and their Schur complement, for flat matrices. *)
From Coq Require Import Reals ZArith List Arith Bool Lia Lra.
From Verif Require Import SchurModel SchurProofs BlockSparseModel CGModel CGSpec CGProofs CGProofs2 CGProps ImplicitSchurSpec.
Import ListNotations.
Open Scope R_scope.

Lemma definite_null n M v : definite n M -> inner n v (apply n M v) = 0 -> same n v (fun _ => 0).
Proof. intros P E i Hi. destruct (Req_EM_T (v i) 0) as [Z|Z]; [exact Z|]. specialize (P v (ex_intro _ i (conj Hi Z))). lra. Qed.
Lemma apply_minus n M u v i : apply n M (fun k => u k - v k) i = apply n M u i - apply n M v i.
Proof. unfold apply. rewrite <- sumn_minus. apply sumn_ext. intros. ring. Qed.
Lemma apply_plus n M u v i : apply n M (fun k => u k + v k) i = apply n M u i + apply n M v i.
Proof. unfold apply. rewrite <- sumn_plus. apply sumn_ext. intros. ring. Qed.
Lemma apply_opp n M u i : apply n M (fun k => - u k) i = - apply n M u i.
Proof. unfold apply. rewrite <- sumn_opp. apply sumn_ext. intros. ring. Qed.
Lemma apply_same n M u v i : same n u v -> apply n M u i = apply n M v i.
Proof. intro E. unfold apply. apply sumn_ext. intros j Hj. rewrite (E j Hj). reflexivity. Qed.
Lemma inner_same n u u' v v' : same n u u' -> same n v v' -> inner n u v = inner n u' v'.
Proof. intros E E'. unfold inner. apply sumn_ext. intros j Hj. rewrite (E j Hj), (E' j Hj). reflexivity. Qed.
Lemma inner_comm n u v : inner n u v = inner n v u. Proof. apply sumn_ext. intros. ring. Qed.
Lemma form_sym n M u v : symmetric n M -> inner n u (apply n M v) = inner n v (apply n M u).
Proof.
  intro SM. unfold inner, apply. rewrite (sumn_ext n _ (fun i => sumn n (fun j => u i * (M i j * v j)))) by (intros; rewrite sumn_scal; reflexivity).
  rewrite sumn_swap. apply sumn_ext. intros j Hj. rewrite <- sumn_scal. apply sumn_ext. intros i Hi. rewrite (SM i j Hi Hj). ring.
Qed.
Lemma inverse_apply n M N : inverse_of n M N -> (forall x, same n (apply n M (apply n N x)) x) /\ (forall x, same n (apply n N (apply n M x)) x).
Proof.
  intro I. assert (forall P Q, (forall i j, (i < n)%nat -> (j < n)%nat -> sumn n (fun k => P i k * Q k j) = if (i =? j)%nat then 1 else 0) -> forall x, same n (apply n P (apply n Q x)) x) as G.
  { intros P Q E x i Hi. unfold apply. rewrite (sumn_ext n _ (fun k => sumn n (fun j => P i k * (Q k j * x j)))) by (intros; rewrite sumn_scal; reflexivity).
    rewrite sumn_swap, (sumn_ext n _ (fun j => (if (i =? j)%nat then 1 else 0) * x j)).
    - rewrite (sumn_single n _ i Hi); [rewrite Nat.eqb_refl; ring|]. intros j Hj N0. destruct (Nat.eqb_spec i j); [lia|ring].
    - intros j Hj. rewrite <- (E i j Hi Hj), <- sumn_scal_r. apply sumn_ext. intros. ring. }
  split; apply G; intros i j Hi Hj; apply (I i j Hi Hj).
Qed.
Lemma apply_unit n M j i : (j < n)%nat -> apply n M (fun k => if (k =? j)%nat then 1 else 0) i = M i j.
Proof. intro Hj. unfold apply. rewrite (sumn_single n _ j Hj); [rewrite Nat.eqb_refl; ring|]. intros k Hk N. destruct (Nat.eqb_spec k j); [lia|ring]. Qed.
Lemma inner_unit n i v : (i < n)%nat -> inner n (fun k => if (k =? i)%nat then 1 else 0) v = v i.
Proof. intro Hi. unfold inner. rewrite (sumn_single n _ i Hi); [rewrite Nat.eqb_refl; ring|]. intros k Hk N. destruct (Nat.eqb_spec k i); [lia|ring]. Qed.
Lemma symmetric_form n M : (forall u v, inner n u (apply n M v) = inner n v (apply n M u)) -> symmetric n M.
Proof.
  intros E i j Hi Hj. rewrite <- (apply_unit n M j i Hj), <- (inner_unit n i _ Hi), E, inner_unit by exact Hj. apply apply_unit. exact Hi.
Qed.
(* the inverse of a symmetric definite matrix *)
Lemma inverse_symmetric n M N : symmetric n M -> inverse_of n M N -> symmetric n N.
Proof.
  intros SM I. destruct (inverse_apply n M N I) as [A _]. apply symmetric_form. intros u v.
  rewrite (inner_same n u (apply n M (apply n N u)) (apply n N v) (apply n N v)) by (intros i Hi; symmetry; apply A || reflexivity; exact Hi || reflexivity).
  rewrite inner_comm, (form_sym n M _ _ SM), (inner_comm n v). apply inner_same; [intros i _; reflexivity|apply A].
Qed.
Lemma inverse_definite n M N : symmetric n M -> definite n M -> inverse_of n M N -> definite n N.
Proof.
  intros SM P I v [i [Hi Nv]]. destruct (inverse_apply n M N I) as [A _].
  rewrite (inner_same n v (apply n M (apply n N v)) (apply n N v) (apply n N v)) by (intros k Hk; symmetry; apply A || reflexivity; exact Hk || reflexivity). rewrite inner_comm. apply P.
  destruct (Rlt_dec 0 (inner n (apply n N v) (apply n N v))) as [G|G].
  - apply Classical_Prop.NNPP. intro X. assert (inner n (apply n N v) (apply n N v) = 0) as Z; [|lra].
    apply sumn_zero. intros k Hk. destruct (Req_EM_T (apply n N v k) 0) as [Y|Y]; [rewrite Y; ring|]. exfalso. apply X. exists k. split; assumption.
  - exfalso. assert (inner n (apply n N v) (apply n N v) = 0) as Z. { assert (0 <= inner n (apply n N v) (apply n N v)) by (apply sumn_nonneg; intros; apply Rle_0_sqr). lra. }
    apply Nv. rewrite <- (A v i Hi). unfold apply at 1. apply sumn_zero. intros k Hk. assert (apply n N v k = 0) as ->; [|ring].
    pose proof (sumn_nonneg_zero n (fun k => apply n N v k * apply n N v k) ltac:(intros; apply Rle_0_sqr) Z k Hk) as Q. cbv beta in Q. destruct (Rmult_integral _ _ Q); assumption.
Qed.

Section NORMAL.
Variables (h n : nat) (A : matrix) (w : vec).
Hypothesis W : forall i, 0 <= w i.
Definition gram : matrix := fun i j => sumn h (fun p => A p i * A p j) + if (i =? j)%nat then w i else 0.
Definition Av (x : vec) (p : nat) : R := sumn n (fun j => A p j * x j).
Lemma gram_symmetric m : symmetric m gram.
Proof.
  intros i j _ _. unfold gram. f_equal; [apply sumn_ext; intros; ring|]. destruct (Nat.eqb_spec i j) as [->|N]; [rewrite Nat.eqb_refl; reflexivity|]. destruct (Nat.eqb_spec j i); [lia|reflexivity].
Qed.
Lemma gram_apply x i : (i < n)%nat -> apply n gram x i = sumn h (fun p => A p i * Av x p) + w i * x i.
Proof.
  intro Hi. unfold apply, gram. rewrite (sumn_ext n _ (fun j => sumn h (fun p => A p i * (A p j * x j)) + (if (i =? j)%nat then w i else 0) * x j)).
  2:{ intros j Hj. rewrite Rmult_plus_distr_r, <- sumn_scal_r. f_equal. apply sumn_ext. intros. ring. }
  rewrite sumn_plus, sumn_swap, (sumn_single n (fun j => (if (i =? j)%nat then w i else 0) * x j) i Hi).
  - rewrite Nat.eqb_refl. f_equal. apply sumn_ext. intros p Hp. unfold Av. rewrite sumn_scal. reflexivity.
  - intros j Hj N. destruct (Nat.eqb_spec i j); [lia|ring].
Qed.
Lemma gram_form x y : inner n x (apply n gram y) = sumn h (fun p => Av x p * Av y p) + sumn n (fun i => w i * (x i * y i)).
Proof.
  unfold inner. rewrite (sumn_ext n _ (fun i => sumn h (fun p => A p i * x i * Av y p) + w i * (x i * y i))).
  2:{ intros i Hi. rewrite gram_apply by exact Hi. rewrite Rmult_plus_distr_l, <- sumn_scal. f_equal; [apply sumn_ext; intros|]; ring. }
  rewrite sumn_plus, sumn_swap. f_equal. apply sumn_ext. intros p Hp. unfold Av at 2. rewrite <- sumn_scal_r. reflexivity.
Qed.
Lemma gram_semidefinite : semidefinite n gram.
Proof.
  intro v. rewrite gram_form. assert (0 <= sumn h (fun p => Av v p * Av v p)) by (apply sumn_nonneg; intros; apply Rle_0_sqr).
  assert (0 <= sumn n (fun i => w i * (v i * v i))); [|lra]. apply sumn_nonneg. intros. apply Rmult_le_pos; [apply W|apply Rle_0_sqr].
Qed.
Variable b : vec.
Definition rhs_of : vec := fun i => sumn h (fun p => A p i * b p).
(* a direction without curvature is orthogonal to A'b *)
Lemma gram_null p : inner n p (apply n gram p) <= 0 -> inner n p rhs_of = 0.
Proof.
  intro Hp. rewrite gram_form in Hp. assert (0 <= sumn h (fun q => Av p q * Av p q)) as P1 by (apply sumn_nonneg; intros; apply Rle_0_sqr).
  assert (0 <= sumn n (fun i => w i * (p i * p i))) as P2 by (apply sumn_nonneg; intros; apply Rmult_le_pos; [apply W|apply Rle_0_sqr]).
  pose proof (sumn_nonneg_zero h (fun q => Av p q * Av p q) ltac:(intros; apply Rle_0_sqr) ltac:(lra)) as Z.
  unfold inner, rhs_of. rewrite (sumn_ext n _ (fun i => sumn h (fun q => A q i * p i * b q))) by (intros; rewrite <- sumn_scal; apply sumn_ext; intros; ring).
  rewrite sumn_swap. apply sumn_zero. intros q Hq. rewrite sumn_scal_r. change (Av p q * b q = 0). destruct (Rmult_integral _ _ (Z q Hq)) as [->| ->]; ring.
Qed.
Definition eye : matrix := fun i j => if (i =? j)%nat then 1 else 0.
Lemma eye_apply x i : (i < n)%nat -> apply n eye x i = x i.
Proof. intro Hi. unfold apply, eye. rewrite (sumn_single n _ i Hi); [rewrite Nat.eqb_refl; ring|]. intros j Hj N. destruct (Nat.eqb_spec i j); [lia|ring]. Qed.
(* the normal equations have a solution: conjugate gradients find one *)
Lemma normal_solution : exists x, same n (apply n gram x) rhs_of.
Proof.
  set (o := mkOptions 0 (Z.of_nat (S n)) 1 0 0).
  assert (symmetric n eye) as SI by (intros i j _ _; unfold eye; rewrite Nat.eqb_sym; reflexivity).
  set (lhs := (fun x (_ : vec) => apply n gram x) : Operator). set (pre := (fun x (_ : vec) => apply n eye x) : Operator).
  destruct (cg_result n gram eye rhs_of (fun _ => 0) o lhs pre (fun _ => 0) (gram_symmetric n) SI) as [s [x [E R]]]; [intros y i _; reflexivity|intros y i _; reflexivity|cbn; lia|].
  destruct R as [[Zb [_ Zx]]|[_ [k [xs [[X0 [Kn [_ [_ [Dec _]]]]] [Ex J]]]]]].
  { exists (fun _ => 0). intros i Hi. rewrite (Zb i Hi). apply sumn_zero. intros. ring. }
  assert (forall r, inner n r r = 0 -> same n r (fun _ => 0)) as Null by (intros r; apply ip_null).
  assert (small_residual n gram rhs_of 0 x -> exists x, same n (apply n gram x) rhs_of) as Small.
  { intro SR. exists x. assert (same n (residual n gram rhs_of x) (fun _ => 0)) as Z; [|intros i Hi; specialize (Z i Hi); unfold residual in Z; lra].
    apply Null. unfold small_residual, length_of in SR. rewrite Rmult_0_l in SR. assert (0 <= inner n (residual n gram rhs_of x) (residual n gram rhs_of x)) as P by (apply sumn_nonneg; intros; apply Rle_0_sqr).
    apply sqrt_eq_0; [exact P|]. pose proof (sqrt_pos (inner n (residual n gram rhs_of x) (residual n gram rhs_of x))). lra. }
  destruct (termination_type s) eqn:T.
  - apply Small. apply (cg_success n gram eye rhs_of (fun _ => 0) o lhs pre (fun _ => 0) s x (gram_symmetric n) SI); try assumption; try (intros y i _; reflexivity); cbn; lra || lia || (intros i _; reflexivity).
  - unfold justified in J. rewrite Ex in J. destruct (message s); try contradiction; try (destruct J as [J _]; congruence).
    + destruct J as [_ [_ [_ [p [C N]]]]]. exfalso. apply N. unfold residual.
      assert (inner n p (apply n gram x) = 0) as Z2 by (apply null_curvature; [apply gram_symmetric|apply gram_semidefinite|exact C]).
      pose proof (gram_null p C) as Z1. unfold inner in *. rewrite (sumn_ext n _ (fun i => p i * rhs_of i - p i * apply n gram x i)) by (intros; ring). rewrite sumn_minus. lra.
    + destruct J as [_ [_ [_ [J _]]]]. cbn [max_num_iterations o] in J. lia.
  - unfold justified in J. rewrite Ex in J. destruct (message s); try contradiction; try (destruct J as [J _]; congruence).
    destruct J as [_ [_ [_ J]]]. exists x. intros i Hi. assert (same n (residual n gram rhs_of x) (fun _ => 0)) as Z; [|specialize (Z i Hi); unfold residual in Z; lra].
    apply Null. rewrite <- J. apply inner_same; [intros j _; reflexivity|]. intros j Hj. symmetry. apply eye_apply. exact Hj.
Qed.
End NORMAL.
