(* C65: the singular value decomposition *)
From Coq Require Import Reals ZArith List Arith Bool Lia Lra.
From Verif Require Import SchurModel SchurProofs CGModel CGSpec SparseModel CovarianceModel ImplicitSchurSpec CovarianceSpec CovarianceProofs5.
Import ListNotations.
Open Scope R_scope.

Lemma lt_true x y : lt x y = true <-> x < y.
Proof. unfold lt. destruct (Rlt_dec x y); split; auto; try discriminate; lra. Qed.
Lemma lt_false x y : lt x y = false <-> y <= x.
Proof. unfold lt. destruct (Rlt_dec x y); split; auto; try discriminate; lra. Qed.
Lemma squares_spec s max ratio auto fuel : forall i,
  match InverseSquares fuel i s max ratio auto with
  | None => auto = false /\ exists k, (i <= k < i + fuel)%nat /\ nth k s 0 / max < ratio
  | Some inv => (length inv <= fuel)%nat /\ (forall k, (k < length inv)%nat -> nth k inv 0 = 1 / (nth (i + k) s 0 * nth (i + k) s 0) /\ ratio <= nth (i + k) s 0 / max) /\
      (length inv = fuel \/ auto = true /\ nth (i + length inv) s 0 / max < ratio)
  end.
Proof.
  induction fuel as [|fuel IH]; intros i; cbn [InverseSquares]; [split; [auto|]; split; [cbn; intros; lia|auto]|].
  destruct (lt (nth i s 0 / max) ratio) eqn:E.
  - apply lt_true in E. destruct auto.
    + cbn [length]. split; [lia|]. split; [intros; lia|]. right. rewrite Nat.add_0_r. auto.
    + split; [auto|]. exists i. split; [lia|auto].
  - apply lt_false in E. specialize (IH (S i)). destruct (InverseSquares fuel (S i) s max ratio auto) as [inv|]; cbn [option_map].
    + destruct IH as [A [B C]]. cbn [length]. split; [lia|]. split.
      * intros [|k] K; cbn [nth]; [rewrite Nat.add_0_r; auto|]. replace (i + S k)%nat with (S i + k)%nat by lia. apply B. lia.
      * replace (i + S (length inv))%nat with (S i + length inv)%nat by lia. destruct C as [C|C]; [left; lia|auto].
    + destruct IH as [A [k [K B]]]. split; [auto|]. exists k. split; [lia|auto].
Qed.

Section Diagonal.
Variables (n k : nat) (V : matrix).
Hypothesis VV : forall i j, (i < k)%nat -> (j < k)%nat -> sumn n (fun r => V r i * V r j) = if (i =? j)%nat then 1 else 0.
Definition vdv (d : nat -> R) : matrix := fun i j => sumn k (fun a => V i a * d a * V j a).
Lemma vdv_mul d e i j : mul n (vdv d) (vdv e) i j = vdv (fun a => d a * e a) i j.
Proof.
  unfold mul, vdv. transitivity (sumn k (fun a => V i a * d a * sumn k (fun b => sumn n (fun r => V r a * V r b) * (e b * V j b)))).
  - rewrite (sumn_ext n _ (fun r => sumn k (fun a => V i a * d a * (V r a * sumn k (fun b => V r b * e b * V j b))))).
    + rewrite sumn_swap. apply sumn_ext. intros a _. rewrite sumn_scal. f_equal. rewrite (sumn_ext n _ (fun r => sumn k (fun b => V r a * V r b * (e b * V j b)))).
      * rewrite sumn_swap. apply sumn_ext. intros b _. now rewrite sumn_scal_r.
      * intros r _. rewrite <- sumn_scal. apply sumn_ext. intros. ring.
    + intros r _. rewrite <- sumn_scal_r. apply sumn_ext. intros. ring.
  - apply sumn_ext. intros a A. rewrite (sumn_single k _ a A).
    + rewrite VV by auto. rewrite Nat.eqb_refl. ring.
    + intros b B D. rewrite VV by auto. rewrite (proj2 (Nat.eqb_neq a b)) by auto. ring.
Qed.
Lemma vdv_ext d e i j : (forall a, (a < k)%nat -> d a = e a) -> vdv d i j = vdv e i j.
Proof. intros H. apply sumn_ext. intros a A. now rewrite H. Qed.
Lemma vdv_sym d i j : vdv d i j = vdv d j i.
Proof. apply sumn_ext. intros. ring. Qed.
Lemma vdv_pseudo d e : (forall a, (a < k)%nat -> d a * e a * d a = d a /\ e a * d a * e a = e a) -> pseudo_inverse n (vdv d) (vdv e).
Proof.
  intros H i j I J. assert (ML : forall A B C : matrix, (forall i j, A i j = B i j) -> forall i j, mul n A C i j = mul n B C i j) by (intros A B C E x y; apply sumn_ext; intros; now rewrite E).
  split; [|split; [|split]].
  - rewrite (ML _ _ _ (vdv_mul d e)), vdv_mul. apply vdv_ext. intros a A. now apply H.
  - rewrite (ML _ _ _ (vdv_mul e d)), vdv_mul. apply vdv_ext. intros a A. now apply H.
  - rewrite !vdv_mul. apply vdv_sym.
  - rewrite !vdv_mul. apply vdv_sym.
Qed.
End Diagonal.
Lemma sumn_one n : sumn n (fun _ => 1) = INR n.
Proof. induction n; [auto|]. rewrite S_INR. cbn [sumn]. now rewrite IHn. Qed.
(* orthonormal columns of a square matrix: the rows are orthonormal too *)
Lemma square_rows n (V : matrix) : (forall i j, (i < n)%nat -> (j < n)%nat -> sumn n (fun r => V r i * V r j) = if (i =? j)%nat then 1 else 0) ->
  forall i j, (i < n)%nat -> (j < n)%nat -> sumn n (fun k => V i k * V j k) = if (i =? j)%nat then 1 else 0.
Proof.
  intros H. set (P := fun i j => sumn n (fun k => V i k * V j k)). set (E := fun i j => (if (i =? j)%nat then 1 else 0) - P i j).
  assert (TR : sumn n (fun i => P i i) = INR n).
  { unfold P. rewrite sumn_swap. rewrite <- sumn_one. apply sumn_ext. intros k K. rewrite H by auto. now rewrite Nat.eqb_refl. }
  assert (SQ : sumn n (fun i => sumn n (fun j => P i j * P i j)) = INR n).
  { transitivity (sumn n (fun k => sumn n (fun l => sumn n (fun i => V i k * V i l) * sumn n (fun j => V j k * V j l)))).
    - transitivity (sumn n (fun i => sumn n (fun k => sumn n (fun l => V i k * V i l * sumn n (fun j => V j k * V j l))))).
      + apply sumn_ext. intros i I. unfold P. rewrite (sumn_ext n _ (fun j => sumn n (fun k => sumn n (fun l => V i k * V i l * (V j k * V j l))))).
        * rewrite sumn_swap. apply sumn_ext. intros k _. rewrite sumn_swap. apply sumn_ext. intros l _. now rewrite sumn_scal.
        * intros j _. rewrite <- sumn_scal_r. apply sumn_ext. intros k _. rewrite <- sumn_scal. apply sumn_ext. intros. ring.
      + rewrite sumn_swap. apply sumn_ext. intros k _. rewrite sumn_swap. apply sumn_ext. intros l _. now rewrite sumn_scal_r.
    - rewrite <- sumn_one. apply sumn_ext. intros k K. rewrite (sumn_single n _ k K); [rewrite H by auto; rewrite Nat.eqb_refl; ring|].
      intros l L D. rewrite !H by auto. rewrite (proj2 (Nat.eqb_neq k l)) by auto. ring. }
  assert (Z : sumn n (fun i => sumn n (fun j => E i j * E i j)) = 0).
  { rewrite (sumn_ext n _ (fun i => 1 - 2 * P i i + sumn n (fun j => P i j * P i j))).
    - rewrite sumn_plus, sumn_minus, sumn_one, sumn_scal, TR, SQ. ring.
    - intros i I. unfold E. rewrite (sumn_ext n _ (fun j => (if (i =? j)%nat then 1 - 2 * P i j else 0) + P i j * P i j)) by (intros j _; destruct (i =? j)%nat; ring).
      rewrite sumn_plus. f_equal. rewrite (sumn_single n _ i I); [now rewrite Nat.eqb_refl|]. intros j _ D. now rewrite (proj2 (Nat.eqb_neq i j)) by auto. }
  intros i j I J. assert (Q : E i j * E i j = 0).
  { assert (R1 := sumn_nonneg_zero n (fun i => sumn n (fun j => E i j * E i j)) (fun i _ => sumn_nonneg n _ (fun j _ => Rle_0_sqr (E i j))) Z i I).
    exact (sumn_nonneg_zero n (fun j => E i j * E i j) (fun j _ => Rle_0_sqr (E i j)) R1 j J). }
  assert (E i j = 0) by (destruct (Rmult_integral _ _ Q); auto). unfold E in H0. fold (P i j). lra.
Qed.

(* what is written *)
Definition written (d : SVDResult) (inv : list R) : matrix := fun r c => sumn (length (singular_values d)) (fun i => matrix_V d r i * nth i inv 0 * matrix_V d c i).
Lemma written_symmetric d inv n : symmetric n (written d inv).
Proof. intros i j _ _. unfold written. apply sumn_ext. intros. ring. Qed.
Lemma written_pseudo h n J o d inv (kept : nat -> bool) : decomposes h n J d -> 0 < nth 0 (singular_values d) 0 -> 0 < min_reciprocal_condition_number o ->
  (forall k, (k < length (singular_values d))%nat -> if kept k then large_enough o d k /\ nth k inv 0 = 1 / (nth k (singular_values d) 0 * nth k (singular_values d) 0) else nth k inv 0 = 0) ->
  pseudo_inverse n (truncated d kept) (written d inv).
Proof.
  intros [A [B [C [VV D]]]] S0 M H. apply vdv_pseudo; [auto|]. intros a Ha. specialize (H a Ha). destruct (kept a).
  - destruct H as [LE ->]. unfold large_enough in LE. assert (P : 0 < sqrt (min_reciprocal_condition_number o)) by (now apply sqrt_lt_R0).
    assert (nth a (singular_values d) 0 <> 0). { intros Z. rewrite Z in LE. unfold Rdiv in LE. rewrite Rmult_0_l in LE. lra. }
    split; field; auto.
  - rewrite H. split; ring.
Qed.
Lemma written_inverse h n J o d inv : decomposes h n J d -> length (singular_values d) = n -> 0 < nth 0 (singular_values d) 0 -> 0 < min_reciprocal_condition_number o ->
  (forall k, (k < n)%nat -> large_enough o d k /\ nth k inv 0 = 1 / (nth k (singular_values d) 0 * nth k (singular_values d) 0)) -> inverse_of n (information h J) (written d inv).
Proof.
  intros [A [B [C [VV D]]]] LN S0 M H. apply right_inverse; [apply information_symmetric|]. intros i j I J'.
  transitivity (mul n (vdv (length (singular_values d)) (matrix_V d) (fun k => nth k (singular_values d) 0 * nth k (singular_values d) 0)) (vdv (length (singular_values d)) (matrix_V d) (fun k => nth k inv 0)) i j).
  - apply sumn_ext. intros k K. rewrite D by auto. reflexivity.
  - rewrite (vdv_mul n _ _ VV). rewrite LN in *. rewrite <- (square_rows n (matrix_V d) VV i j I J'). apply sumn_ext. intros k K. destruct (H k K) as [LE ->]. unfold large_enough in LE. assert (P : 0 < sqrt (min_reciprocal_condition_number o)) by (now apply sqrt_lt_R0).
    assert (nth k (singular_values d) 0 <> 0). { intros Z. rewrite Z in LE. unfold Rdiv in LE. rewrite Rmult_0_l in LE. lra. }
    field. auto.
Qed.
