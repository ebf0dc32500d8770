(* Proofs for C73: a Cholesky factorization over the reals that meets the contract; a QR solver. *)
From Coq Require Import Reals List Arith Bool Lia Lra Psatz.
From Verif Require Import SchurModel LsqModel LsqSpec LsqProofs.
Import ListNotations.
Open Scope R_scope.

Definition reduce (m : nat -> nat -> R) (i j : nat) : R := m (S i) (S j) - m (S i) 0%nat * m 0%nat (S j) / m 0%nat 0%nat.
Fixpoint pivots (n : nat) (m : nat -> nat -> R) : bool :=
  match n with O => true | S n' => if Rlt_dec 0 (m 0%nat 0%nat) then pivots n' (reduce m) else false end.
Fixpoint eliminate (n : nat) (m : nat -> nat -> R) (r : nat -> R) : nat -> R :=
  match n with
  | O => fun _ => 0
  | S n' => let x := eliminate n' (reduce m) (fun i => r (S i) - m (S i) 0%nat * r 0%nat / m 0%nat 0%nat) in
      fun i => match i with O => (r 0%nat - sumn n' (fun j => m 0%nat (S j) * x j)) / m 0%nat 0%nat | S i' => x i' end
  end.
Fixpoint lower_of (n : nat) (m : nat -> nat -> R) (i j : nat) : R :=
  match n with
  | O => 0
  | S n' => match j with O => m i 0%nat / sqrt (m 0%nat 0%nat) | S j' => match i with O => 0 | S i' => lower_of n' (reduce m) i' j' end end
  end.
Definition reference (place : bool) : Cholesky :=
  mkCholesky (nat * (nat -> nat -> R)) place (fun n m => if pivots n m then Some (n, m) else None) (fun f => lower_of (fst f) (snd f)) (fun n f r => eliminate n (snd f) r).
Definition reference_qr : QR :=
  mkQR (nat -> nat -> R) (fun _ _ A => A) (fun _ _ _ => fun _ _ => 0) (fun m n A b => Some (eliminate n (normal_matrix m A None) (normal_rhs m A b))).

Lemma sn_first n f : sumn (S n) f = f 0%nat + sumn n (fun i => f (S i)).
Proof. change (S n) with (1 + n)%nat. rewrite sn_app. cbn [sumn]. rewrite Rplus_0_l. reflexivity. Qed.
Lemma eliminate_solves n : forall m r, pivots n m = true -> same n (row_times n m (eliminate n m r)) r.
Proof.
  induction n as [|n IH]; intros m r P q Hq; [lia|]. cbn [pivots] in P. destruct (Rlt_dec 0 (m 0%nat 0%nat)) as [H0|]; [|discriminate].
  cbn [eliminate]. set (r' := fun i => r (S i) - m (S i) 0%nat * r 0%nat / m 0%nat 0%nat). pose proof (IH (reduce m) r' P) as E. set (x := eliminate n (reduce m) r') in *.
  unfold row_times. rewrite sn_first. destruct q as [|q].
  - field. lra.
  - pose proof (E q ltac:(lia)) as Eq. unfold row_times, reduce, r' in Eq.
    rewrite (sn_ext n _ (fun j => m (S q) (S j) * x j - m (S q) 0%nat / m 0%nat 0%nat * (m 0%nat (S j) * x j))) in Eq by (intros; field; lra).
    rewrite sn_minus, sn_scal in Eq. set (a := sumn n (fun j => m (S q) (S j) * x j)) in *. set (s := sumn n (fun j => m 0%nat (S j) * x j)) in *.
    assert (a = r (S q) - m (S q) 0%nat * r 0%nat / m 0%nat 0%nat + m (S q) 0%nat / m 0%nat 0%nat * s) as -> by lra. field. lra.
Qed.
Lemma reduce_symmetric n m : symmetric_matrix (S n) m -> symmetric_matrix n (reduce m).
Proof. intros S i j Hi Hj. unfold reduce. rewrite (S (Datatypes.S i) (Datatypes.S j)), (S (Datatypes.S i) 0%nat), (S 0%nat (Datatypes.S j)) by lia. unfold Rdiv. ring. Qed.
Lemma lower_product n : forall m, symmetric_matrix n m -> pivots n m = true ->
  (forall i j, (i < n)%nat -> (j <= i)%nat -> m i j = sumn (S j) (fun k => lower_of n m i k * lower_of n m j k)) /\ (forall i, (i < n)%nat -> 0 < lower_of n m i i).
Proof.
  induction n as [|n IH]; intros m S P; [split; intros; lia|]. cbn [pivots] in P. destruct (Rlt_dec 0 (m 0%nat 0%nat)) as [H0|]; [|discriminate].
  destruct (IH (reduce m) (reduce_symmetric n m S) P) as [E1 E2]. pose proof (sqrt_lt_R0 _ H0) as Hs. pose proof (sqrt_sqrt _ (Rlt_le _ _ H0)) as Hq. split.
  - intros i j Hi Hj. rewrite sn_first. change (lower_of (Datatypes.S n) m i 0) with (m i 0%nat / sqrt (m 0%nat 0%nat)). change (lower_of (Datatypes.S n) m j 0) with (m j 0%nat / sqrt (m 0%nat 0%nat)).
    replace (m i 0%nat / sqrt (m 0%nat 0%nat) * (m j 0%nat / sqrt (m 0%nat 0%nat))) with (m i 0%nat * m j 0%nat / m 0%nat 0%nat).
    2:{ rewrite <- Hq at 1. field. lra. }
    destruct j as [|j].
    + cbn [sumn]. field. lra.
    + destruct i as [|i]; [lia|].
      rewrite (sn_ext (Datatypes.S j) _ (fun k => lower_of n (reduce m) i k * lower_of n (reduce m) j k)) by (intros; reflexivity).
      rewrite <- (E1 i j) by lia. unfold reduce. rewrite (S 0%nat (Datatypes.S j)) by lia. field. lra.
  - intros [|i] Hi; [cbn [lower_of]; apply Rdiv_lt_0_compat; assumption|]. exact (E2 i ltac:(lia)).
Qed.
Theorem reference_exact place : exact_cholesky (reference place).
Proof.
  intros n m f S E. cbn [reference factorize] in E. destruct (pivots n m) eqn:P; [|discriminate]. injection E as <-. cbn [reference solve lower_factor fst snd].
  split; [intro r; exact (eliminate_solves n m r P)|]. exact (lower_product n m S P).
Qed.
Lemma positive_first n m : positive_definite (S n) m -> 0 < m 0%nat 0%nat.
Proof.
  intros [_ P]. specialize (P (fun i => if (i =? 0)%nat then 1 else 0)). rewrite sn_first in P. cbn [Nat.eqb] in P. unfold row_times in P.
  rewrite (sn_zero n) in P by (intros; ring). rewrite sn_first, (sn_zero n) in P by (intros; cbn [Nat.eqb]; ring). cbn [Nat.eqb] in P.
  apply Rlt_le_trans with (1 * (m 0%nat 0%nat * 1 + 0) + 0); [|lra]. apply P. exists 0%nat. split; [lia|cbn; lra].
Qed.
Lemma positive_reduce n m : positive_definite (S n) m -> positive_definite n (reduce m).
Proof.
  intro Pd. pose proof (positive_first n m Pd) as H0. destruct Pd as [S P]. split; [exact (reduce_symmetric n m S)|].
  intros v [i [Hi Hv]]. set (s := sumn n (fun j => m 0%nat (Datatypes.S j) * v j)).
  set (w := fun k => match k with O => - s / m 0%nat 0%nat | Datatypes.S k' => v k' end).
  assert (0 < sumn (Datatypes.S n) (fun k => w k * row_times (Datatypes.S n) m w k)) as Q by (apply P; exists (Datatypes.S i); split; [lia|exact Hv]).
  rewrite sn_first in Q. unfold row_times in Q. rewrite sn_first in Q. cbn [w] in Q. fold s in Q.
  rewrite (sn_ext n (fun i0 => v i0 * sumn (Datatypes.S n) (fun q => m (Datatypes.S i0) q * w q)) (fun i0 => v i0 * row_times n (reduce m) v i0)) in Q.
  - replace (- s / m 0%nat 0%nat * (m 0%nat 0%nat * (- s / m 0%nat 0%nat) + s)) with 0 in Q by (field; lra). lra.
  - intros k Hk. f_equal. rewrite sn_first. cbn [w]. unfold row_times, reduce.
    rewrite (sn_ext n (fun q => (m (Datatypes.S k) (Datatypes.S q) - m (Datatypes.S k) 0%nat * m 0%nat (Datatypes.S q) / m 0%nat 0%nat) * v q) (fun q => m (Datatypes.S k) (Datatypes.S q) * v q - m (Datatypes.S k) 0%nat / m 0%nat 0%nat * (m 0%nat (Datatypes.S q) * v q))) by (intros; field; lra).
    rewrite sn_minus, sn_scal. fold s. field. lra.
Qed.
Lemma positive_pivots n : forall m, positive_definite n m -> pivots n m = true.
Proof.
  induction n as [|n IH]; intros m P; [reflexivity|]. cbn [pivots]. destruct (Rlt_dec 0 (m 0%nat 0%nat)) as [|C]; [apply IH, positive_reduce, P|]. destruct (C (positive_first n m P)).
Qed.
Theorem reference_complete place : complete_cholesky (reference place).
Proof. intros n m P. exists (n, m). cbn [reference factorize]. rewrite (positive_pivots n m P). reflexivity. Qed.
Theorem reference_qr_exact : exact_qr reference_qr.
Proof.
  intros m n A b F. eexists. split; [reflexivity|]. cbn [reference_qr qr_factorize]. apply normal_minimizes. unfold normal_eq. apply eliminate_solves, positive_pivots, normal_positive, F.
Qed.
