From Coq Require Import Reals List Arith Lia Lra Psatz Bool Sorting.Sorted Sorting.Permutation.
From Verif Require Import SchurModel SchurSpec SchurProofs SchurProofs2 SchurProofs3 SchurProofs4 SchurProofs5 SchurProofs6.
Import ListNotations.
Open Scope R_scope.

(* ---------------- elimination with blocks ---------------- *)
Section Elim.
Variables (n m : nat) (we wf : nat -> nat) (M G : nat -> nat -> nat -> R) (B : nat -> nat -> nat -> nat -> R) (C : nat -> nat -> nat -> nat -> R) (g h : nat -> nat -> R).
Definition sub (e i : nat) (u : nat -> R) : R := sumn (we e) (fun a => sumn (we e) (fun a' => M e i a * G e a a' * u a')).
Hypothesis KB : forall e i f j, (e < n)%nat -> (i < we e)%nat -> sub e i (fun a' => B e a' f j) = B e i f j.
Hypothesis Kg : forall e i, (e < n)%nat -> (i < we e)%nat -> sub e i (fun a' => g e a') = g e i.
Definition Bz (z : nat -> nat -> R) (e a : nat) : R := sumn m (fun f => sumn (wf f) (fun j => B e a f j * z f j)).
Definition y_of (z : nat -> nat -> R) (e a : nat) : R := sumn (we e) (fun a' => G e a a' * (g e a' - Bz z e a')).
Definition SS (f i f' j : nat) : R := C f i f' j - sumn n (fun e => sumn (we e) (fun a => sumn (we e) (fun a' => B e a f i * G e a a' * B e a' f' j))).
Definition hh (f i : nat) : R := h f i - sumn n (fun e => sumn (we e) (fun a => sumn (we e) (fun a' => B e a f i * G e a a' * g e a'))).

Lemma weighted (e : nat) (w : nat -> R) (u : nat -> R) z :
  sumn (we e) (fun a => sumn (we e) (fun a' => w a * G e a a' * Bz z e a')) =
  sumn m (fun f => sumn (wf f) (fun j => sumn (we e) (fun a => sumn (we e) (fun a' => w a * G e a a' * B e a' f j)) * z f j)).
Proof.
  rewrite (sumn_ext _ _ (fun a => sumn m (fun f => sumn (wf f) (fun j => sumn (we e) (fun a' => w a * G e a a' * B e a' f j) * z f j)))).
  - rewrite sumn_swap. apply sumn_ext. intros f _. rewrite sumn_swap. apply sumn_ext. intros j _. rewrite sumn_scal_r. reflexivity.
  - intros a _. rewrite (sumn_ext _ _ (fun a' => sumn m (fun f => sumn (wf f) (fun j => w a * G e a a' * B e a' f j * z f j)))).
    + rewrite sumn_swap. apply sumn_ext. intros f _. rewrite sumn_swap. apply sumn_ext. intros j _. rewrite sumn_scal_r. reflexivity.
    + intros a' _. unfold Bz. rewrite <- sumn_scal. apply sumn_ext. intros f _. rewrite <- sumn_scal. apply sumn_ext. intros j _. ring.
Qed.
Lemma sub_y e (w : nat -> R) z : sumn (we e) (fun a => w a * y_of z e a) =
  sumn (we e) (fun a => sumn (we e) (fun a' => w a * G e a a' * g e a')) - sumn m (fun f => sumn (wf f) (fun j => sumn (we e) (fun a => sumn (we e) (fun a' => w a * G e a a' * B e a' f j)) * z f j)).
Proof.
  rewrite <- (weighted e w (fun _ => 0)). rewrite <- sumn_minus. apply sumn_ext. intros a _. unfold y_of. rewrite <- sumn_scal, <- sumn_minus. apply sumn_ext. intros a' _. ring.
Qed.
Lemma e_equation z e i : (e < n)%nat -> (i < we e)%nat -> sumn (we e) (fun a => M e i a * y_of z e a) + Bz z e i = g e i.
Proof.
  intros He Hi. rewrite sub_y. pose proof (Kg e i He Hi) as Q. unfold sub in Q. rewrite Q.
  rewrite (sumn_ext m _ (fun f => sumn (wf f) (fun j => B e i f j * z f j))).
  - unfold Bz. lra.
  - intros f _. apply sumn_ext. intros j _. pose proof (KB e i f j He Hi) as Q'. unfold sub in Q'. rewrite Q'. reflexivity.
Qed.
Lemma schur_apply z f i :
  sumn m (fun f' => sumn (wf f') (fun j => SS f i f' j * z f' j)) =
  sumn m (fun f' => sumn (wf f') (fun j => C f i f' j * z f' j)) - sumn n (fun e => sumn m (fun f' => sumn (wf f') (fun j => sumn (we e) (fun a => sumn (we e) (fun a' => B e a f i * G e a a' * B e a' f' j)) * z f' j))).
Proof.
  rewrite (sumn_swap n m). rewrite <- sumn_minus. apply sumn_ext. intros f' _. rewrite sumn_swap, <- sumn_minus. apply sumn_ext. intros j _. rewrite sumn_scal_r. unfold SS. ring.
Qed.
Lemma f_equation z f i : sumn m (fun f' => sumn (wf f') (fun j => SS f i f' j * z f' j)) = hh f i ->
  sumn n (fun e => sumn (we e) (fun a => B e a f i * y_of z e a)) + sumn m (fun f' => sumn (wf f') (fun j => C f i f' j * z f' j)) = h f i.
Proof.
  rewrite schur_apply. unfold hh. intro E.
  rewrite (sumn_ext n (fun e => sumn (we e) (fun a => B e a f i * y_of z e a)) (fun e => sumn (we e) (fun a => sumn (we e) (fun a' => B e a f i * G e a a' * g e a')) -
     sumn m (fun f' => sumn (wf f') (fun j => sumn (we e) (fun a => sumn (we e) (fun a' => B e a f i * G e a a' * B e a' f' j)) * z f' j)))) by (intros e _; apply (sub_y e (fun a => B e a f i))).
  rewrite sumn_minus. lra.
Qed.
(* conversely *)
Hypothesis Msym : forall e a a', M e a a' = M e a' a.
Hypothesis Gsym : forall e a a' f i, (e < n)%nat -> (a < we e)%nat -> (a' < we e)%nat -> G e a a' = G e a' a \/ forall a0, B e a0 f i = 0.
Lemma KBt e f i a2 : (e < n)%nat -> (a2 < we e)%nat -> sumn (we e) (fun a => sumn (we e) (fun a' => B e a f i * G e a a' * M e a' a2)) = B e a2 f i.
Proof.
  intros He Ha. rewrite <- (KB e a2 f i He Ha). unfold sub. rewrite (sumn_swap (we e) (we e)). apply sumn_ext. intros a' Ha'. apply sumn_ext. intros a Ha0.
  destruct (Gsym e a a' f i He Ha0 Ha') as [Q|Q]; [rewrite Q, (Msym e a' a2); ring|rewrite Q; ring].
Qed.
Lemma reduced_of x z : (forall e i, (e < n)%nat -> (i < we e)%nat -> sumn (we e) (fun a => M e i a * x e a) + Bz z e i = g e i) ->
  forall f i, sumn n (fun e => sumn (we e) (fun a => B e a f i * x e a)) + sumn m (fun f' => sumn (wf f') (fun j => C f i f' j * z f' j)) = h f i ->
  sumn m (fun f' => sumn (wf f') (fun j => SS f i f' j * z f' j)) = hh f i.
Proof.
  intros He f i Hf. rewrite schur_apply. unfold hh. rewrite <- Hf.
  rewrite (sumn_ext n (fun e => sumn (we e) (fun a => B e a f i * x e a)) (fun e => sumn (we e) (fun a => sumn (we e) (fun a' => B e a f i * G e a a' * g e a')) -
     sumn m (fun f' => sumn (wf f') (fun j => sumn (we e) (fun a => sumn (we e) (fun a' => B e a f i * G e a a' * B e a' f' j)) * z f' j)))).
  { rewrite sumn_minus. lra. }
  intros e Hn. rewrite <- (weighted e (fun a => B e a f i) (fun _ => 0)). rewrite <- sumn_minus.
  rewrite (sumn_ext _ (fun a => sumn (we e) (fun a' => B e a f i * G e a a' * g e a') - sumn (we e) (fun a' => B e a f i * G e a a' * Bz z e a'))
     (fun a => sumn (we e) (fun a2 => sumn (we e) (fun a' => B e a f i * G e a a' * M e a' a2) * x e a2))).
  - rewrite sumn_swap. apply sumn_ext. intros a2 Ha2. rewrite sumn_scal_r, (KBt e f i a2 Hn Ha2). reflexivity.
  - intros a _. rewrite <- sumn_minus.
    rewrite (sumn_ext _ (fun a2 => sumn (we e) (fun a' => B e a f i * G e a a' * M e a' a2) * x e a2) (fun a2 => sumn (we e) (fun a' => B e a f i * G e a a' * (M e a' a2 * x e a2)))).
    2:{ intros a2 _. rewrite <- sumn_scal_r. apply sumn_ext. intros. ring. }
    rewrite sumn_swap. apply sumn_ext. intros a' Ha'. rewrite sumn_scal. rewrite <- (He e a' Hn Ha'). ring.
Qed.
End Elim.

(* ---------------- E'E + D^2 ---------------- *)
Lemma sumn_sq n (f v : nat -> R) : sumn n (fun i => sumn n (fun j => v i * (f i * f j) * v j)) = sumn n (fun i => f i * v i) * sumn n (fun i => f i * v i).
Proof. rewrite <- sumn_scal_r. apply sumn_ext. intros i _. rewrite <- sumn_scal. apply sumn_ext. intros. ring. Qed.
Lemma form_normal bs values D e v :
  form (width bs e) (fun i j => normal bs values D e i e j) v =
  over_rows bs (fun row k => sumn (width bs e) (fun i => entry bs values row e k i * v i) * sumn (width bs e) (fun i => entry bs values row e k i * v i)) +
  sumn (width bs e) (fun i => d_squared D (position (col bs e) + i) * (v i * v i)).
Proof.
  unfold form, normal, over_rows. rewrite Nat.eqb_refl. cbn [andb].
  rewrite (sumn_ext _ _ (fun i => sumn (width bs e) (fun j => suml (rows bs) (fun row => sumn (size (block row)) (fun k => v i * (entry bs values row e k i * entry bs values row e k j) * v j))) +
     d_squared D (position (col bs e) + i) * (v i * v i))).
  - rewrite sumn_plus. f_equal.
    rewrite (sumn_ext _ _ (fun i => suml (rows bs) (fun row => sumn (width bs e) (fun j => sumn (size (block row)) (fun k => v i * (entry bs values row e k i * entry bs values row e k j) * v j))))) by (intros; rewrite suml_sumn; reflexivity).
    rewrite <- suml_sumn. apply suml_ext. intros row _.
    rewrite (sumn_ext _ _ (fun i => sumn (size (block row)) (fun k => sumn (width bs e) (fun j => v i * (entry bs values row e k i * entry bs values row e k j) * v j)))) by (intros; apply sumn_swap).
    rewrite sumn_swap. apply sumn_ext. intros k _. apply (sumn_sq _ (fun i => entry bs values row e k i)).
  - intros i Hi. rewrite (sumn_ext _ _ (fun j => suml (rows bs) (fun row => sumn (size (block row)) (fun k => v i * (entry bs values row e k i * entry bs values row e k j) * v j)) +
      (if i =? j then d_squared D (position (col bs e) + i) * (v i * v i) else 0))).
    + rewrite sumn_plus. f_equal. rewrite (sumn_single _ _ i Hi); [rewrite Nat.eqb_refl; reflexivity|]. intros j _ N. destruct (Nat.eqb_spec i j); [congruence|reflexivity].
    + intros j _. rewrite Rmult_plus_distr_l, Rmult_plus_distr_r. f_equal.
      * rewrite <- suml_scal, <- suml_scal_r. apply suml_ext. intros row _. rewrite <- sumn_scal, <- sumn_scal_r. reflexivity.
      * destruct (Nat.eqb_spec i j) as [<-|]; ring.
Qed.
Lemma d_squared_nonneg D p : 0 <= d_squared D p.
Proof. unfold d_squared. destruct D; [nra|lra]. Qed.
Lemma square_nonneg x : 0 <= x * x. Proof. nra. Qed.
Lemma normal_psd bs values D e : semidefinite (width bs e) (fun i j => normal bs values D e i e j).
Proof.
  intro v. rewrite form_normal. apply Rplus_le_le_0_compat.
  - apply suml_nonneg. intros row _. apply sumn_nonneg. intros k _. apply square_nonneg.
  - apply sumn_nonneg. intros i _. apply Rmult_le_pos; [apply d_squared_nonneg|apply square_nonneg].
Qed.
Lemma form_zero bs values D e v : form (width bs e) (fun i j => normal bs values D e i e j) v = 0 ->
  forall row k, In row (rows bs) -> (k < size (block row))%nat -> sumn (width bs e) (fun i => entry bs values row e k i * v i) = 0.
Proof.
  rewrite form_normal. intros F row k Hr Hk.
  set (q := fun row k => sumn (width bs e) (fun i => entry bs values row e k i * v i) * sumn (width bs e) (fun i => entry bs values row e k i * v i)) in F.
  assert (0 <= over_rows bs q) as P1 by (apply suml_nonneg; intros; apply sumn_nonneg; intros; apply square_nonneg).
  assert (0 <= sumn (width bs e) (fun i => d_squared D (position (col bs e) + i) * (v i * v i))) as P2 by (apply sumn_nonneg; intros; apply Rmult_le_pos; [apply d_squared_nonneg|apply square_nonneg]).
  assert (over_rows bs q = 0) as Z by lra.
  assert (sumn (size (block row)) (q row) = 0) as Z1.
  { apply (suml_nonneg_zero (rows bs) (fun row => sumn (size (block row)) (q row))); [|exact Z|exact Hr]. intros. apply sumn_nonneg. intros. apply square_nonneg. }
  assert (q row k = 0) as Z2 by (apply (sumn_nonneg_zero (size (block row)) (q row)); [intros; apply square_nonneg|exact Z1|exact Hk]).
  unfold q in Z2. apply Rmult_integral in Z2. destruct Z2; assumption.
Qed.
(* a vector E'w is not changed by M G *)
Lemma projection bs values D e (G : matrix) (w : Row -> nat -> R) :
  symmetric (width bs e) G ->
  (forall i j, (i < width bs e)%nat -> (j < width bs e)%nat -> sumn (width bs e) (fun a => sumn (width bs e) (fun c => normal bs values D e i e a * G a c * normal bs values D e c e j)) = normal bs values D e i e j) ->
  forall i, (i < width bs e)%nat ->
  sumn (width bs e) (fun a => sumn (width bs e) (fun a' => normal bs values D e i e a * G a a' * over_rows bs (fun row k => entry bs values row e k a' * w row k))) =
  over_rows bs (fun row k => entry bs values row e k i * w row k).
Proof.
  intros Gs MGM i Hi. set (W := width bs e) in *. set (M := fun i j => normal bs values D e i e j) in *.
  assert (forall i j, M i j = M j i) as Ms by (intros; apply normal_sym).
  set (P := fun a' => (if a' =? i then 1 else 0) - sumn W (fun a => G a' a * M a i)).
  assert (forall r, (r < W)%nat -> sumn W (fun a' => M r a' * P a') = 0) as MP.
  { intros r Hr. unfold P. rewrite (sumn_ext W _ (fun a' => (if a' =? i then M r a' else 0) - sumn W (fun a => M r a' * G a' a * M a i))).
    - rewrite sumn_minus. rewrite (sumn_single W (fun a' => if a' =? i then M r a' else 0) i Hi).
      + rewrite Nat.eqb_refl. unfold M at 1 2 3. rewrite (MGM r i Hr Hi). lra.
      + intros j _ N. destruct (Nat.eqb_spec j i); [contradiction|reflexivity].
    - intros a' _. rewrite Rmult_minus_distr_l, <- sumn_scal. f_equal; [destruct (a' =? i); ring|]. apply sumn_ext. intros. ring. }
  assert (form W M P = 0) as FP.
  { unfold form. apply sumn_zero. intros r Hr. rewrite (sumn_ext W _ (fun j => P r * (M r j * P j))) by (intros; ring). rewrite sumn_scal, MP by exact Hr. ring. }
  pose proof (form_zero bs values D e P FP) as Z. fold W in Z.
  set (u := fun a => over_rows bs (fun row k => entry bs values row e k a * w row k)).
  assert (sumn W (fun a' => u a' * P a') = 0) as UP.
  { unfold u, over_rows. rewrite (sumn_ext W _ (fun a' => suml (rows bs) (fun row => sumn (size (block row)) (fun k => entry bs values row e k a' * w row k) * P a'))) by (intros; rewrite suml_scal_r; reflexivity).
    rewrite <- suml_sumn. apply suml_zero. intros row Hr.
    rewrite (sumn_ext W _ (fun a' => sumn (size (block row)) (fun k => w row k * (entry bs values row e k a' * P a')))) by (intros; rewrite <- sumn_scal_r; apply sumn_ext; intros; ring).
    rewrite sumn_swap. apply sumn_zero. intros k Hk. rewrite sumn_scal, (Z row k Hr Hk). ring. }
  unfold P in UP. rewrite (sumn_ext W _ (fun a' => (if a' =? i then u a' else 0) - sumn W (fun a => M i a * G a a' * u a'))) in UP.
  - rewrite sumn_minus, (sumn_single W (fun a' => if a' =? i then u a' else 0) i Hi) in UP.
    + rewrite Nat.eqb_refl in UP. fold u. rewrite sumn_swap in UP. unfold M in UP. unfold u in UP |- *. lra.
    + intros j _ N. destruct (Nat.eqb_spec j i); [contradiction|reflexivity].
  - intros a' Ha'. rewrite Rmult_minus_distr_l, <- sumn_scal. f_equal; [destruct (a' =? i); ring|]. apply sumn_ext. intros a Ha. rewrite (Gs a' a Ha' Ha), (Ms a i). ring.
Qed.
