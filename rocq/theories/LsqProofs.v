(* Proofs for C73: completing the square, the refiner and the dense solvers. *)
From Coq Require Import Reals List Arith Bool Lia Lra Psatz.
From Verif Require Import SchurModel BlockSparseModel GramModel SparseModel LsqModel LsqSpec.
Import ListNotations.
Open Scope R_scope.

Lemma sn_ext n (f g : nat -> R) : (forall i, (i < n)%nat -> f i = g i) -> sumn n f = sumn n g.
Proof. induction n; intro H; cbn [sumn]; [reflexivity|]. rewrite IHn, H by (intros; try apply H; lia). reflexivity. Qed.
Lemma sn_plus n (f g : nat -> R) : sumn n (fun i => f i + g i) = sumn n f + sumn n g.
Proof. induction n; cbn [sumn]; [lra|]. rewrite IHn. lra. Qed.
Lemma sn_minus n (f g : nat -> R) : sumn n (fun i => f i - g i) = sumn n f - sumn n g.
Proof. induction n; cbn [sumn]; [lra|]. rewrite IHn. lra. Qed.
Lemma sn_scal n a (f : nat -> R) : sumn n (fun i => a * f i) = a * sumn n f.
Proof. induction n; cbn [sumn]; [lra|]. rewrite IHn. lra. Qed.
Lemma sn_zero n (f : nat -> R) : (forall i, (i < n)%nat -> f i = 0) -> sumn n f = 0.
Proof. induction n; intro H; cbn [sumn]; [reflexivity|]. rewrite IHn, H by (intros; try apply H; lia). lra. Qed.
Lemma sn_swap n m (f : nat -> nat -> R) : sumn n (fun i => sumn m (fun j => f i j)) = sumn m (fun j => sumn n (fun i => f i j)).
Proof.
  induction n; cbn [sumn]; [symmetry; apply sn_zero; reflexivity|]. rewrite IHn, <- sn_plus. reflexivity.
Qed.
Lemma sn_nonneg n (f : nat -> R) : (forall i, (i < n)%nat -> 0 <= f i) -> 0 <= sumn n f.
Proof. induction n; intro H; cbn [sumn]; [lra|]. pose proof (H n ltac:(lia)). assert (0 <= sumn n f) by (apply IHn; intros; apply H; lia). lra. Qed.
Lemma sn_zero_inv n (f : nat -> R) : (forall i, (i < n)%nat -> 0 <= f i) -> sumn n f = 0 -> forall i, (i < n)%nat -> f i = 0.
Proof.
  induction n; intros H E i Hi; [lia|]. cbn [sumn] in E. pose proof (H n ltac:(lia)). assert (0 <= sumn n f) by (apply sn_nonneg; intros; apply H; lia).
  destruct (Nat.eq_dec i n) as [->|Ne]; [lra|]. apply IHn; [intros; apply H; lia|lra|lia].
Qed.
Lemma sn_pick n k (f : nat -> R) : (k < n)%nat -> sumn n (fun j => if (k =? j)%nat then f j else 0) = f k.
Proof.
  induction n; intro H; [lia|]. cbn [sumn]. destruct (Nat.eqb_spec k n) as [->|Ne].
  - rewrite sn_zero; [lra|]. intros i Hi. destruct (Nat.eqb_spec n i); [lia|reflexivity].
  - rewrite IHn by lia. lra.
Qed.

(* (A'A + D'D) x = A'b *)
Definition normal_matrix (m : nat) (A : nat -> nat -> R) (D : option (nat -> R)) (i j : nat) : R :=
  sumn m (fun k => A k i * A k j) + (if (i =? j)%nat then weight D i * weight D i else 0).
Definition normal_rhs (m : nat) (A : nat -> nat -> R) (b : nat -> R) (q : nat) : R := sumn m (fun p => A p q * b p).
Definition normal_eq (m n : nat) A b D x : Prop := same n (row_times n (normal_matrix m A D) x) (normal_rhs m A b).

Lemma row_times_ext n A A' x x' p p' : (forall q, (q < n)%nat -> A p q = A' p' q) -> same n x x' -> row_times n A x p = row_times n A' x' p'.
Proof. intros H S. apply sn_ext. intros q Hq. rewrite (H q Hq), (S q Hq). reflexivity. Qed.
Lemma row_times_minus n A x y p : row_times n A (fun q => x q - y q) p = row_times n A x p - row_times n A y p.
Proof. unfold row_times. rewrite <- sn_minus. apply sn_ext. intros. ring. Qed.

(* v' (A'A + D'D) x = <A v, A x> + <D v, D x> *)
Lemma normal_form m n A D v x :
  sumn n (fun i => v i * row_times n (normal_matrix m A D) x i) =
  sumn m (fun p => row_times n A v p * row_times n A x p) + sumn n (fun q => (weight D q * v q) * (weight D q * x q)).
Proof.
  transitivity (sumn n (fun i => sumn m (fun p => v i * A p i * row_times n A x p) + (weight D i * v i) * (weight D i * x i))).
  - apply sn_ext. intros i Hi. unfold row_times at 1. unfold normal_matrix.
    rewrite (sn_ext n (fun q => _ * x q) (fun q => sumn m (fun k => A k i * A k q) * x q + (if (i =? q)%nat then weight D i * weight D i * x q else 0))).
    2:{ intros q Hq. destruct (i =? q)%nat; ring. }
    rewrite sn_plus, (sn_pick n i (fun q => weight D i * weight D i * x q) Hi), Rmult_plus_distr_l.
    f_equal; [|ring]. rewrite <- sn_scal.
    transitivity (sumn n (fun q => sumn m (fun p => v i * A p i * (A p q * x q)))).
    + apply sn_ext. intros q _. rewrite <- Rmult_assoc, (Rmult_comm _ (x q)), <- !sn_scal. apply sn_ext. intros. ring.
    + rewrite sn_swap. apply sn_ext. intros p _. unfold row_times. rewrite <- sn_scal. reflexivity.
  - rewrite sn_plus, sn_swap. f_equal. apply sn_ext. intros p _. unfold row_times at 2. rewrite Rmult_comm, <- sn_scal. apply sn_ext. intros. ring.
Qed.
Lemma rhs_form m n A b v : sumn n (fun i => v i * normal_rhs m A b i) = sumn m (fun p => row_times n A v p * b p).
Proof.
  unfold normal_rhs, row_times. transitivity (sumn n (fun i => sumn m (fun p => v i * A p i * b p))).
  - apply sn_ext. intros. rewrite <- sn_scal. apply sn_ext. intros. ring.
  - rewrite sn_swap. apply sn_ext. intros. rewrite Rmult_comm, <- sn_scal. apply sn_ext. intros. ring.
Qed.
Definition gap (m n : nat) A D v : R := sumn m (fun p => row_times n A v p * row_times n A v p) + sumn n (fun q => (weight D q * v q) * (weight D q * v q)).
Lemma sq_nonneg n (f : nat -> R) : 0 <= sumn n (fun i => f i * f i).
Proof. apply sn_nonneg. intros. nra. Qed.
Lemma gap_nonneg m n A D v : 0 <= gap m n A D v.
Proof. unfold gap. pose proof (sq_nonneg m (row_times n A v)). pose proof (sq_nonneg n (fun q => weight D q * v q)). lra. Qed.
Lemma objective_shift m n A b D x y :
  objective m n A b D y = objective m n A b D x + gap m n A D (fun q => y q - x q)
    + 2 * (sumn n (fun i => (y i - x i) * row_times n (normal_matrix m A D) x i) - sumn n (fun i => (y i - x i) * normal_rhs m A b i)).
Proof.
  rewrite (normal_form m n A D (fun i => y i - x i) x), (rhs_form m n A b (fun i => y i - x i)). unfold objective, gap.
  rewrite (sn_ext m (fun p => (row_times n A y p - b p) * (row_times n A y p - b p))
    (fun p => ((row_times n A x p - b p) * (row_times n A x p - b p) + row_times n A (fun q => y q - x q) p * row_times n A (fun q => y q - x q) p)
      + 2 * (row_times n A (fun q => y q - x q) p * row_times n A x p - row_times n A (fun q => y q - x q) p * b p))).
  2:{ intros p _. rewrite row_times_minus. ring. }
  rewrite (sn_ext n (fun q => weight D q * y q * (weight D q * y q))
    (fun q => (weight D q * x q * (weight D q * x q) + weight D q * (y q - x q) * (weight D q * (y q - x q))) + 2 * (weight D q * (y q - x q) * (weight D q * x q)))).
  2:{ intros. ring. }
  rewrite !sn_plus, !sn_scal, sn_minus. ring.
Qed.
Lemma normal_minimizes m n A b D x : normal_eq m n A b D x -> minimizes m n A b D x.
Proof.
  intros N y. rewrite (objective_shift m n A b D x y), (sn_ext n (fun i => (y i - x i) * row_times n (normal_matrix m A D) x i) (fun i => (y i - x i) * normal_rhs m A b i)).
  - pose proof (gap_nonneg m n A D (fun q => y q - x q)). lra.
  - intros i Hi. rewrite (N i Hi). reflexivity.
Qed.
Lemma gap_zero m n A D v : full_rank m n A D -> gap m n A D v = 0 -> forall q, (q < n)%nat -> v q = 0.
Proof.
  intros F G. unfold gap in G. pose proof (sq_nonneg m (row_times n A v)) as H1. pose proof (sq_nonneg n (fun q => weight D q * v q)) as H2.
  apply F.
  - intros p Hp. assert (row_times n A v p * row_times n A v p = 0) as E by (apply (sn_zero_inv m (fun p => row_times n A v p * row_times n A v p)); [intros; nra|lra|exact Hp]). nra.
  - intros q Hq. assert (weight D q * v q * (weight D q * v q) = 0) as E by (apply (sn_zero_inv n (fun q => weight D q * v q * (weight D q * v q))); [intros; nra|lra|exact Hq]). nra.
Qed.
Lemma gap_scal m n A D a v : gap m n A D (fun q => a * v q) = a * a * gap m n A D v.
Proof.
  unfold gap. rewrite Rmult_plus_distr_l, <- !sn_scal. f_equal; apply sn_ext; intros; [|ring].
  unfold row_times. rewrite (sn_ext n (fun q => A i q * (a * v q)) (fun q => a * (A i q * v q))) by (intros; ring). rewrite sn_scal. ring.
Qed.
(* the minimiser is unique *)
Lemma minimizer_unique m n A b D x y : full_rank m n A D -> minimizes m n A b D x -> minimizes m n A b D y -> same n x y.
Proof.
  intros F Mx My. set (w := fun q => (x q + y q) / 2).
  pose proof (objective_shift m n A b D w x) as Ex. pose proof (objective_shift m n A b D w y) as Ey.
  assert (gap m n A D (fun q => x q - w q) = /4 * gap m n A D (fun q => x q - y q)) as G1.
  { replace (/4) with (/2 * /2) by lra. rewrite <- gap_scal. unfold gap. f_equal; apply sn_ext; intros.
    - replace (row_times n A (fun q => x q - w q) i) with (row_times n A (fun q => /2 * (x q - y q)) i); [reflexivity|]. apply sn_ext. intros. unfold w. field.
    - unfold w. field. }
  assert (gap m n A D (fun q => y q - w q) = /4 * gap m n A D (fun q => x q - y q)) as G2.
  { replace (/4) with (-/2 * -/2) by lra. rewrite <- gap_scal. unfold gap. f_equal; apply sn_ext; intros.
    - replace (row_times n A (fun q => y q - w q) i) with (row_times n A (fun q => -/2 * (x q - y q)) i); [reflexivity|]. apply sn_ext. intros. unfold w. field.
    - unfold w. field. }
  assert (forall g, sumn n (fun i => (x i - w i) * g i) = - sumn n (fun i => (y i - w i) * g i)) as O.
  { intro g. replace (- sumn n (fun i => (y i - w i) * g i)) with (-1 * sumn n (fun i => (y i - w i) * g i)) by ring. rewrite <- sn_scal. apply sn_ext. intros. unfold w. field. }
  rewrite !O in Ex. pose proof (Mx w). pose proof (My w). pose proof (gap_nonneg m n A D (fun q => x q - y q)).
  assert (gap m n A D (fun q => x q - y q) = 0) as Z by lra.
  intros q Hq. pose proof (gap_zero m n A D _ F Z q Hq). cbv beta in *. lra.
Qed.
Lemma normal_positive m n A D : full_rank m n A D -> positive_definite n (normal_matrix m A D).
Proof.
  intro F. split.
  - intros i j _ _. unfold normal_matrix. f_equal; [apply sn_ext; intros; ring|]. rewrite Nat.eqb_sym. destruct (Nat.eqb_spec j i) as [->|]; reflexivity.
  - intros v [i [Hi Hv]]. rewrite (normal_form m n A D v v). fold (gap m n A D v). pose proof (gap_nonneg m n A D v).
    destruct (Req_dec (gap m n A D v) 0) as [Z|]; [|lra]. exfalso. apply Hv. exact (gap_zero m n A D v F Z i Hi).
Qed.

(* ---------------- the refiner ---------------- *)
Lemma refine_fixed multiply backsolve rhs n k : forall x, (forall s, same n s x -> same n (multiply s) rhs) ->
  (forall r, same n r (fun _ => 0) -> same n (backsolve r) (fun _ => 0)) -> same n (Refine multiply backsolve rhs k x) x.
Proof.
  induction k as [|k IH]; intros x M B; [intros q _; reflexivity|]. cbn [Refine].
  assert (same n (fun i => x i + backsolve (fun j => rhs j - multiply x j) i) x) as E.
  { intros q Hq. rewrite (B (fun j => rhs j - multiply x j)); [ring| |exact Hq]. intros j Hj. rewrite (M x (fun _ _ => eq_refl) j Hj). ring. }
  intros q Hq. rewrite IH; [exact (E q Hq)| |exact B|exact Hq]. intros s Hs. apply M. intros i Hi. rewrite (Hs i Hi). exact (E i Hi).
Qed.
Lemma refine_contracts multiply backsolve rhs n size rho sol k : measures n size -> 0 <= rho ->
  (forall s, same n (fun i => rhs i - multiply s i) (fun i => multiply (fun j => sol j - s j) i)) ->
  (forall z r, same n (multiply z) r -> size (fun i => z i - backsolve r i) <= rho * size z) ->
  forall x, size (fun i => sol i - Refine multiply backsolve rhs k x i) <= rho ^ k * size (fun i => sol i - x i).
Proof.
  intros Ms Hr L Acc. induction k as [|k IH]; intro x; [cbn [Refine pow]; lra|]. cbn [Refine].
  eapply Rle_trans; [apply IH|]. cbn [pow]. rewrite (Rmult_comm rho), Rmult_assoc. apply Rmult_le_compat_l; [apply pow_le; exact Hr|].
  eapply Rle_trans; [|apply (Acc (fun j => sol j - x j) (fun j => rhs j - multiply x j))].
  - apply Req_le. apply Ms. intros i _. ring.
  - intros i Hi. symmetry. exact (L x i Hi).
Qed.

(* ---------------- dense normal equations ---------------- *)
Lemma div_mod_small n r c : (c < n)%nat -> ((r * n + c) / n = r)%nat /\ ((r * n + c) mod n = c)%nat.
Proof.
  intro H. split.
  - rewrite Nat.div_add_l by lia. rewrite (Nat.div_small c n H). lia.
  - rewrite Nat.add_comm, Nat.mod_add by lia. apply Nat.mod_small, H.
Qed.
Lemma dense_lhs_entry m n A D r c : (c < n)%nat -> row_major n (DenseLhs m n A D) r c = if (r <=? c)%nat then normal_matrix m A D r c else 0.
Proof.
  intro H. unfold row_major, DenseLhs, normal_matrix. destruct (div_mod_small n r c H) as [E1 E2]. cbv zeta. rewrite E1, E2.
  destruct (Nat.leb_spec r c), (Nat.eqb_spec r c), D; cbn [weight]; subst; try lia; try ring.
Qed.
Lemma dense_lhs_read m n A D i j : (i < n)%nat -> (j < n)%nat -> read_lower n (DenseLhs m n A D) i j = normal_matrix m A D i j.
Proof.
  intros Hi Hj. unfold read_lower. change (DenseLhs m n A D (Nat.min i j * n + Nat.max i j)%nat) with (row_major n (DenseLhs m n A D) (Nat.min i j) (Nat.max i j)).
  rewrite dense_lhs_entry by lia. destruct (Nat.leb_spec (Nat.min i j) (Nat.max i j)); [|lia].
  destruct (Nat.le_ge_cases i j) as [L|L].
  - rewrite Nat.min_l, Nat.max_r by exact L. reflexivity.
  - rewrite Nat.min_r, Nat.max_l by exact L. unfold normal_matrix. f_equal; [apply sn_ext; intros; ring|]. rewrite Nat.eqb_sym. destruct (Nat.eqb_spec i j) as [->|]; reflexivity.
Qed.
Lemma read_symmetric n a : symmetric_matrix n (read_lower n a).
Proof. intros i j _ _. unfold read_lower. rewrite Nat.min_comm, Nat.max_comm. reflexivity. Qed.
Lemma positive_ext n M M' : (forall i j, (i < n)%nat -> (j < n)%nat -> M i j = M' i j) -> positive_definite n M' -> positive_definite n M.
Proof.
  intros E [S P]. split.
  - intros i j Hi Hj. rewrite !E by assumption. apply S; assumption.
  - intros v Hv. rewrite (sn_ext n _ (fun i => v i * row_times n M' v i)); [apply P, Hv|]. intros i Hi. f_equal. apply row_times_ext; [intros; apply E; assumption|intros q _; reflexivity].
Qed.
Lemma dense_exact c m n A b D x x' : exact_cholesky c -> DenseNormalCholesky c 0 m n A b D x = (SUCCESS, x') -> normal_eq m n A b D x'.
Proof.
  intros Ex H. unfold DenseNormalCholesky, DenseFactorAndSolve in H. destruct (factorize c n (read_lower n (DenseLhs m n A D))) as [f|] eqn:Ef; [|discriminate].
  cbn [Refine] in H. injection H as <-. destruct (Ex n _ f (read_symmetric n _) Ef) as [Sv _]. intros q Hq. etransitivity; [|exact (Sv (DenseRhs m A b) q Hq)].
  apply row_times_ext; [|intros i _; reflexivity]. intros j Hj. symmetry. apply dense_lhs_read; assumption.
Qed.
Lemma dense_succeeds c k m n A b D x : complete_cholesky c -> full_rank m n A D -> exists x', DenseNormalCholesky c k m n A b D x = (SUCCESS, x').
Proof.
  intros C F. unfold DenseNormalCholesky, DenseFactorAndSolve. destruct (C n (read_lower n (DenseLhs m n A D))) as [f ->]; [|eexists; reflexivity].
  apply (positive_ext n _ (normal_matrix m A D)); [intros; apply dense_lhs_read; assumption|apply normal_positive, F].
Qed.

(* ---------------- dense QR ---------------- *)
Definition augmented (m n : nat) (A : nat -> nat -> R) (D : option (nat -> R)) (i j : nat) : R :=
  if (i <? m)%nat then A i j else match D with Some d => if (i - m =? j)%nat then d j else 0 | None => 0 end.
Definition augmented_rows (m n : nat) (D : option (nat -> R)) : nat := (m + match D with Some _ => n | None => 0 end)%nat.
Lemma sn_app m n (f : nat -> R) : sumn (m + n) f = sumn m f + sumn n (fun i => f (m + i)%nat).
Proof.
  induction n; cbn [sumn]; [rewrite Nat.add_0_r; lra|]. rewrite Nat.add_succ_r. cbn [sumn]. rewrite IHn. lra.
Qed.
Lemma row_times_diag n d x k : (k < n)%nat -> sumn n (fun q => (if (k =? q)%nat then d q else 0) * x q) = d k * x k.
Proof. intro H. rewrite <- (sn_pick n k (fun q => d q * x q) H). apply sn_ext. intros q _. destruct (k =? q)%nat; ring. Qed.
Lemma augmented_objective m n A b D x :
  objective (augmented_rows m n D) n (augmented m n A D) (fun i => if (i <? m)%nat then b i else 0) None x = objective m n A b D x.
Proof.
  unfold objective, augmented_rows. cbn [weight]. rewrite (sn_zero n (fun q => 0 * x q * (0 * x q))) by (intros; ring). rewrite Rplus_0_r, sn_app. f_equal.
  - apply sn_ext. intros p Hp. assert (p <? m = true)%nat as E by (apply Nat.ltb_lt; exact Hp).
    replace (row_times n (augmented m n A D) x p) with (row_times n A x p); [rewrite E; reflexivity|]. apply sn_ext. intros. unfold augmented. rewrite E. reflexivity.
  - destruct D as [d|]; cbn [weight sumn]; [|symmetry; apply sn_zero; intros; ring]. apply sn_ext. intros k Hk.
    assert (m + k <? m = false)%nat as E by (apply Nat.ltb_ge; lia). rewrite E.
    replace (row_times n (augmented m n A (Some d)) x (m + k)) with (d k * x k); [ring|]. rewrite <- (row_times_diag n d x k Hk). apply sn_ext. intros q _. unfold augmented. rewrite E.
    replace (m + k - m)%nat with k by lia. reflexivity.
Qed.
Lemma augmented_rank m n A D : full_rank m n A D -> full_rank (augmented_rows m n D) n (augmented m n A D) None.
Proof.
  intros F v H _. apply F.
  - intros p Hp. rewrite <- (H p) by (unfold augmented_rows; lia). apply sn_ext. intros. unfold augmented. apply Nat.ltb_lt in Hp. rewrite Hp. reflexivity.
  - intros q Hq. destruct D as [d|]; cbn [weight]; [|ring]. rewrite <- (H (m + q)%nat) by (unfold augmented_rows; lia). rewrite <- (row_times_diag n d v q Hq). apply sn_ext. intros j _. unfold augmented.
    assert (m + q <? m = false)%nat as -> by (apply Nat.ltb_ge; lia). replace (m + q - m)%nat with q by lia. reflexivity.
Qed.
