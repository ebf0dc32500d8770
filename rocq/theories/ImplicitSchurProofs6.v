(* An inverse of a definite matrix, the least squares problem, what the solvers' loops need. *)
From Coq Require Import Reals ZArith List Arith Bool Lia Lra.
From Verif Require Import SchurModel SchurProofs SchurProofs6 BlockSparseModel BlockSparseSpec BlockSparseProofs BlockSparseProofs2 BlockSparseProofs7 BlockSparseProofs8 CGModel CGSpec CGProofs CGProps
  ImplicitSchurModel ImplicitSchurSpec ImplicitSchurProofs ImplicitSchurProofs2 ImplicitSchurProofs3 ImplicitSchurProofs4 ImplicitSchurProofs5.
Import ListNotations.
Open Scope R_scope.

(* ---------------- a Cholesky that inverts: here by conjugate gradients ---------------- *)
Definition cg_solution (n : nat) (m : matrix) (b : vec) : vec :=
  match ConjugateGradientsSolver n (mkOptions 0 (Z.of_nat (S n)) 1 0 0) (fun x _ => apply n m x) b (fun x _ => apply n eye x) (fun _ => 0) (fun _ => 0) with Some (_, x) => x | None => fun _ => 0 end.
Definition cg_llt (n : nat) (m : matrix) : matrix := fun i j => cg_solution n m (fun k => if (k =? j)%nat then 1 else 0) i.
Lemma eye_symmetric n : symmetric n eye. Proof. intros i j _ _. unfold eye. rewrite Nat.eqb_sym. reflexivity. Qed.
Lemma null_length n r : length_of n r <= 0 -> same n r (fun _ => 0).
Proof.
  intro L. apply ip_null. assert (0 <= inner n r r) as P by (apply sumn_nonneg; intros; apply Rle_0_sqr). apply sqrt_eq_0; [exact P|]. unfold length_of in L. pose proof (sqrt_pos (inner n r r)). lra.
Qed.
Lemma cg_solution_solves n m b : symmetric n m -> definite n m -> same n (apply n m (cg_solution n m b)) b.
Proof.
  intros Sm Pm. unfold cg_solution. set (o := mkOptions 0 (Z.of_nat (S n)) 1 0 0). set (lhs := (fun x (_ : vec) => apply n m x) : Operator). set (pre := (fun x (_ : vec) => apply n eye x) : Operator).
  destruct (cg_result n m eye b (fun _ => 0) o lhs pre (fun _ => 0) Sm (eye_symmetric n)) as [s [x [E R]]]; [intros y i _; reflexivity|intros y i _; reflexivity|cbn; lia|]. rewrite E.
  assert (same n (residual n m b x) (fun _ => 0) -> same n (apply n m x) b) as Done by (intros Z i Hi; specialize (Z i Hi); unfold residual in Z; lra).
  destruct R as [[Zb [_ Zx]]|[_ [k [xs [[X0 [Kn [_ [_ [Dec _]]]]] [Ex J]]]]]].
  { intros i Hi. rewrite (Zb i Hi). apply sumn_zero. intros. rewrite Zx. ring. }
  destruct (termination_type s) eqn:T.
  - apply Done, null_length. assert (small_residual n m b 0 x) as SR; [|unfold small_residual in SR; lra].
    apply (cg_success n m eye b (fun _ => 0) o lhs pre (fun _ => 0) s x Sm (eye_symmetric n)); try assumption; try (intros y i _; reflexivity); cbn; lra || lia || (intros i _; reflexivity).
  - unfold justified in J. rewrite Ex in J. destruct (message s); try contradiction; try (destruct J as [J _]; congruence).
    + destruct J as [_ [_ [_ [p [C N]]]]]. exfalso. apply N.
      assert (same n p (fun _ => 0)) as Zp by (apply (definite_null n m p Pm); apply Rle_antisym; [exact C|apply (definite_semidefinite n m Pm)]).
      unfold inner. apply sumn_zero. intros i Hi. rewrite (Zp i Hi). ring.
    + destruct J as [_ [_ [_ [J _]]]]. cbn [max_num_iterations o] in J. lia.
  - unfold justified in J. rewrite Ex in J. destruct (message s); try contradiction; try (destruct J as [J _]; congruence).
    destruct J as [_ [_ [_ J]]]. apply Done, ip_null. rewrite <- J. apply inner_same; [intros j _; reflexivity|]. intros j Hj. symmetry. apply eye_apply. exact Hj.
Qed.
Lemma cg_llt_inverts : inverts cg_llt.
Proof.
  intros n m Sm Pm.
  assert (forall j, same n (apply n m (fun k => cg_llt n m k j)) (fun i => if (i =? j)%nat then 1 else 0)) as R by (intro j; apply cg_solution_solves; assumption).
  intros i j Hi Hj. split; [exact (R j i Hi)|].
  (* the matrix is symmetric, and so is its right inverse *)
  assert (forall k l, (k < n)%nat -> (l < n)%nat -> cg_llt n m k l = cg_llt n m l k) as Sy.
  { intros k l Hk Hl. set (N := cg_llt n m) in *.
    assert (inner n (fun q => N q k) (apply n m (fun q => N q l)) = N l k) as E1.
    { rewrite (inner_same n _ (fun q => N q k) _ (fun i => if (i =? l)%nat then 1 else 0) (fun q _ => eq_refl) (R l)). rewrite inner_comm. exact (inner_unit n l _ Hl). }
    rewrite (form_sym n m _ _ Sm) in E1. rewrite (inner_same n _ (fun q => N q l) _ (fun i => if (i =? k)%nat then 1 else 0) (fun q _ => eq_refl) (R k)), inner_comm in E1. rewrite (inner_unit n k _ Hk) in E1. exact E1. }
  rewrite (sumn_ext n _ (fun k => m j k * cg_llt n m k i)) by (intros k Hk; rewrite (Sy i k Hi Hk), (Sm k j Hk Hj); ring).
  pose proof (R i j Hj) as E. unfold apply in E. rewrite E, Nat.eqb_sym. reflexivity.
Qed.

(* ---------------- one thread ---------------- *)
Definition serial_view (nelim : nat) (a : BlockSparse) : View :=
  mkView (fun x => Serial (RightE nelim (structure a) (values a) x))
    (fun x y => Serial (RightF2 nelim (structure a) (values a) x) (Serial (RightF1 nelim (structure a) (values a) x) y))
    (fun x => Serial (LeftE nelim (structure a) (values a) x)) (fun x => Serial (LeftF nelim (structure a) (values a) x))
    (DiagonalE nelim (structure a) (values a)) (DiagonalF nelim (structure a) (values a)).
Definition one_thread : Threads :=
  mkThreads serial_view (fun bl m x => Serial (DiagonalTasks bl m x)) (fun a x => Serial (RightTasks (structure a) (values a) x)) (fun a x => Serial (LeftTasks (structure a) (values a) x)).
Lemma skip_empty {A} (ls : list (list A)) us : interleaving ls us -> interleaving ([] :: ls) us.
Proof.
  induction 1 as [ls E|ls1 x l ls2 rest _ IH]; [constructor; intros l [<-|H]; [reflexivity|exact (E l H)]|]. apply (int_step ([] :: ls1) x l ls2). exact IH.
Qed.
Lemma in_turn {A} (ls : list (list A)) : interleaving ls (concat ls).
Proof.
  induction ls as [|l ls IH]; [constructor; intros l []|]. cbn [concat]. induction l as [|x l IHl]; [apply skip_empty; exact IH|]. exact (int_step [] x l ls _ IHl).
Qed.
Lemma serial_is_parallel ls y : Parallel ls y (Serial ls y).
Proof. exists (concat ls). split; [apply in_turn|reflexivity]. Qed.
Lemma one_thread_scheduled : scheduled one_thread.
Proof.
  split; [intros nelim a; repeat split|split; [|split]]; intros; try (apply serial_is_parallel); try (left; reflexivity).
  exists (Serial (RightF1 nelim (structure a) (values a) x) y). split; apply serial_is_parallel.
Qed.

(* ---------------- least squares ---------------- *)
Section LEAST.
Variables (a : BlockSparse) (D : option vec) (b : vec).
Let n := num_columns a.
Let h := height (structure a).
Let A := entries a.
Let H := normal a D.
Lemma gradient_inner x : inner n x (gradient a b) = sumn h (fun p => Av n A x p * b p).
Proof.
  unfold inner, gradient. fold h A. rewrite (sumn_ext n _ (fun i => sumn h (fun p => A p i * x i * b p))).
  - rewrite sumn_swap. apply sumn_ext. intros p _. unfold Av. rewrite sumn_scal_r. reflexivity.
  - intros i _. rewrite <- sumn_scal. apply sumn_ext. intros p _. unfold A. ring.
Qed.
Lemma cost_form x : cost a D b x = inner n x (apply n H x) - 2 * inner n x (gradient a b) + sumn h (fun p => b p * b p).
Proof.
  unfold H. change (normal a D) with (gram h A (weight D)). rewrite gram_form, gradient_inner. unfold cost. fold n h A.
  rewrite (sumn_ext h _ (fun p => (Av n A x p * Av n A x p - 2 * (Av n A x p * b p)) + b p * b p)) by (intros p _; unfold Av; ring).
  rewrite sumn_plus, sumn_minus, sumn_scal. ring.
Qed.
Lemma normal_semi : semidefinite n H. Proof. exact (gram_semidefinite h n A (weight D) (weight_nonneg a D)). Qed.
Lemma cost_step x y : cost a D b y = cost a D b x + inner n (fun i => y i - x i) (apply n H (fun i => y i - x i)) - 2 * inner n (fun i => y i - x i) (residual n H (gradient a b) x).
Proof.
  rewrite !cost_form. set (d := fun i => y i - x i). assert (forall v, inner n y v = inner n x v + inner n d v) as L.
  { intro v. unfold inner. rewrite <- sumn_plus. apply sumn_ext. intros i _. unfold d. ring. }
  assert (inner n y (apply n H y) = inner n x (apply n H x) + 2 * inner n d (apply n H x) + inner n d (apply n H d)) as ->.
  { rewrite L, (form_sym n H x y (normal_symmetric a D n)), L. rewrite (inner_same n d d (apply n H y) (fun i => apply n H x i + apply n H d i) (fun i _ => eq_refl)).
    - unfold inner at 3. rewrite (sumn_ext n _ (fun i => d i * apply n H x i + d i * apply n H d i)) by (intros; ring). rewrite sumn_plus. unfold inner. ring.
    - intros i _. rewrite <- apply_plus. apply apply_same. intros j _. unfold d. ring. }
  rewrite (L (gradient a b)). assert (inner n d (residual n H (gradient a b) x) = inner n d (gradient a b) - inner n d (apply n H x)) as ->; [|ring].
  unfold inner. rewrite <- sumn_minus. apply sumn_ext. intros i _. unfold residual. ring.
Qed.
Lemma solution_exists : exists x, same n (apply n H x) (gradient a b).
Proof. exact (normal_solution h n A (weight D) (weight_nonneg a D) b). Qed.
Lemma least_squares x : (forall y, cost a D b x <= cost a D b y) <-> same n (apply n H x) (gradient a b).
Proof.
  assert (forall x, same n (apply n H x) (gradient a b) -> forall y, cost a D b y = cost a D b x + inner n (fun i => y i - x i) (apply n H (fun i => y i - x i))) as Step.
  { intros z E y. rewrite (cost_step z y). assert (inner n (fun i => y i - z i) (residual n H (gradient a b) z) = 0) as ->; [|ring]. apply sumn_zero. intros i Hi. unfold residual. rewrite (E i Hi). ring. }
  split.
  - intro M. destruct solution_exists as [s Es]. pose proof (Step s Es x) as E. pose proof (M s) as L.
    assert (inner n (fun i => x i - s i) (apply n H (fun i => x i - s i)) <= 0) as N by lra.
    intros i Hi. rewrite <- (Es i Hi). pose proof (null_curvature n H _ (fun k => if (k =? i)%nat then 1 else 0) (normal_symmetric a D n) normal_semi N) as Z.
    rewrite (form_sym n H _ _ (normal_symmetric a D n)), (inner_unit n i _ Hi), apply_minus in Z. lra.
  - intros E y. rewrite (Step x E y). pose proof (normal_semi (fun i => y i - x i)). lra.
Qed.
End LEAST.

(* ---------------- the rest of what the solvers need ---------------- *)
Lemma identity_represents n : represents n (Identity n) eye.
Proof. intros x i Hi. unfold Identity. destruct (Nat.ltb_spec i n); [|lia]. rewrite (eye_apply n) by exact Hi. apply Rplus_0_l. Qed.
Lemma eye_definite n : definite n eye.
Proof.
  intros v [i [Hi Ni]]. rewrite (inner_same n v v (apply n eye v) v (fun i _ => eq_refl) (fun i Hi => eye_apply n v i Hi)).
  assert (0 <= inner n v v) as P by (apply sumn_nonneg; intros; apply Rle_0_sqr). destruct P as [P|P]; [exact P|]. exfalso. apply Ni. exact (ip_null n v (eq_sym P) i Hi).
Qed.
Lemma lower_length ne nf r : same ne r (fun _ => 0) -> length_of (ne + nf) r = length_of nf (lower ne r).
Proof. intro Z. unfold length_of. f_equal. unfold inner. rewrite sumn_split. rewrite (sumn_zero ne) by (intros i Hi; rewrite (Z i Hi); ring). unfold lower. ring. Qed.
Lemma length_same n u v : same n u v -> length_of n u = length_of n v.
Proof. intro E. unfold length_of. f_equal. apply inner_same; exact E. Qed.
Lemma series_ext n V W W' x : (forall i j, (i < n)%nat -> (j < n)%nat -> W i j = W' i j) -> forall k, same n (series n V W x k) (series n V W' x k).
Proof.
  intro E. induction k as [|k IH]; intros i Hi; cbn [series]; [reflexivity|]. apply apply_same. intros j Hj. rewrite (apply_same n W _ _ j IH). apply sumn_ext. intros l Hl. rewrite (E j l Hj Hl). reflexivity.
Qed.
Lemma partial_ext n V W W' x : (forall i j, (i < n)%nat -> (j < n)%nat -> W i j = W' i j) -> forall k, same n (partial_sum n V W x k) (partial_sum n V W' x k).
Proof. intros E k i Hi. apply sumn_ext. intros j _. apply series_ext; assumption. Qed.
Lemma together_sym bl : forall i j, together bl i j = together bl j i.
Proof.
  induction bl as [|b bl IH]; intros i j; cbn [together]; [reflexivity|]. rewrite (IH (i - size b)%nat). destruct (i <? size b)%nat, (j <? size b)%nat; reflexivity.
Qed.

(* ---------------- definite matrices ---------------- *)
Lemma lead_definite m k M : definite (m + k) M -> definite m M.
Proof.
  intros P v [i [Hi Ni]]. set (u := joined m v (fun _ => 0)). assert (inner (m + k) u (apply (m + k) M u) = inner m v (apply m M v)) as <-.
  - unfold u. rewrite joined_inner. replace (inner k (fun _ => 0) (lower m (apply (m + k) M (joined m v (fun _ => 0))))) with 0 by (symmetry; apply sumn_zero; intros; ring). rewrite Rplus_0_r.
    apply inner_same; [intros j _; reflexivity|]. intros j Hj. rewrite joined_apply. rewrite (sumn_zero k) by (intros; ring). ring.
  - apply P. exists i. split; [lia|]. unfold u. rewrite (joined_low m k) by exact Hi. exact Ni.
Qed.
Lemma corner_definite m k M : definite (m + k) M -> definite k (corner m M).
Proof.
  intros P v [i [Hi Ni]]. set (u := joined m (fun _ => 0) v). assert (inner (m + k) u (apply (m + k) M u) = inner k v (apply k (corner m M) v)) as <-.
  - unfold u. rewrite joined_inner. replace (inner m (fun _ => 0) (apply (m + k) M (joined m (fun _ => 0) v))) with 0 by (symmetry; apply sumn_zero; intros; ring). rewrite Rplus_0_l.
    apply inner_same; [intros j _; reflexivity|]. intros j Hj. unfold lower. rewrite joined_apply. unfold apply at 1. rewrite (sumn_zero m) by (intros; ring). apply Rplus_0_l.
  - apply P. exists (m + i)%nat. split; [lia|]. unfold u. rewrite (joined_high m k). exact Ni.
Qed.
Lemma block_diagonal_definite bl : forall M, definite (total bl) M -> definite (total bl) (block_diagonal bl M).
Proof.
  induction bl as [|b bl IH]; intros M P; [exact (fun v X => ltac:(destruct X as [i [Hi _]]; cbn in Hi; lia))|].
  change (total (b :: bl)) with (size b + total bl)%nat in *. pose proof (lead_definite _ _ M P) as P1. pose proof (IH _ (corner_definite _ _ M P)) as P2. set (m := size b) in *. set (k := total bl) in *.
  set (N := block_diagonal (b :: bl) M). intros v Hv.
  assert (inner (m + k) v (apply (m + k) N v) = inner m v (apply m M v) + inner k (lower m v) (apply k (block_diagonal bl (corner m M)) (lower m v))) as ->.
  - rewrite (inner_same (m + k) v (joined m v (lower m v)) (apply (m + k) N v) (apply (m + k) N (joined m v (lower m v)))); [|apply same_joined|intros i _; apply apply_same, same_joined].
    rewrite joined_inner. f_equal; apply inner_same; try (intros j _; reflexivity); intros i Hi.
    + rewrite joined_apply. rewrite (sumn_zero k).
      * rewrite Rplus_0_r. apply sumn_ext. intros j Hj. unfold N, block_diagonal. cbn [together]. fold m. destruct (Nat.ltb_spec i m), (Nat.ltb_spec j m); try lia. reflexivity.
      * intros j Hj. unfold N, block_diagonal. cbn [together]. fold m. destruct (Nat.ltb_spec i m), (Nat.ltb_spec (m + j) m); try lia. ring.
    + unfold lower at 1. rewrite joined_apply. unfold apply at 1. rewrite (sumn_zero m).
      * rewrite Rplus_0_l. apply sumn_ext. intros j Hj. unfold N, block_diagonal, corner. cbn [together]. fold m. destruct (Nat.ltb_spec (m + i) m), (Nat.ltb_spec (m + j) m); try lia. cbn [negb andb].
        replace (m + i - m)%nat with i by lia. replace (m + j - m)%nat with j by lia. reflexivity.
      * intros j Hj. unfold N, block_diagonal. cbn [together]. fold m. destruct (Nat.ltb_spec (m + i) m), (Nat.ltb_spec j m); try lia. cbn [negb andb]. ring.
  - pose proof (definite_semidefinite m M P1 v) as N1. pose proof (definite_semidefinite k _ P2 (lower m v)) as N2. destruct Hv as [i [Hi Ni]]. destruct (Nat.lt_ge_cases i m) as [L|L].
    + pose proof (P1 v (ex_intro _ i (conj L Ni))). lra.
    + assert (0 < inner k (lower m v) (apply k (block_diagonal bl (corner m M)) (lower m v))); [|lra]. apply P2. exists (i - m)%nat. split; [lia|]. unfold lower. replace (m + (i - m))%nat with i by lia. exact Ni.
Qed.
Lemma regularised_definite a d : (forall i, (i < num_columns a)%nat -> d i <> 0) -> definite (num_columns a) (normal a (Some d)).
Proof.
  intros Nd v [i [Hi Ni]]. change (normal a (Some d)) with (gram (height (structure a)) (entries a) (weight (Some d))). rewrite gram_form.
  assert (0 <= sumn (height (structure a)) (fun p => Av (num_columns a) (entries a) v p * Av (num_columns a) (entries a) v p)) as P1 by (apply sumn_nonneg; intros; apply Rle_0_sqr).
  assert (0 < sumn (num_columns a) (fun i => weight (Some d) i * (v i * v i))); [|lra].
  set (f := fun i => weight (Some d) i * (v i * v i)). assert (forall j, 0 <= f j) as Pf by (intro j; unfold f, weight; apply Rmult_le_pos; apply Rle_0_sqr).
  assert (0 < f i) as Pi by (unfold f, weight; apply Rmult_lt_0_compat; [apply (Rsqr_pos_lt _ (Nd i Hi))|apply (Rsqr_pos_lt _ Ni)]).
  clear -Pf Pi Hi. induction (num_columns a) as [|n IH]; [lia|]. cbn [sumn]. destruct (Nat.eq_dec i n) as [->|N]; [|specialize (IH ltac:(lia)); pose proof (Pf n); lra].
  pose proof (sumn_nonneg n f (fun j _ => Pf j)). lra.
Qed.
