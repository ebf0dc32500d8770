(* Eliminating the first ne unknowns of a symmetric system. *)
From Coq Require Import Reals ZArith List Arith Bool Lia Lra.
From Verif Require Import SchurModel SchurProofs BlockSparseModel CGModel CGSpec CGProofs ImplicitSchurSpec ImplicitSchurProofs2.
Import ListNotations.
Open Scope R_scope.

Section REDUCE.
Variables (ne nf : nat) (H : matrix).
Let n := (ne + nf)%nat.
Hypothesis SH : symmetric n H.
Hypothesis PE : definite ne H.

Lemma joined_low u x i : (i < ne)%nat -> joined ne u x i = u i.
Proof. intro Hi. unfold joined. destruct (Nat.ltb_spec i ne); [reflexivity|lia]. Qed.
Lemma joined_high u x i : joined ne u x (ne + i)%nat = x i.
Proof. unfold joined. destruct (Nat.ltb_spec (ne + i)%nat ne); [lia|]. f_equal. lia. Qed.
Lemma joined_sum (f : nat -> R) u x : sumn n (fun j => f j * joined ne u x j) = sumn ne (fun j => f j * u j) + sumn nf (fun j => f (ne + j)%nat * x j).
Proof.
  unfold n. rewrite sumn_split. f_equal; apply sumn_ext; intros j Hj; [rewrite joined_low by exact Hj|rewrite joined_high]; reflexivity.
Qed.
Lemma joined_apply u x i : apply n H (joined ne u x) i = apply ne H u i + sumn nf (fun j => H i (ne + j)%nat * x j).
Proof. unfold apply. apply joined_sum. Qed.
Lemma joined_inner u x v : inner n (joined ne u x) v = inner ne u v + inner nf x (lower ne v).
Proof.
  unfold inner. rewrite (sumn_ext n _ (fun j => v j * joined ne u x j)) by (intros; ring). rewrite joined_sum. f_equal; apply sumn_ext; intros; unfold lower; ring.
Qed.
Lemma same_joined x : same n x (joined ne x (lower ne x)).
Proof. intros i Hi. unfold joined, lower. destruct (Nat.ltb_spec i ne); [reflexivity|]. f_equal. lia. Qed.

Lemma lead_unique u v : same ne (apply ne H u) (apply ne H v) -> same ne u v.
Proof.
  intro E. assert (same ne (fun k => u k - v k) (fun _ => 0)) as Z; [|intros i Hi; specialize (Z i Hi); cbv beta in Z; lra].
  apply (definite_null ne H); [exact PE|]. unfold inner. apply sumn_zero. intros i Hi. rewrite apply_minus, (E i Hi). ring.
Qed.
Lemma elim_unique u v x : same ne (apply n H (joined ne u x)) (apply n H (joined ne v x)) -> same ne u v.
Proof. intro E. apply lead_unique. intros i Hi. specialize (E i Hi). rewrite !joined_apply in E. lra. Qed.
Lemma elim_same u v x i : same ne u v -> apply n H (joined ne u x) i = apply n H (joined ne v x) i.
Proof. intro E. rewrite !joined_apply. f_equal. apply apply_same. exact E. Qed.
Lemma schur_unique x y y' : schur_product ne nf H x y -> schur_product ne nf H x y' -> same nf y y'.
Proof.
  intros [u [Z E]] [v [Z' E']] i Hi. rewrite <- (E i Hi), <- (E' i Hi). unfold lower. apply elim_same. apply (elim_unique u v x). intros k Hk. transitivity 0; [exact (Z k Hk)|symmetry; exact (Z' k Hk)].
Qed.
Lemma schur_same x y y' : schur_product ne nf H x y -> same nf y y' -> schur_product ne nf H x y'.
Proof. intros [u [Z E]] S. exists u. split; [exact Z|]. intros i Hi. rewrite (E i Hi). apply S. exact Hi. Qed.
Lemma reduced_unique g r r' : reduced_rhs ne nf H g r -> reduced_rhs ne nf H g r' -> same nf r r'.
Proof.
  intros [u [Z E]] [v [Z' E']] i Hi. rewrite <- (E i Hi), <- (E' i Hi). unfold lower, residual. f_equal. apply elim_same. apply (elim_unique u v (fun _ => 0)). intros k Hk. specialize (Z k Hk). specialize (Z' k Hk). unfold residual in Z, Z'. fold n in Z, Z'. lra.
Qed.
(* the residual of the whole system is that of the reduced one *)
Lemma residual_reduced g r z y x : reduced_rhs ne nf H g r -> schur_product ne nf H z y -> same nf (lower ne x) z -> same ne (residual n H g x) (fun _ => 0) ->
  same nf (lower ne (residual n H g x)) (fun i => r i - y i).
Proof.
  intros [u [Zu Eu]] [v [Zv Ev]] Lx Zx i Hi. unfold lower, residual.
  assert (forall k, apply n H x k = apply n H (joined ne x z) k) as Ex.
  { intro k. apply apply_same. intros j Hj. rewrite (same_joined x j Hj). unfold joined. destruct (Nat.ltb_spec j ne) as [L|L]; [reflexivity|]. apply Lx. unfold n in Hj. lia. }
  assert (same ne x (fun k => u k + v k)) as E.
  { apply (elim_unique _ _ z). intros k Hk. specialize (Zu k Hk). specialize (Zv k Hk). specialize (Zx k Hk). unfold residual in Zu, Zx. fold n in Zu, Zv. rewrite Ex in Zx. rewrite joined_apply in Zx. rewrite !joined_apply, apply_plus. rewrite joined_apply in Zu, Zv. 
    rewrite (sumn_zero nf (fun j => H k (ne + j)%nat * 0)) in Zu by (intros; ring). lra. }
  specialize (Eu i Hi). specialize (Ev i Hi). unfold lower, residual in Eu, Ev. fold n in Eu, Ev. rewrite <- Eu, <- Ev, Ex, (elim_same x _ z (ne + i)%nat E), !joined_apply.
  rewrite apply_plus.
  rewrite (sumn_zero nf (fun j => H (ne + i)%nat (ne + j)%nat * 0)) by (intros; ring). ring.
Qed.

(* the Schur complement as a matrix *)
Variable Ci : matrix.
Hypothesis IC : inverse_of ne H Ci.
Definition Wmat : matrix := fun i j => sumn ne (fun k => H (ne + i)%nat k * apply ne Ci (fun l => H l (ne + j)%nat) k).
Definition Smat : matrix := fun i j => H (ne + i)%nat (ne + j)%nat - Wmat i j.
Lemma wmat_apply x i : apply nf Wmat x i = sumn ne (fun k => H (ne + i)%nat k * apply ne Ci (fun l => sumn nf (fun j => H l (ne + j)%nat * x j)) k).
Proof.
  unfold apply at 1. unfold Wmat. rewrite (sumn_ext nf _ (fun j => sumn ne (fun k => H (ne + i)%nat k * (apply ne Ci (fun l => H l (ne + j)%nat) k * x j)))) by (intros; rewrite <- sumn_scal_r; apply sumn_ext; intros; ring).
  rewrite sumn_swap. apply sumn_ext. intros k Hk. rewrite sumn_scal. f_equal. unfold apply.
  rewrite (sumn_ext nf _ (fun j => sumn ne (fun l => Ci k l * (H l (ne + j)%nat * x j)))) by (intros; rewrite <- sumn_scal_r; apply sumn_ext; intros; ring).
  rewrite sumn_swap. apply sumn_ext. intros l Hl. rewrite sumn_scal. reflexivity.
Qed.
Lemma smat_apply x i : apply nf Smat x i = apply nf (corner ne H) x i - apply nf Wmat x i.
Proof. unfold apply, Smat, corner. rewrite <- sumn_minus. apply sumn_ext. intros. ring. Qed.
Definition elim (x : vec) : vec := fun k => - apply ne Ci (fun l => sumn nf (fun j => H l (ne + j)%nat * x j)) k.
Lemma elim_zero x : same ne (apply n H (joined ne (elim x) x)) (fun _ => 0).
Proof. intros i Hi. rewrite joined_apply. unfold elim. rewrite apply_opp, (proj1 (inverse_apply ne H Ci IC) _ i Hi). ring. Qed.
Lemma elim_lower x i : lower ne (apply n H (joined ne (elim x) x)) i = apply nf Smat x i.
Proof.
  unfold lower. rewrite joined_apply, smat_apply, wmat_apply. change (apply nf (corner ne H) x i) with (sumn nf (fun j => H (ne + i)%nat (ne + j)%nat * x j)).
  unfold elim. rewrite apply_opp. unfold apply at 1. ring.
Qed.
Lemma smat_schur : is_schur ne nf H Smat.
Proof. intro x. exists (elim x). split; [apply elim_zero|]. intros i Hi. apply elim_lower. Qed.

Lemma schur_form S x y u : (forall v, schur_product ne nf H v (apply nf S v)) -> same ne (apply n H (joined ne u x)) (fun _ => 0) -> inner nf y (apply nf S x) = inner n (joined ne (elim y) y) (apply n H (joined ne u x)).
Proof.
  intros IS Z. rewrite joined_inner, (inner_same ne _ (elim y) _ (fun _ => 0)) by (exact Z || (intros i _; reflexivity)). assert (inner ne (elim y) (fun _ => 0) = 0) as -> by (apply sumn_zero; intros; ring). rewrite Rplus_0_l.
  apply inner_same; [intros i _; reflexivity|]. apply (schur_unique x); [apply IS|]. exists u. split; [exact Z|intros i _; reflexivity].
Qed.
Lemma schur_symmetric S : is_schur ne nf H S -> symmetric nf S.
Proof.
  intro IS. apply symmetric_form. intros x y. rewrite (schur_form S y x (elim y) IS (elim_zero y)), (schur_form S x y (elim x) IS (elim_zero x)). apply form_sym. exact SH.
Qed.
Lemma schur_semidefinite S : is_schur ne nf H S -> semidefinite n H -> semidefinite nf S.
Proof. intros IS P x. rewrite (schur_form S x x (elim x) IS (elim_zero x)). apply P. Qed.
Lemma schur_definite S : is_schur ne nf H S -> definite n H -> definite nf S.
Proof.
  intros IS P x [i [Hi Nx]]. rewrite (schur_form S x x (elim x) IS (elim_zero x)). apply P. exists (ne + i)%nat. split; [unfold n; lia|]. rewrite joined_high. exact Nx.
Qed.
Lemma schur_same_matrix S : is_schur ne nf H S -> forall x, same nf (apply nf S x) (apply nf Smat x).
Proof. intros IS x. apply (schur_unique x); [apply IS|apply smat_schur]. Qed.
Lemma schur_solution S g r sol : is_schur ne nf H S -> reduced_rhs ne nf H g r -> same n (apply n H sol) g -> same nf (apply nf S (lower ne sol)) r.
Proof.
  intros IS R E i Hi. assert (same ne (residual n H g sol) (fun _ => 0)) as Z by (intros k Hk; unfold residual; rewrite (E k) by (unfold n; lia); ring).
  pose proof (residual_reduced g r (lower ne sol) _ sol R (IS (lower ne sol)) (fun k _ => eq_refl) Z i Hi) as X. cbv beta in X. unfold lower at 1, residual in X. rewrite (E (ne + i)%nat) in X by (unfold n; lia). lra.
Qed.
Lemma wmat_symmetric : symmetric nf Wmat.
Proof.
  pose proof (schur_symmetric Smat smat_schur) as S. intros i j Hi Hj. specialize (S i j Hi Hj). unfold Smat in S. rewrite (SH (ne + i) (ne + j))%nat in S by (unfold n; lia). lra.
Qed.
Lemma wmat_semidefinite : semidefinite nf Wmat.
Proof.
  intro x. unfold inner. rewrite (sumn_ext nf _ (fun i => x i * sumn ne (fun k => H (ne + i)%nat k * (- elim x k)))) by (intros i Hi; rewrite wmat_apply; unfold elim; f_equal; apply sumn_ext; intros; ring).
  rewrite (sumn_ext nf _ (fun i => sumn ne (fun k => (- elim x k) * (H k (ne + i)%nat * x i)))).
  2:{ intros i Hi. rewrite <- sumn_scal. apply sumn_ext. intros k Hk. rewrite (SH (ne + i)%nat k) by (unfold n; lia). ring. }
  rewrite sumn_swap, (sumn_ext ne _ (fun k => elim x k * apply ne H (elim x) k)).
  - change (0 <= inner ne (elim x) (apply ne H (elim x))). destruct (Req_EM_T (inner ne (elim x) (apply ne H (elim x))) 0) as [E|E]; [lra|].
    left. apply PE. apply Classical_Prop.NNPP. intro X. apply E. apply sumn_zero. intros k Hk. destruct (Req_EM_T (elim x k) 0) as [Z|Z]; [rewrite Z; ring|]. exfalso. apply X. exists k. split; assumption.
  - intros k Hk. rewrite sumn_scal. pose proof (elim_zero x k Hk) as Z. rewrite joined_apply in Z. cbv beta in Z. replace (sumn nf (fun i => H k (ne + i)%nat * x i)) with (- apply ne H (elim x) k) by lra. ring.
Qed.
End REDUCE.

(* the power series *)
Section SERIES.
Variables (n : nat) (V W : matrix).
Hypotheses (SV : symmetric n V) (SW : symmetric n W) (PV : definite n V) (PW : semidefinite n W).
(* series j = V (back j) *)
Fixpoint back (x : vec) (j : nat) : vec := match j with O => x | S j' => apply n W (apply n V (back x j')) end.
Lemma series_back x : forall j i, series n V W x j i = apply n V (back x j) i.
Proof. induction j as [|j IH]; intro i; [reflexivity|]. cbn [series back]. apply apply_same. intros k _. apply apply_same. intros l _. apply IH. Qed.
Lemma back_shift x y j : forall i, inner n (back x i) (apply n V (back y (S j))) = inner n (back x (S i)) (apply n V (back y j)).
Proof.
  intro i. cbn [back]. rewrite (form_sym n V _ _ SV), inner_comm, (form_sym n W _ _ SW), inner_comm. apply inner_same; intros k _; reflexivity.
Qed.
Lemma back_sum x y : forall i j, inner n x (apply n V (back y (i + j))) = inner n (back x i) (apply n V (back y j)).
Proof.
  intro i. induction i as [|i IH]; intro j; [reflexivity|]. replace (S i + j)%nat with (i + S j)%nat by lia. rewrite IH. apply back_shift.
Qed.
Lemma term_symmetric x y j : inner n x (series n V W y j) = inner n y (series n V W x j).
Proof.
  rewrite (inner_same n x x _ (apply n V (back y j))), (inner_same n y y _ (apply n V (back x j))); try (intros i _; reflexivity || apply series_back).
  replace j with (j + 0)%nat at 1 by lia. rewrite back_sum. cbn [back]. rewrite (form_sym n V _ _ SV). reflexivity.
Qed.
Lemma definite_semidefinite M : definite n M -> semidefinite n M.
Proof.
  intros P v. destruct (Req_EM_T (inner n v (apply n M v)) 0) as [E|E]; [lra|]. left. apply P. apply Classical_Prop.NNPP. intro X. apply E. apply sumn_zero. intros k Hk.
  destruct (Req_EM_T (v k) 0) as [Z|Z]; [rewrite Z; ring|]. exfalso. apply X. exists k. split; assumption.
Qed.
Lemma term_nonneg x j : 0 <= inner n x (series n V W x j).
Proof.
  rewrite (inner_same n x x _ (apply n V (back x j))); try (intros i _; reflexivity || apply series_back).
  destruct (Nat.Even_or_Odd j) as [[k ->]|[k ->]].
  - replace (2 * k)%nat with (k + k)%nat by lia. rewrite back_sum. apply definite_semidefinite. exact PV.
  - replace (2 * k + 1)%nat with (k + S k)%nat by lia. rewrite back_sum. cbn [back]. rewrite (form_sym n V _ _ SV), inner_comm. apply PW.
Qed.
Definition Pmat (k : nat) : matrix := fun i j => partial_sum n V W (fun l => if (l =? j)%nat then 1 else 0) k i.
Lemma series_linear x : forall j i, (i < n)%nat -> series n V W x j i = sumn n (fun l => series n V W (fun m => if (m =? l)%nat then 1 else 0) j i * x l).
Proof.
  induction j as [|j IH]; intros i Hi.
  - cbn [series]. unfold apply at 1. apply sumn_ext. intros l Hl. rewrite apply_unit by exact Hl. reflexivity.
  - cbn [series]. assert (forall M (f : nat -> vec) y, same n y (fun i => sumn n (fun l => f l i * x l)) -> forall i, apply n M y i = sumn n (fun l => apply n M (f l) i * x l)) as G.
    { intros M f y E k. rewrite (apply_same n M _ _ k E). unfold apply. rewrite (sumn_ext n _ (fun j0 => sumn n (fun l => M k j0 * (f l j0 * x l)))) by (intros; rewrite sumn_scal; reflexivity).
      rewrite sumn_swap. apply sumn_ext. intros l Hl. rewrite <- sumn_scal_r. apply sumn_ext. intros. ring. }
    apply G. intros k _. apply G. intros l Hl. apply IH. exact Hl.
Qed.
Lemma pmat_apply k x i : (i < n)%nat -> apply n (Pmat k) x i = partial_sum n V W x k i.
Proof.
  intro Hi. unfold apply, Pmat, partial_sum. rewrite (sumn_ext (S k) (fun j => series n V W x j i) (fun j => sumn n (fun l => series n V W (fun m => if (m =? l)%nat then 1 else 0) j i * x l))) by (intros; apply series_linear; exact Hi).
  rewrite sumn_swap. apply sumn_ext. intros l Hl. rewrite sumn_scal_r. reflexivity.
Qed.
Lemma pmat_inner k x y : inner n x (apply n (Pmat k) y) = sumn (S k) (fun j => inner n x (series n V W y j)).
Proof.
  unfold inner. rewrite (sumn_ext n _ (fun i => sumn (S k) (fun j => x i * series n V W y j i))) by (intros; rewrite pmat_apply by assumption; unfold partial_sum; rewrite sumn_scal; reflexivity). apply sumn_swap.
Qed.
Lemma pmat_symmetric k : symmetric n (Pmat k).
Proof. apply symmetric_form. intros x y. rewrite !pmat_inner. apply sumn_ext. intros j _. apply term_symmetric. Qed.
Lemma pmat_definite k : definite n (Pmat k).
Proof.
  intros x Hx. rewrite pmat_inner. induction k as [|k IH].
  - cbn [sumn series]. specialize (PV x Hx). lra.
  - change (sumn (S (S k)) ?f) with (sumn (S k) f + f (S k)). pose proof (term_nonneg x (S k)). lra.
Qed.
(* B - W applied to the partial sum; V is the inverse of B *)
Lemma series_residual B x k i : inverse_of n B V -> (i < n)%nat -> apply n B (partial_sum n V W x k) i - apply n W (partial_sum n V W x k) i = x i - apply n W (series n V W x k) i.
Proof.
  intros I Hi. destruct (inverse_apply n B V I) as [A _]. induction k as [|k IH].
  - rewrite (apply_same n B _ (apply n V x)), (apply_same n W (partial_sum n V W x 0) (series n V W x 0)); [|intros j _; unfold partial_sum; cbn [sumn]; ring|intros j _; unfold partial_sum; cbn [sumn series]; ring].
    rewrite (A x i Hi). reflexivity.
  - rewrite (apply_same n B _ (fun j => partial_sum n V W x k j + series n V W x (S k) j)), (apply_same n W (partial_sum n V W x (S k)) (fun j => partial_sum n V W x k j + series n V W x (S k) j)) by (intros j _; unfold partial_sum; reflexivity).
    rewrite !apply_plus. cbn [series]. rewrite (A _ i Hi). lra.
Qed.
End SERIES.
