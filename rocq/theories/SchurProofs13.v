From Coq Require Import Reals List Arith Lia Lra Psatz Bool.
From Verif Require Import SchurModel SchurSpec SchurProofs.
Import ListNotations.
Open Scope R_scope.

(* ---------------- the requirement on InvertPSDMatrix can be met: elimination of the last
   row and column, or of nothing when the pivot is zero ---------------- *)
Definition rest (n : nat) (m : matrix) : matrix := if Req_EM_T (m n n) 0 then m else fun i j => m i j - m i n * m n j / m n n.
Fixpoint ginv (n : nat) (m : matrix) : matrix :=
  match n with
  | O => fun _ _ => 0
  | S n' =>
    let g := ginv n' (rest n' m) in
    let p := m n' n' in
    if Req_EM_T p 0 then fun i j => if (i <? n') && (j <? n') then g i j else 0
    else
      let u i := sumn n' (fun k => g i k * m k n') / p in
      fun i j => if i <? n' then if j <? n' then g i j else - u i
                 else if j <? n' then - u j else 1 / p + sumn n' (fun k => m k n' * u k) / p
  end.

Lemma form_last n m v : form (S n) m v = form n m v + sumn n (fun i => v i * m i n) * v n + v n * sumn n (fun j => m n j * v j) + v n * m n n * v n.
Proof.
  unfold form. cbn [sumn]. rewrite sumn_plus. rewrite (sumn_scal_r n (v n) (fun i => v i * m i n)).
  rewrite (sumn_ext n (fun j => v n * m n j * v j) (fun j => v n * (m n j * v j))) by (intros; ring). rewrite sumn_scal. ring.
Qed.
Lemma form_ext n m m' v v' : (forall i j, (i < n)%nat -> (j < n)%nat -> m i j = m' i j) -> (forall i, (i < n)%nat -> v i = v' i) -> form n m v = form n m' v'.
Proof. intros H K. apply sumn_ext. intros i Hi. apply sumn_ext. intros j Hj. rewrite H, !K by assumption. reflexivity. Qed.
Lemma semi_pivot n m : semidefinite (S n) m -> 0 <= m n n.
Proof.
  intro P. specialize (P (fun i => if i =? n then 1 else 0)). rewrite form_last, Nat.eqb_refl in P.
  assert (forall i, (i < n)%nat -> (if i =? n then 1 else 0) = 0) as Z by (intros i Hi; destruct (Nat.eqb_spec i n); [lia|reflexivity]).
  assert (form n m (fun i => if i =? n then 1 else 0) = 0) as F. { unfold form. apply sumn_zero. intros i Hi. apply sumn_zero. intros j Hj. rewrite Z by exact Hi. ring. }
  rewrite F in P. rewrite (sumn_zero n (fun i => (if i =? n then 1 else 0) * m i n)) in P by (intros i Hi; rewrite Z by exact Hi; ring).
  rewrite (sumn_zero n (fun j => m n j * (if j =? n then 1 else 0))) in P by (intros i Hi; rewrite Z by exact Hi; ring). lra.
Qed.
Lemma semi_zero n m : symmetric (S n) m -> semidefinite (S n) m -> m n n = 0 -> forall i, (i < n)%nat -> m i n = 0.
Proof.
  intros Sy P Z i Hi.
  assert (forall t, 0 <= t * t * m i i + 2 * t * m i n) as Q.
  { intro t. specialize (P (fun k => if k =? n then 1 else if k =? i then t else 0)). rewrite form_last, Nat.eqb_refl, Z in P.
    assert (form n m (fun k => if k =? n then 1 else if k =? i then t else 0) = t * t * m i i) as F.
    { unfold form. rewrite (sumn_single n _ i Hi).
      - rewrite (sumn_single n _ i Hi).
        + destruct (Nat.eqb_spec i n); [lia|]. rewrite Nat.eqb_refl. ring.
        + intros j Hj N. destruct (Nat.eqb_spec j n); [lia|]. destruct (Nat.eqb_spec j i); [contradiction|]. ring.
      - intros j Hj N. apply sumn_zero. intros k Hk. destruct (Nat.eqb_spec j n); [lia|]. destruct (Nat.eqb_spec j i); [contradiction|]. ring. }
    rewrite F in P. rewrite (sumn_single n (fun k => (if k =? n then 1 else if k =? i then t else 0) * m k n) i Hi) in P.
    2:{ intros j Hj N. destruct (Nat.eqb_spec j n); [lia|]. destruct (Nat.eqb_spec j i); [contradiction|]. ring. }
    rewrite (sumn_single n (fun k => m n k * (if k =? n then 1 else if k =? i then t else 0)) i Hi) in P.
    2:{ intros j Hj N. destruct (Nat.eqb_spec j n); [lia|]. destruct (Nat.eqb_spec j i); [contradiction|]. ring. }
    destruct (Nat.eqb_spec i n); [lia|]. rewrite Nat.eqb_refl in P. rewrite (Sy n i) in P by lia. lra. }
  set (a := m i i) in *. set (c := m i n) in *.
  destruct (Req_dec c 0) as [|N]; [assumption|exfalso].
  assert (0 <= a) as Ha. { pose proof (Q 1). pose proof (Q (-1)). lra. }
  destruct (Req_dec a 0) as [A|A].
  - pose proof (Q (- c)). assert (0 < c * c) by nra. nra.
  - pose proof (Q (- c / a)) as H. replace (- c / a * (- c / a) * a + 2 * (- c / a) * c) with (- (c * c / a)) in H by (field; exact A).
    assert (0 < c * c / a). { apply Rdiv_lt_0_compat; nra. } lra.
Qed.
Lemma rest_sym n m : symmetric (S n) m -> symmetric n (rest n m).
Proof.
  intros Sy i j Hi Hj. unfold rest. destruct (Req_EM_T (m n n) 0); [apply Sy; lia|]. rewrite (Sy i j), (Sy i n), (Sy n j) by lia. field. assumption.
Qed.
Lemma rest_semi n m : symmetric (S n) m -> semidefinite (S n) m -> semidefinite n (rest n m).
Proof.
  intros Sy P v. unfold rest. destruct (Req_EM_T (m n n) 0) as [Z|Z].
  - specialize (P (fun i => if i =? n then 0 else v i)). rewrite form_last, Nat.eqb_refl in P.
    rewrite (form_ext n m m _ v) in P; [lra|reflexivity|]. intros i Hi. destruct (Nat.eqb_spec i n); [lia|reflexivity].
  - set (s := sumn n (fun i => v i * m i n)).
    specialize (P (fun i => if i =? n then - s / m n n else v i)). rewrite form_last, Nat.eqb_refl in P.
    rewrite (form_ext n m m _ v) in P; [|reflexivity|intros i Hi; destruct (Nat.eqb_spec i n); [lia|reflexivity]].
    rewrite (sumn_ext n _ (fun i => v i * m i n)) in P by (intros i Hi; destruct (Nat.eqb_spec i n); [lia|reflexivity]).
    rewrite (sumn_ext n (fun j => m n j * (if j =? n then - s / m n n else v j)) (fun i => v i * m i n)) in P.
    2:{ intros i Hi. destruct (Nat.eqb_spec i n); [lia|]. rewrite (Sy n i) by lia. ring. }
    fold s in P.
    assert (form n (fun i j => m i j - m i n * m n j / m n n) v = form n m v - s * s / m n n) as ->.
    { unfold form. rewrite (sumn_ext n _ (fun i => sumn n (fun j => v i * m i j * v j) - (v i * m i n) * (s / m n n))).
      - rewrite sumn_minus, sumn_scal_r. fold s. field. exact Z.
      - intros i Hi. unfold s, Rdiv. rewrite <- sumn_scal_r. rewrite <- sumn_scal, <- sumn_minus. apply sumn_ext. intros j Hj. rewrite (Sy n j) by lia. field. exact Z. }
    replace (form n m v - s * s / m n n) with (form n m v + s * (- s / m n n) + - s / m n n * s + - s / m n n * m n n * (- s / m n n)) by (field; exact Z). exact P.
Qed.
Lemma ginv_ext n : forall m m', (forall i j, (i < n)%nat -> (j < n)%nat -> m i j = m' i j) -> forall i j, (i < n)%nat -> (j < n)%nat -> ginv n m i j = ginv n m' i j.
Proof.
  induction n as [|n IH]; intros m m' H i j Hi Hj; [lia|].
  assert (forall i j, (i < n)%nat -> (j < n)%nat -> ginv n (rest n m) i j = ginv n (rest n m') i j) as G.
  { apply IH. intros a c Ha Hc. unfold rest. rewrite <- (H n n) by lia. destruct (Req_EM_T (m n n) 0); rewrite <- !H by lia; reflexivity. }
  cbn [ginv]. rewrite <- (H n n) by lia. destruct (Req_EM_T (m n n) 0) as [Z|Z].
  - destruct (Nat.ltb_spec i n); [|reflexivity]. destruct (Nat.ltb_spec j n); [|reflexivity]. cbn [andb]. apply G; assumption.
  - assert (forall i, (i < n)%nat -> sumn n (fun k => ginv n (rest n m) i k * m k n) / m n n = sumn n (fun k => ginv n (rest n m') i k * m' k n) / m n n) as U.
    { intros a Ha. f_equal. apply sumn_ext. intros k Hk. rewrite G, H by lia. reflexivity. }
    destruct (Nat.ltb_spec i n), (Nat.ltb_spec j n).
    + apply G; assumption.
    + rewrite U by assumption. reflexivity.
    + rewrite U by assumption. reflexivity.
    + f_equal. f_equal. apply sumn_ext. intros k Hk. rewrite U, H by lia. reflexivity.
Qed.
Lemma ginv_sym n : forall m, symmetric n m -> symmetric n (ginv n m).
Proof.
  induction n as [|n IH]; intros m Sy i j Hi Hj; [lia|]. pose proof (IH _ (rest_sym n m Sy)) as G. cbn [ginv]. destruct (Req_EM_T (m n n) 0) as [Z|Z].
  - destruct (Nat.ltb_spec i n), (Nat.ltb_spec j n); cbn [andb]; try reflexivity. apply G; assumption.
  - destruct (Nat.ltb_spec i n), (Nat.ltb_spec j n); try reflexivity. apply G; assumption.
Qed.
Lemma ginv_inverse n : forall m, symmetric n m -> semidefinite n m -> forall i j, (i < n)%nat -> (j < n)%nat ->
  sumn n (fun a => sumn n (fun c => m i a * ginv n m a c * m c j)) = m i j.
Proof.
  induction n as [|n IH]; intros m Sy P i j Hi Hj; [lia|].
  pose proof (IH _ (rest_sym n m Sy) (rest_semi n m Sy P)) as K. pose proof (ginv_sym n _ (rest_sym n m Sy)) as Gs. cbn [ginv]. destruct (Req_EM_T (m n n) 0) as [Z|Z].
  - pose proof (semi_zero n m Sy P Z) as V. assert (rest n m = m) as Rm by (unfold rest; destruct (Req_EM_T (m n n) 0); [reflexivity|contradiction]). rewrite Rm in *.
    rewrite (sumn_ext (S n) _ (fun a => if a <? n then sumn n (fun c => m i a * ginv n m a c * m c j) else 0)).
    2:{ intros a Ha. cbn [sumn]. rewrite (Nat.ltb_irrefl n), andb_false_r. destruct (Nat.ltb_spec a n) as [L|L].
        - rewrite (sumn_ext n _ (fun c => m i a * ginv n m a c * m c j)); [ring|]. intros c Hc. destruct (Nat.ltb_spec c n); [reflexivity|lia].
        - rewrite sumn_zero; [ring|]. intros. cbn [andb]. ring. }
    cbn [sumn]. rewrite Nat.ltb_irrefl. rewrite (sumn_ext n _ (fun a => sumn n (fun c => m i a * ginv n m a c * m c j))) by (intros a Ha; destruct (Nat.ltb_spec a n); [reflexivity|lia]).
    assert (i = n \/ i < n)%nat as [->|Li] by lia.
    + rewrite sumn_zero. { assert (j = n \/ j < n)%nat as [->|Lj] by lia; [rewrite Z; lra|rewrite (Sy n j), V by lia; lra]. }
      intros a Ha. apply sumn_zero. intros c Hc. rewrite (Sy n a), V by lia. ring.
    + assert (j = n \/ j < n)%nat as [->|Lj] by lia.
      * rewrite sumn_zero; [rewrite V by exact Li; lra|]. intros a Ha. apply sumn_zero. intros c Hc. rewrite (V c) by lia. ring.
      * rewrite K by assumption. lra.
  - set (g := ginv n (rest n m)) in *. set (p := m n n) in *. set (u := fun i => sumn n (fun k => g i k * m k n) / p).
    assert (forall i j, rest n m i j = m i j - m i n * m n j / p) as Er by (intros; unfold rest; fold p; destruct (Req_EM_T p 0); [contradiction|reflexivity]).
    set (s := rest n m) in *.
    set (gs := fun a j => sumn n (fun c => g a c * s c j)).
    set (us := fun j => sumn n (fun k => u k * s k j)).
    (* w m *)
    set (pr := fun a j => if a <? n then if j <? n then gs a j else 0 else if j <? n then m j n / p - us j else 1).
    assert (forall a, u a * p = sumn n (fun k => g a k * m k n)) as Up by (intro; unfold u; field; exact Z).
    assert (forall a, (a < n)%nat -> forall j, (j <= n)%nat -> sumn n (fun c => g a c * m c j) = (if j <? n then gs a j else 0) + u a * m n j) as E1.
    { intros a Ha c Hc. destruct (Nat.ltb_spec c n).
      - unfold gs. rewrite (sumn_ext n (fun c0 => g a c0 * s c0 c) (fun c0 => g a c0 * m c0 c - (g a c0 * m c0 n) * (m n c / p))) by (intros; rewrite Er; field; exact Z).
        rewrite sumn_minus, sumn_scal_r. rewrite <- Up. field. exact Z.
      - replace c with n by lia. fold p. rewrite Up. lra. }
    assert (forall j, (j <= n)%nat -> sumn n (fun k => u k * m k j) = (if j <? n then us j else sumn n (fun k => m k n * u k)) + (if j <? n then sumn n (fun k => m k n * u k) * m n j / p else 0)) as E2.
    { intros c Hc. destruct (Nat.ltb_spec c n).
      - unfold us. rewrite (sumn_ext n (fun k => u k * s k c) (fun k => u k * m k c - (m k n * u k) * (m n c / p))) by (intros; rewrite Er; field; exact Z).
        rewrite sumn_minus, sumn_scal_r. field. exact Z.
      - replace c with n by lia. rewrite Rplus_0_r. apply sumn_ext. intros. ring. }
    assert (forall a c, (a <= n)%nat -> (c <= n)%nat -> sumn (S n) (fun k => (if a <? n then if k <? n then g a k else - u a else if k <? n then - u k else 1 / p + sumn n (fun k => m k n * u k) / p) * m k c) = pr a c) as Ep.
    { intros a c Ha Hc. cbn [sumn]. rewrite Nat.ltb_irrefl. unfold pr. destruct (Nat.ltb_spec a n).
      - rewrite (sumn_ext n _ (fun k => g a k * m k c)) by (intros k Hk; destruct (Nat.ltb_spec k n); [reflexivity|lia]). rewrite E1 by lia. destruct (Nat.ltb_spec c n); lra.
      - rewrite (sumn_ext n _ (fun k => - (u k * m k c))) by (intros k Hk; destruct (Nat.ltb_spec k n); [ring|lia]). rewrite sumn_opp, E2 by lia. destruct (Nat.ltb_spec c n).
        + rewrite (Sy n c) by lia. field. exact Z.
        + replace c with n by lia. fold p. field. exact Z. }
    rewrite (sumn_ext (S n) _ (fun a => m i a * pr a j)).
    2:{ intros a Ha. rewrite <- (Ep a j) by lia. rewrite <- sumn_scal. apply sumn_ext. intros k Hk. unfold u. rewrite Rmult_assoc. reflexivity. }
    (* v' g s = p us *)
    assert (forall j, sumn n (fun a => m a n * gs a j) = p * us j) as T.
    { intro c. unfold gs, us. rewrite <- sumn_scal. rewrite (sumn_ext n _ (fun a => sumn n (fun k => m a n * (g a k * s k c)))) by (intros; rewrite sumn_scal; reflexivity). rewrite sumn_swap. apply sumn_ext. intros k Hk.
      rewrite (sumn_ext n _ (fun a => g k a * m a n * s k c)) by (intros a Ha; rewrite (Gs a k) by assumption; ring). rewrite sumn_scal_r, <- Up. ring. }
    cbn [sumn]. unfold pr. rewrite Nat.ltb_irrefl.
    assert (j = n \/ j < n)%nat as [->|Lj] by lia.
    + rewrite Nat.ltb_irrefl. rewrite sumn_zero; [lra|]. intros a Ha. destruct (Nat.ltb_spec a n); [ring|lia].
    + destruct (Nat.ltb_spec j n); [|lia]. rewrite (sumn_ext n _ (fun a => m i a * gs a j)) by (intros a Ha; destruct (Nat.ltb_spec a n); [reflexivity|lia]).
      assert (i = n \/ i < n)%nat as [->|Li] by lia.
      * rewrite (sumn_ext n _ (fun a => m a n * gs a j)) by (intros a Ha; rewrite (Sy n a) by lia; reflexivity). rewrite T. fold p. rewrite (Sy n j) by lia. field. exact Z.
      * rewrite (sumn_ext n _ (fun a => s i a * gs a j + m i n / p * (m a n * gs a j))).
        2:{ intros a Ha. rewrite (Er i a), (Sy n a) by lia. field. exact Z. }
        rewrite sumn_plus, sumn_scal, T.
        assert (sumn n (fun a => s i a * gs a j) = s i j) as ->.
        { rewrite <- (K i j Li Lj). apply sumn_ext. intros a Ha. unfold gs. rewrite <- sumn_scal. apply sumn_ext. intros. ring. }
        rewrite Er, (Sy n j) by lia. field. exact Z.
Qed.
Theorem inverts_exists : inverts (fun _ => ginv).
Proof.
  constructor.
  - intros _ n m m' H i j Hi Hj. apply ginv_ext; assumption.
  - intros _ n m Sy _ _. apply ginv_sym. exact Sy.
  - intros _ n m Sy P _ i j Hi Hj. apply ginv_inverse; assumption.
Qed.
