(* Proofs for C72: positive definiteness. *)
From Coq Require Import Reals List Arith Bool Lia Lra Permutation ZArith.
From Verif Require Import GraphModel ForestModel ForestSpec VisModel VisSpec VisProofs VisProofs3 VisProofs4 VbpModel VbpSpec VbpProofs.
Import ListNotations.
Open Scope nat_scope.

Lemma total_plus {A} (f h : A -> R) : forall l, total l (fun x => (f x + h x)%R) = (total l f + total l h)%R.
Proof. induction l as [|x l IH]; cbn [total]; [lra|rewrite IH; lra]. Qed.
Lemma total_scal {A} (k : R) (f : A -> R) : forall l, total l (fun x => (k * f x)%R) = (k * total l f)%R.
Proof. induction l as [|x l IH]; cbn [total]; [lra|rewrite IH; lra]. Qed.
Lemma total_zero {A} : forall (l : list A), total l (fun _ => 0%R) = 0%R.
Proof. induction l as [|x l IH]; cbn [total]; lra. Qed.
Lemma total_swap {A B} (f : A -> B -> R) : forall l l', total l (fun x => total l' (f x)) = total l' (fun y => total l (fun x => f x y)).
Proof. induction l as [|x l IH]; intro l'; cbn [total]; [rewrite total_zero; reflexivity|]. rewrite IH, <- total_plus. reflexivity. Qed.
Lemma total_nonneg {A} (f : A -> R) : forall l, (forall x, In x l -> 0 <= f x)%R -> (0 <= total l f)%R.
Proof. induction l as [|x l IH]; intro H; cbn [total]; [lra|]. pose proof (H x (or_introl eq_refl)). pose proof (IH (fun y Hy => H y (or_intror Hy))). lra. Qed.
Lemma total_pos {A} (f : A -> R) : forall l, (forall x, In x l -> 0 <= f x)%R -> (exists x, In x l /\ (0 < f x)%R) -> (0 < total l f)%R.
Proof.
  induction l as [|x l IH]; intros H [y [Hy P]]; [destruct Hy|]. cbn [total]. pose proof (H x (or_introl eq_refl)). pose proof (total_nonneg f l (fun z Hz => H z (or_intror Hz))). destruct Hy as [->|Hy]; [lra|]. pose proof (IH (fun z Hz => H z (or_intror Hz)) (ex_intro _ y (conj Hy P))). lra.
Qed.
Definition ind (b : bool) : R := if b then 1%R else 0%R.
Lemma total_pick (f : nat -> R) k n : k < n -> total (seq 0 n) (fun x => (ind (x =? k) * f x)%R) = f k.
Proof.
  intro L. rewrite (total_support (fun x => (ind (x =? k) * f x)%R) (seq 0 n) [k] (seq_NoDup _ _)).
  - cbn [total]. rewrite Nat.eqb_refl. unfold ind. lra.
  - constructor; [intros []|constructor].
  - intros x [<-|[]]. apply in_seq. lia.
  - intros x _ N. destruct (Nat.eqb_spec x k) as [->|]; [exfalso; apply N; left; reflexivity|unfold ind; lra].
Qed.

Section PD.
  Variables (n : nat) (sz : nat -> nat) (S : block_matrix).
  Hypothesis POS : positive_definite n sz S.
  Variables (K : nat) (cl : nat -> nat).
  Hypothesis CL : forall i, i < n -> cl i < K.
  Variable x : nat -> nat -> R.
  Hypothesis NZ : exists i r, i < n /\ r < sz i /\ x i r <> 0%R.
  (* the contribution of a pair of blocks *)
  Definition b (i j : nat) : R := total (seq 0 (sz i)) (fun r => total (seq 0 (sz j)) (fun c => x i r * S i j r c * x j c)%R).
  Definition part (p : nat -> bool) : R := total (seq 0 n) (fun i => total (seq 0 n) (fun j => (ind (p (cl i)) * ind (p (cl j)) * b i j)%R)).
  Lemma part_form p : part p = form n sz S (fun i r => (ind (p (cl i)) * x i r)%R).
  Proof.
    unfold part, form. apply total_ext. intros i _. apply total_ext. intros j _. unfold b. rewrite <- total_scal. apply total_ext. intros r _. rewrite <- total_scal. apply total_ext. intros c _. ring.
  Qed.
  Lemma form_zero y : (forall i r, i < n -> r < sz i -> y i r = 0%R) -> form n sz S y = 0%R.
  Proof.
    intro H. unfold form. rewrite <- (total_zero (seq 0 n)). apply total_ext. intros i Hi. rewrite <- (total_zero (seq 0 n)). apply total_ext. intros j Hj. rewrite <- (total_zero (seq 0 (sz i))). apply total_ext. intros r Hr. rewrite <- (total_zero (seq 0 (sz j))). apply total_ext. intros c Hc. apply in_seq in Hi, Hr. rewrite (H i r) by lia. ring.
  Qed.
  Lemma some_or_none (y : nat -> nat -> R) : (exists i r, i < n /\ r < sz i /\ y i r <> 0%R) \/ forall i r, i < n -> r < sz i -> y i r = 0%R.
  Proof.
    assert (forall f : nat -> R, forall m, (exists r, r < m /\ f r <> 0%R) \/ forall r, r < m -> f r = 0%R) as ROW.
    { intros f. induction m as [|m [[r [L N]]|IH]]; [right; intros r L; lia|left; exists r; split; [lia|exact N]|]. destruct (Req_EM_T (f m) 0) as [E|E]; [right; intros r L; destruct (Nat.eq_dec r m) as [->|]; [exact E|apply IH; lia]|left; exists m; split; [lia|exact E]]. }
    assert (forall m, (exists i r, i < m /\ r < sz i /\ y i r <> 0%R) \/ forall i r, i < m -> r < sz i -> y i r = 0%R) as H; [|apply H].
    induction m as [|m [[i [r [L N]]]|IH]]; [right; intros i r L; lia|left; exists i, r; split; [lia|exact N]|].
    destruct (ROW (y m) (sz m)) as [[r N]|A]; [left; exists m, r; split; [lia|exact N]|]. right. intros i r L Lr. destruct (Nat.eq_dec i m) as [->|]; [apply A; exact Lr|apply IH; [lia|exact Lr]].
  Qed.
  Lemma part_nonneg p : (0 <= part p)%R.
  Proof. rewrite part_form. destruct (some_or_none (fun i r => (ind (p (cl i)) * x i r)%R)) as [H|H]; [left; apply POS; exact H|right; symmetry; apply form_zero; exact H]. Qed.
  Lemma part_pos p : (exists i r, i < n /\ r < sz i /\ x i r <> 0%R /\ p (cl i) = true) -> (0 < part p)%R.
  Proof. intros [i [r [A [B [C D]]]]]. rewrite part_form. apply POS. exists i, r. split; [exact A|]. split; [exact B|]. rewrite D. unfold ind. lra. Qed.

  (* the blocks of one cluster *)
  Lemma jacobi_parts : total (seq 0 n) (fun i => total (seq 0 n) (fun j => (ind (cl i =? cl j) * b i j)%R)) = total (seq 0 K) (fun k => part (fun c => c =? k)).
  Proof.
    unfold part. rewrite (total_swap (fun k i => total (seq 0 n) (fun j => (ind (cl i =? k) * ind (cl j =? k) * b i j)%R))). apply total_ext. intros i Hi. rewrite (total_swap (fun k j => (ind (cl i =? k) * ind (cl j =? k) * b i j)%R)). apply total_ext. intros j Hj. apply in_seq in Hi, Hj.
    transitivity (total (seq 0 K) (fun k => (ind (k =? cl i) * (ind (cl j =? k) * b i j))%R)); [rewrite (total_pick (fun k => (ind (cl j =? k) * b i j)%R)) by (apply CL; lia); rewrite (Nat.eqb_sym (cl j)); reflexivity|]. apply total_ext. intros k _. rewrite (Nat.eqb_sym k). ring.
  Qed.
  Lemma jacobi_pos : (0 < total (seq 0 n) (fun i => total (seq 0 n) (fun j => (ind (cl i =? cl j) * b i j)%R)))%R.
  Proof.
    rewrite jacobi_parts. apply total_pos; [intros k _; apply part_nonneg|]. destruct NZ as [i [r [A [B C]]]]. exists (cl i). split; [apply in_seq; pose proof (CL i A); lia|]. apply part_pos. exists i, r. split; [exact A|]. split; [exact B|]. split; [exact C|apply Nat.eqb_refl].
  Qed.

  (* clusters joined by edges *)
  Variable J : nat -> nat -> bool.
  Hypothesis JS : forall a c, J a c = J c a.
  Hypothesis JI : forall a, J a a = false.
  Hypothesis J2 : at_most_two (fun a c => J a c = true).
  Definition deg (k : nat) : R := total (seq 0 K) (fun l => ind (J k l)).
  Lemma total_count (p : nat -> bool) : forall l, total l (fun y => ind (p y)) = INR (length (filter p l)).
  Proof. induction l as [|y l IH]; [reflexivity|]. cbn [total filter]. rewrite IH. unfold ind. destruct (p y); cbn [length]; [rewrite S_INR; lra|lra]. Qed.
  Lemma deg_le k : (deg k <= 2)%R.
  Proof.
    unfold deg. rewrite total_count. replace 2%R with (INR 2) by (cbn; lra). apply le_INR.
    assert (NoDup (filter (J k) (seq 0 K))) as ND by (apply NoDup_filter, seq_NoDup). assert (forall y, In y (filter (J k) (seq 0 K)) -> J k y = true) as HJ by (intros y Hy; apply filter_In in Hy; tauto).
    destruct (filter (J k) (seq 0 K)) as [|y1 [|y2 [|y3 l]]]; cbn [length]; try lia. exfalso. inversion_clear ND as [|? ? N1 N2]. inversion_clear N2 as [|? ? N3 N4]. destruct (J2 k y1 y2 y3) as [E|[E|E]]; try (apply HJ; cbn [In]; tauto); subst; [apply N1|apply N1|apply N3]; cbn [In]; tauto.
  Qed.
  Definition two (k l : nat) (c : nat) : bool := (c =? k) || (c =? l).
  Lemma ind_two k l c : k <> l -> ind (two k l c) = (ind (c =? k) + ind (c =? l))%R.
  Proof. intro N. unfold two, ind. destruct (Nat.eqb_spec c k) as [E|E]; destruct (Nat.eqb_spec c l) as [F|F]; cbn [orb]; try lra. congruence. Qed.
  Lemma pick_sym (f : nat -> R) k m : k < m -> total (seq 0 m) (fun y => (ind (k =? y) * f y)%R) = f k.
  Proof. intro L. rewrite <- (total_pick f k m L). apply total_ext. intros y _. rewrite Nat.eqb_sym. reflexivity. Qed.
  (* the weight of the cell of two clusters, as a sum over clusters and edges *)
  Lemma weight_split k0 l0 : k0 < K -> l0 < K ->
    (ind (k0 =? l0) + / 2 * ind (J k0 l0))%R =
    (total (seq 0 K) (fun k => (1 - deg k / 2) * (ind (k0 =? k) * ind (l0 =? k))) +
     / 4 * total (seq 0 K) (fun k => total (seq 0 K) (fun l => ind (J k l) * (ind (two k l k0) * ind (two k l l0)))))%R.
  Proof.
    intros Lk Ll.
    assert (total (seq 0 K) (fun k => (1 - deg k / 2) * (ind (k0 =? k) * ind (l0 =? k))) = (1 - deg k0 / 2) * ind (l0 =? k0))%R as E1.
    { rewrite <- (pick_sym (fun k => ((1 - deg k / 2) * ind (l0 =? k))%R) k0 K Lk). apply total_ext. intros k _. ring. }
    assert (total (seq 0 K) (fun k => total (seq 0 K) (fun l => ind (J k l) * (ind (two k l k0) * ind (two k l l0)))) = 2 * ind (l0 =? k0) * deg k0 + 2 * ind (J k0 l0))%R as E2.
    { transitivity (total (seq 0 K) (fun k => total (seq 0 K) (fun l => ind (k0 =? k) * (ind (l0 =? k) * ind (J k l)) + ind (k0 =? l) * (ind (l0 =? l) * ind (J k l)) + (ind (k0 =? k) * (ind (l0 =? l) * ind (J k l)) + ind (k0 =? l) * (ind (l0 =? k) * ind (J k l))))))%R.
      { apply total_ext. intros k _. apply total_ext. intros l _. destruct (Nat.eq_dec k l) as [->|N]; [rewrite JI; change (ind false) with 0%R; ring|]. rewrite !ind_two by exact N. ring. }
      assert (forall a c, a < K -> total (seq 0 K) (fun k => total (seq 0 K) (fun l => ind (a =? k) * (ind (c =? k) * ind (J k l))))%R = (ind (c =? a) * deg a)%R) as T1.
      { intros a c La. transitivity (total (seq 0 K) (fun k => ind (a =? k) * (ind (c =? k) * deg k))%R); [|exact (pick_sym (fun k => (ind (c =? k) * deg k)%R) a K La)]. apply total_ext. intros k _. unfold deg. rewrite <- !total_scal. reflexivity. }
      assert (forall a c, a < K -> c < K -> total (seq 0 K) (fun k => total (seq 0 K) (fun l => ind (a =? k) * (ind (c =? l) * ind (J k l))))%R = ind (J a c)) as T2.
      { intros a c La Lc. transitivity (total (seq 0 K) (fun k => ind (a =? k) * ind (J k c))%R); [|exact (pick_sym (fun k => ind (J k c)) a K La)]. apply total_ext. intros k _. rewrite total_scal. f_equal. exact (pick_sym (fun l => ind (J k l)) c K Lc). }
      rewrite (total_ext _ (fun k => (total (seq 0 K) (fun l => ind (k0 =? k) * (ind (l0 =? k) * ind (J k l))) + total (seq 0 K) (fun l => ind (k0 =? l) * (ind (l0 =? l) * ind (J k l))) + (total (seq 0 K) (fun l => ind (k0 =? k) * (ind (l0 =? l) * ind (J k l))) + total (seq 0 K) (fun l => ind (k0 =? l) * (ind (l0 =? k) * ind (J k l)))))%R)) by (intros k _; rewrite !total_plus; reflexivity).
      rewrite !total_plus, T1, T2 by assumption.
      assert (total (seq 0 K) (fun k => total (seq 0 K) (fun l => ind (k0 =? l) * (ind (l0 =? l) * ind (J k l))))%R = (ind (l0 =? k0) * deg k0)%R) as T3.
      { rewrite total_swap. rewrite <- (T1 k0 l0 Lk). apply total_ext. intros l _. apply total_ext. intros k _. rewrite JS. reflexivity. }
      assert (total (seq 0 K) (fun k => total (seq 0 K) (fun l => ind (k0 =? l) * (ind (l0 =? k) * ind (J k l))))%R = ind (J k0 l0)) as T4.
      { rewrite total_swap. rewrite <- (T2 k0 l0 Lk Ll). apply total_ext. intros l _. apply total_ext. intros k _. rewrite JS. reflexivity. }
      rewrite T3, T4. ring. }
    rewrite E1, E2, (Nat.eqb_sym l0 k0). field.
  Qed.
  Lemma tridiagonal_parts : total (seq 0 n) (fun i => total (seq 0 n) (fun j => ((ind (cl i =? cl j) + / 2 * ind (J (cl i) (cl j))) * b i j)%R)) =
    (total (seq 0 K) (fun k => (1 - deg k / 2) * part (fun c => c =? k)) + / 4 * total (seq 0 K) (fun k => total (seq 0 K) (fun l => ind (J k l) * part (two k l))))%R.
  Proof.
    transitivity (total (seq 0 n) (fun i => total (seq 0 n) (fun j => total (seq 0 K) (fun k => (1 - deg k / 2) * (ind (cl i =? k) * ind (cl j =? k) * b i j)) + / 4 * total (seq 0 K) (fun k => total (seq 0 K) (fun l => ind (J k l) * (ind (two k l (cl i)) * ind (two k l (cl j)) * b i j))))))%R.
    { apply total_ext. intros i Hi. apply total_ext. intros j Hj. apply in_seq in Hi, Hj. rewrite (weight_split (cl i) (cl j)) by (apply CL; lia). rewrite Rmult_plus_distr_r. f_equal.
      - rewrite Rmult_comm, <- total_scal. apply total_ext. intros k _. ring.
      - rewrite Rmult_assoc. f_equal. rewrite Rmult_comm, <- total_scal. apply total_ext. intros k _. rewrite <- total_scal. apply total_ext. intros l _. ring. }
    rewrite (total_ext _ (fun i => (total (seq 0 n) (fun j => total (seq 0 K) (fun k => (1 - deg k / 2) * (ind (cl i =? k) * ind (cl j =? k) * b i j))) + total (seq 0 n) (fun j => / 4 * total (seq 0 K) (fun k => total (seq 0 K) (fun l => ind (J k l) * (ind (two k l (cl i)) * ind (two k l (cl j)) * b i j)))))%R)) by (intros i _; apply total_plus).
    rewrite total_plus. f_equal.
    - unfold part. rewrite (total_ext (fun k => ((1 - deg k / 2) * _)%R) (fun k => total (seq 0 n) (fun i => total (seq 0 n) (fun j => (1 - deg k / 2) * (ind (cl i =? k) * ind (cl j =? k) * b i j)))%R)) by (intros k _; rewrite <- total_scal; apply total_ext; intros i _; rewrite <- total_scal; reflexivity).
      rewrite (total_swap (fun k i => total (seq 0 n) (fun j => ((1 - deg k / 2) * (ind (cl i =? k) * ind (cl j =? k) * b i j))%R))). apply total_ext. intros i _. rewrite total_swap. reflexivity.
    - rewrite <- total_scal.
      rewrite (total_ext (fun k => (/ 4 * total (seq 0 K) (fun l => ind (J k l) * part (two k l)))%R) (fun k => total (seq 0 n) (fun i => total (seq 0 n) (fun j => / 4 * total (seq 0 K) (fun l => ind (J k l) * (ind (two k l (cl i)) * ind (two k l (cl j)) * b i j))))%R)).
      + rewrite (total_swap (fun k i => total (seq 0 n) (fun j => (/ 4 * total (seq 0 K) (fun l => ind (J k l) * (ind (two k l (cl i)) * ind (two k l (cl j)) * b i j)))%R))). apply total_ext. intros i _. rewrite (total_swap (fun k j => (/ 4 * total (seq 0 K) (fun l => ind (J k l) * (ind (two k l (cl i)) * ind (two k l (cl j)) * b i j)))%R)). apply total_ext. intros j _. rewrite total_scal. reflexivity.
      + intros k _. rewrite (total_ext (fun l => (ind (J k l) * part (two k l))%R) (fun l => total (seq 0 n) (fun i => total (seq 0 n) (fun j => ind (J k l) * (ind (two k l (cl i)) * ind (two k l (cl j)) * b i j)))%R)) by (intros l _; unfold part; rewrite <- total_scal; apply total_ext; intros i _; rewrite <- total_scal; reflexivity).
        rewrite (total_swap (fun l i => total (seq 0 n) (fun j => (ind (J k l) * (ind (two k l (cl i)) * ind (two k l (cl j)) * b i j))%R))). rewrite <- total_scal. apply total_ext. intros i _. rewrite (total_swap (fun l j => (ind (J k l) * (ind (two k l (cl i)) * ind (two k l (cl j)) * b i j))%R)). rewrite <- total_scal. reflexivity.
  Qed.
  Lemma tridiagonal_pos : (0 < total (seq 0 n) (fun i => total (seq 0 n) (fun j => (ind (cl i =? cl j) + / 2 * ind (J (cl i) (cl j))) * b i j)))%R.
  Proof.
    rewrite tridiagonal_parts.
    assert (forall k, In k (seq 0 K) -> 0 <= (1 - deg k / 2) * part (fun c => c =? k))%R as P1 by (intros k _; apply Rmult_le_pos; [pose proof (deg_le k); lra|apply part_nonneg]).
    assert (forall k l, 0 <= ind (J k l) * part (two k l))%R as P2 by (intros k l; apply Rmult_le_pos; [unfold ind; destruct (J k l); lra|apply part_nonneg]).
    assert (forall k, In k (seq 0 K) -> 0 <= total (seq 0 K) (fun l => ind (J k l) * part (two k l)))%R as P3 by (intros k _; apply total_nonneg; intros l _; apply P2).
    pose proof (total_nonneg _ _ P1) as Q1. pose proof (total_nonneg _ _ P3) as Q2.
    destruct NZ as [i [r [A [B C]]]]. assert (In (cl i) (seq 0 K)) as IK by (apply in_seq; pose proof (CL i A); lia).
    destruct (Rlt_le_dec (deg (cl i)) 2) as [L|L].
    - assert (0 < total (seq 0 K) (fun k => (1 - deg k / 2) * part (fun c => c =? k)))%R; [|lra]. apply total_pos; [exact P1|]. exists (cl i). split; [exact IK|]. apply Rmult_lt_0_compat; [lra|]. apply part_pos. exists i, r. split; [exact A|]. split; [exact B|]. split; [exact C|apply Nat.eqb_refl].
    - assert (0 < total (seq 0 K) (fun k => total (seq 0 K) (fun l => ind (J k l) * part (two k l))))%R; [|lra]. apply total_pos; [exact P3|]. exists (cl i). split; [exact IK|]. apply total_pos; [intros l _; apply P2|].
      destruct (filter (J (cl i)) (seq 0 K)) as [|l ls] eqn:EF.
      + unfold deg in L. rewrite total_count, EF in L. cbn in L. lra.
      + assert (In l (filter (J (cl i)) (seq 0 K))) as HL by (rewrite EF; left; reflexivity). apply filter_In in HL. destruct HL as [HL JL]. exists l. split; [exact HL|]. rewrite JL. unfold ind. rewrite Rmult_1_l. apply part_pos. exists i, r. split; [exact A|]. split; [exact B|]. split; [exact C|]. unfold two. rewrite Nat.eqb_refl. reflexivity.
  Qed.
End PD.
