(** Gradient checking: comparing numbers, Probe, the wrapper, the solve. *)
Require Import ZArith List Bool Reals Lra Lia.
From Verif Require Import Dbl ProblemModel ProblemSpec GckModel GckSpec.
Import ListNotations.

(** ** Numbers *)
Lemma max_pos : forall x y, (x <> 0 -> 0 < Rmax (Rabs x) (Rabs y))%R.
Proof. intros x y H. apply Rlt_le_trans with (Rabs x). apply Rabs_pos_lt; auto. apply Rmax_l. Qed.

Lemma close_iff : forall x y p, snd (IsClose x y p) = true <-> agree p x y.
Proof.
  intros x y p. unfold IsClose, agree. cbn [snd].
  destruct (Req_EM_T x 0) as [E|E].
  - destruct (Rlt_dec (Rabs (x - y)) (Rabs p)); split; intros H; try discriminate; auto.
    destruct H as [[_ H]|[H _]]; contradiction.
  - destruct (Req_EM_T y 0) as [E2|E2].
    + destruct (Rlt_dec (Rabs (x - y)) (Rabs p)); split; intros H; try discriminate; auto.
      destruct H as [[_ H]|[_ [H _]]]; contradiction.
    + pose proof (max_pos x y E) as M.
      assert (Q : (Rabs (x - y) / Rmax (Rabs x) (Rabs y) < Rabs p <-> Rabs (x - y) < Rabs p * Rmax (Rabs x) (Rabs y))%R).
      { split; intros H.
        - apply Rmult_lt_compat_r with (r := Rmax (Rabs x) (Rabs y)) in H; auto.
          unfold Rdiv in H. rewrite Rmult_assoc, Rinv_l in H; lra.
        - apply Rmult_lt_reg_r with (Rmax (Rabs x) (Rabs y)); auto.
          unfold Rdiv. rewrite Rmult_assoc, Rinv_l; lra. }
      destruct (Rlt_dec (Rabs (x - y) / Rmax (Rabs x) (Rabs y)) (Rabs p)) as [L|L]; split; intros H; try discriminate; auto.
      * right. split; [|split]; auto. apply Q; auto.
      * exfalso. apply L. apply Q. destruct H as [[[H|H] _]|[_ [_ H]]]; auto; contradiction.
Qed.

Definition relerr (x y : R) : R := snd (fst (IsClose x y 0)).
Lemma relerr_any : forall x y p, snd (fst (IsClose x y p)) = relerr x y.
Proof. reflexivity. Qed.

Lemma relerr_is : forall x y, error_is x y (relerr x y).
Proof.
  intros x y. unfold relerr, IsClose, error_is. cbn [fst snd].
  destruct (Req_EM_T x 0) as [E|E]; [left; auto|]. destruct (Req_EM_T y 0) as [E2|E2]; [left; auto|].
  right. split; [|split]; auto. pose proof (max_pos x y E). field. lra.
Qed.

Lemma error_unique : forall x y e e', error_is x y e -> error_is x y e' -> e = e'.
Proof.
  intros x y e e' [[H1 ->]|[H1 [H2 H3]]] [[G1 ->]|[G1 [G2 G3]]]; auto; try tauto.
  pose proof (max_pos x y H1). apply Rmult_eq_reg_r with (Rmax (Rabs x) (Rabs y)); lra.
Qed.

Lemma relerr_nonneg : forall x y, (0 <= relerr x y)%R.
Proof.
  intros x y. destruct (relerr_is x y) as [[_ ->]|[H [_ E]]]; [apply Rabs_pos|].
  pose proof (max_pos x y H). pose proof (Rabs_pos (x - y)).
  apply Rmult_le_reg_r with (Rmax (Rabs x) (Rabs y)); lra.
Qed.

(** ** Probe *)
Lemma inner_total : forall n f, inner n f = total n f.
Proof.
  intros n f. unfold total. induction n as [|n IH]; [reflexivity|].
  cbn [inner]. rewrite IH, seq_S, map_app, fold_right_app. cbn [map fold_right]. clear IH.
  change (0 + n)%nat with n. generalize (map f (seq 0 n)) as l. generalize (f n) as c.
  intros c. induction l as [|a l IHl]; cbn [fold_right]; lra.
Qed.

Lemma residuals_close_iff : forall n i r r' p,
  residuals_close n i r r' p = true <-> forall j, (i <= j < i + n)%nat -> agree p (r j) (r' j).
Proof.
  induction n as [|n IH]; intros i r r' p; cbn [residuals_close].
  - split; auto. intros _ j H. lia.
  - destruct (snd (IsClose (r i) (r' i) p)) eqn:E.
    + rewrite IH. split; intros H j J.
      * destruct (Nat.eq_dec j i) as [->|]; [apply close_iff; auto|]. apply H. lia.
      * apply H. lia.
    + split; [discriminate|]. intros H. assert (A : agree p (r i) (r' i)) by (apply H; lia).
      apply close_iff in A. congruence.
Qed.

(** A run of comparisons over a list of pairs: what the three loops do. *)
Fixpoint pairs_bad (p : R) (l : list (R * R)) : nat :=
  match l with [] => 0%nat | (x, y) :: l' => ((if snd (IsClose x y p) then 0 else 1) + pairs_bad p l')%nat end.
Fixpoint pairs_worst (l : list (R * R)) : R :=
  match l with [] => 0%R | (x, y) :: l' => Rmax (relerr x y) (pairs_worst l') end.
Lemma worst_nonneg : forall l, (0 <= pairs_worst l)%R.
Proof. induction l as [|[x y] l IH]; cbn [pairs_worst]; [lra|]. apply Rle_trans with (pairs_worst l); auto. apply Rmax_r. Qed.
Lemma bad_app : forall p l l', pairs_bad p (l ++ l') = (pairs_bad p l + pairs_bad p l')%nat.
Proof. induction l as [|[x y] l IH]; intros; cbn [pairs_bad app]; auto. rewrite IH. lia. Qed.
Lemma worst_app : forall l l', pairs_worst (l ++ l') = Rmax (pairs_worst l) (pairs_worst l').
Proof.
  induction l as [|[x y] l IH]; intros; cbn [pairs_worst app].
  - rewrite Rmax_right; auto. apply worst_nonneg.
  - rewrite IH. rewrite Rmax_assoc. auto.
Qed.

Definition step_of (p : R) (acc : nat * R) (l : list (R * R)) : nat * R :=
  ((fst acc + pairs_bad p l)%nat, Rmax (snd acc) (pairs_worst l)).

Lemma fold_step : forall A (p : R) (f : nat * R -> A -> nat * R) (g : A -> list (R * R)) (l : list A) acc,
  (0 <= snd acc)%R ->
  (forall acc a, (0 <= snd acc)%R -> f acc a = step_of p acc (g a)) -> fold_left f l acc = step_of p acc (flat_map g l).
Proof.
  intros A p f g l. induction l as [|a l IH]; intros acc P H; cbn [fold_left flat_map].
  - unfold step_of. cbn [pairs_bad pairs_worst]. destruct acc as [n w]. cbn [fst snd] in *. rewrite Nat.add_0_r, Rmax_left; auto.
  - rewrite H by auto. rewrite IH; auto.
    + unfold step_of. cbn [fst snd]. rewrite bad_app, worst_app, Rmax_assoc, Nat.add_assoc. auto.
    + unfold step_of. cbn [snd]. apply Rle_trans with (snd acc); auto. apply Rmax_l.
Qed.

Definition row_pairs (cols : nat) (A B : nat -> nat -> R) (i : nat) : list (R * R) :=
  flat_map (fun j => [(A i j, B i j)]) (seq 0 cols).
Definition block_pairs (rows cols : nat) (A B : nat -> nat -> R) : list (R * R) :=
  flat_map (row_pairs cols A B) (seq 0 rows).
Definition all_pairs {X} (K : checker X) (L L' : list (nat -> nat -> R)) : list (R * R) :=
  flat_map (fun k => block_pairs (c_residuals (k_cost K)) (columns K k) (nth k L (fun _ _ => 0%R)) (nth k L' (fun _ _ => 0%R)))
           (seq 0 (length (c_sizes (k_cost K)))).

Lemma compare_pairs : forall X p (K : checker X) L L',
  compare_all p K L L' = (pairs_bad p (all_pairs K L L'), pairs_worst (all_pairs K L L')).
Proof.
  intros X p K L L'. unfold compare_all.
  rewrite (fold_step nat p (compare_block p K L L')
     (fun k => block_pairs (c_residuals (k_cost K)) (columns K k) (nth k L (fun _ _ => 0%R)) (nth k L' (fun _ _ => 0%R)))).
  - unfold step_of. cbn [fst snd]. rewrite Rmax_right by apply worst_nonneg. reflexivity.
  - cbn [snd]. lra.
  - intros acc k P. unfold compare_block, block_pairs. apply fold_step; auto.
    intros acc' i P'. unfold compare_row, row_pairs. apply fold_step; auto.
    intros acc2 j P2. unfold compare_entry, step_of. cbn [pairs_bad pairs_worst].
    destruct (IsClose (nth k L (fun _ _ => 0%R) i j) (nth k L' (fun _ _ => 0%R) i j) p) as [[a r] ok] eqn:E.
    assert (E1 : ok = snd (IsClose (nth k L (fun _ _ => 0%R) i j) (nth k L' (fun _ _ => 0%R) i j) p)) by (rewrite E; auto).
    assert (E2 : r = relerr (nth k L (fun _ _ => 0%R) i j) (nth k L' (fun _ _ => 0%R) i j)).
    { rewrite <- (relerr_any _ _ p), E. auto. }
    cbn [snd]. rewrite <- E2. f_equal.
    + destruct ok; lia.
    + rewrite (Rmax_left r 0); auto. rewrite E2. apply relerr_nonneg.
Qed.

Lemma in_all_pairs : forall X (K : checker X) L L' x y,
  In (x, y) (all_pairs K L L') <->
  exists k i j, entry K k i j /\ x = nth k L (fun _ _ => 0%R) i j /\ y = nth k L' (fun _ _ => 0%R) i j.
Proof.
  intros X K L L' x y. unfold all_pairs, block_pairs, row_pairs, entry, columns. split.
  - intros H. apply in_flat_map in H. destruct H as [k [Hk H]]. apply in_flat_map in H. destruct H as [i [Hi H]].
    apply in_flat_map in H. destruct H as [j [Hj H]]. apply in_seq in Hk, Hi, Hj. destruct H as [H|[]]. inversion H; subst.
    exists k, i, j. split; auto. split; [lia|]. split; lia.
  - intros [k [i [j [[Hk [Hi Hj]] [-> ->]]]]]. apply in_flat_map. exists k. split; [apply in_seq; lia|].
    apply in_flat_map. exists i. split; [apply in_seq; lia|]. apply in_flat_map. exists j. split; [apply in_seq; lia|]. left. auto.
Qed.

Lemma bad_zero : forall p l, pairs_bad p l = 0%nat <-> forall x y, In (x, y) l -> agree p x y.
Proof.
  intros p. induction l as [|[x y] l IH]; cbn [pairs_bad].
  - split; auto. intros _ x y [].
  - destruct (snd (IsClose x y p)) eqn:E.
    + cbn [Nat.add]. rewrite IH. split; intros H u v.
      * intros [G|G]; [inversion G; subst; apply close_iff; auto|auto].
      * intros G. apply H. right. auto.
    + split; [lia|]. intros H. assert (A : agree p x y) by (apply H; left; auto). apply close_iff in A. congruence.
Qed.

Lemma worst_max : forall l, (forall x y, In (x, y) l -> (relerr x y <= pairs_worst l)%R) /\
  (l = [] /\ pairs_worst l = 0%R \/ exists x y, In (x, y) l /\ pairs_worst l = relerr x y).
Proof.
  induction l as [|[x y] l [IH1 IH2]]; cbn [pairs_worst].
  - split; [intros x y []|left; auto].
  - split.
    + intros u v [G|G]; [inversion G; subst; apply Rmax_l|]. eapply Rle_trans; [apply IH1; eauto|apply Rmax_r].
    + right. destruct (Rle_dec (pairs_worst l) (relerr x y)) as [G|G].
      * exists x, y. split; [left; auto|]. apply Rmax_left. auto.
      * destruct IH2 as [[-> E]|[u [v [I E]]]].
        -- exfalso. apply G. cbn [pairs_worst]. apply relerr_nonneg.
        -- exists u, v. split; [right; auto|]. rewrite Rmax_right; auto. lra.
Qed.

Section P.
Context {X : Type}.
Variable K : checker X.
Variable x : X.
Hypothesis U : usable_checker K x.

Lemma local_ok : forall J ks, (forall k, In k ks -> (k < length (c_sizes (k_cost K)))%nat) ->
  exists Ls, AllLocal K x J ks = Ok Ls /\ length Ls = length ks /\
    forall n k, nth_error ks n = Some k -> forall i j, tangent_is K x J k i j (nth n Ls (fun _ _ => 0%R) i j).
Proof.
  intros J. induction ks as [|k ks IH]; intros Hk; cbn [AllLocal].
  - exists []. split; auto. split; auto. intros [|n] k H; discriminate.
  - destruct IH as [Ls [E [EL EN]]]; [intros; apply Hk; right; auto|].
    assert (T : exists L, ToLocal K x J k = Ok L /\ forall i j, tangent_is K x J k i j (L i j)).
    { unfold ToLocal, tangent_is. destruct (nth k (k_manifolds K) None) as [m|] eqn:M; [|eexists; split; eauto].
      destruct (proj2 U k m (Hk k (or_introl eq_refl)) M) as [A B]. rewrite A, Nat.eqb_refl. cbn [check bind].
      destruct (m_plus m x) as [P|]; [|congruence]. eexists. split; eauto. intros i j. exists P. split; auto. rewrite <- A. apply inner_total. }
    destruct T as [L [T1 T2]]. rewrite T1. cbn [bind]. rewrite E. cbn [bind]. exists (L :: Ls). split; auto. split; [simpl; auto|].
    intros [|n] k' H; cbn [nth_error nth] in *; [inversion H; subst; auto|]. apply EN; auto.
Qed.

Lemma tangent_unique : forall J k i j d d', tangent_is K x J k i j d -> tangent_is K x J k i j d' -> d = d'.
Proof.
  intros J k i j d d'. unfold tangent_is. destruct (nth k (k_manifolds K) None); [|congruence].
  intros [P [E ->]] [P' [E' ->]]. rewrite E in E'. inversion E'. reflexivity.
Qed.

(** A description of what Probe does, by cases. *)
Lemma probe_cases : forall p,
  match c_evaluate (k_cost K) x true, numeric K x with
  | Some (r, J), Some (r', J') =>
      exists L L', let l := all_pairs K L L' in
        (forall k i j, (k < length (c_sizes (k_cost K)))%nat -> tangent_is K x J k i j (nth k L (fun _ _ => 0%R) i j)) /\
        (forall k i j, (k < length (c_sizes (k_cost K)))%nat -> tangent_is K x J' k i j (nth k L' (fun _ _ => 0%R) i j)) /\
        Probe K x p = Ok (if residuals_close (c_residuals (k_cost K)) 0 r r' p
                          then if Nat.eqb (pairs_bad p l) 0 then (true, mkRes true (Some (r, J)) L L' (pairs_worst l) [])
                               else (false, mkRes true (Some (r, J)) L L' (pairs_worst l) [BadComponents (pairs_bad p l)])
                          else (false, mkRes true (Some (r, J)) L L' 0 [ResidualsDiffer]))
  | u, n => exists R, Probe K x p = Ok (false, R) /\ r_return R = false /\ r_worst R = 0%R
  end.
Proof.
  intros p. unfold Probe, EvaluateCostFunction.
  assert (C : check (negb (Nat.eqb 0 (c_residuals (k_cost K)))) = Ok tt).
  { destruct (c_residuals (k_cost K)) eqn:E; [destruct (proj1 U E)|reflexivity]. }
  rewrite C. cbn [bind].
  assert (SQ : forall J, exists Ls, AllLocal K x J (seq 0 (length (c_sizes (k_cost K)))) = Ok Ls /\
    forall k i j, (k < length (c_sizes (k_cost K)))%nat -> tangent_is K x J k i j (nth k Ls (fun _ _ => 0%R) i j)).
  { intros J. destruct (local_ok J (seq 0 (length (c_sizes (k_cost K))))) as [Ls [E [_ N]]]; [intros k H; apply in_seq in H; lia|].
    exists Ls. split; auto. intros k i j H. apply N. rewrite nth_error_nth' with (d := 0%nat); [rewrite seq_nth; auto|rewrite seq_length; auto]. }
  destruct (c_evaluate (k_cost K) x true) as [[r J]|].
  - destruct (SQ J) as [L [E1 T1]]. rewrite E1. cbn [bind].
    destruct (numeric K x) as [[r' J']|].
    + destruct (SQ J') as [L' [E2 T2]]. rewrite E2. cbn [bind]. exists L, L'. split; auto. split; auto.
      destruct (residuals_close (c_residuals (k_cost K)) 0 r r' p); auto.
      rewrite compare_pairs. destruct (Nat.eqb (pairs_bad p (all_pairs K L L')) 0); auto.
    + eexists. split; [reflexivity|]. split; reflexivity.
  - destruct (numeric K x) as [[r' J']|].
    + destruct (SQ J') as [L' [E2 T2]]. rewrite E2. cbn [bind]. eexists. split; [reflexivity|]. split; reflexivity.
    + eexists. split; [reflexivity|]. split; reflexivity.
Qed.

Lemma pairs_agree : forall p J J' L L',
  (forall k i j, (k < length (c_sizes (k_cost K)))%nat -> tangent_is K x J k i j (nth k L (fun _ _ => 0%R) i j)) ->
  (forall k i j, (k < length (c_sizes (k_cost K)))%nat -> tangent_is K x J' k i j (nth k L' (fun _ _ => 0%R) i j)) ->
  (pairs_bad p (all_pairs K L L') = 0%nat <-> derivatives_agree K x p J J').
Proof.
  intros p J J' L L' T1 T2. rewrite bad_zero. split; intros H.
  - intros k i j E d d' D D'. pose proof (T1 k i j (proj1 E)) as A. pose proof (T2 k i j (proj1 E)) as B.
    rewrite (tangent_unique J k i j _ _ D A), (tangent_unique J' k i j _ _ D' B). apply H. apply in_all_pairs. eauto 6.
  - intros u v G. apply in_all_pairs in G. destruct G as [k [i [j [E [-> ->]]]]].
    apply (H k i j E); [apply T1|apply T2]; apply E.
Qed.
End P.
