(** Proofs about polynomials: companion matrices, minimization on an interval. *)
Require Import Reals List Lra Lia Psatz ZArith.
From Coquelicot Require Import Coquelicot.
From Verif Require Import PolynomialModel PolynomialSpec PolynomialProofs.
Import ListNotations.
Open Scope R_scope.

Lemma sum_of_ext n f g : (forall i, (i < n)%nat -> f i = g i) -> sum_of n f = sum_of n g.
Proof.
  induction n as [|n IH]; intros H; cbn [sum_of]; auto. rewrite IH, H; auto.
Qed.
Lemma sum_of_scal n f c : sum_of n (fun i => c * f i) = c * sum_of n f.
Proof. induction n as [|n IH]; cbn [sum_of]; [ring|]. rewrite IH. ring. Qed.
Lemma sum_of_zero n f : (forall i, (i < n)%nat -> f i = 0) -> sum_of n f = 0.
Proof. induction n as [|n IH]; intros H; cbn [sum_of]; auto. rewrite IH, H; auto; lra. Qed.
Lemma sum_of_single n f k : (k < n)%nat -> (forall i, (i < n)%nat -> i <> k -> f i = 0) -> sum_of n f = f k.
Proof.
  induction n as [|n IH]; intros Hk H; [lia|]. cbn [sum_of].
  destruct (Nat.eq_dec k n) as [->|N].
  - rewrite sum_of_zero; [ring|]. intros i Hi. apply H; lia.
  - rewrite IH; [|lia|intros; apply H; lia]. rewrite (H n) by lia. ring.
Qed.
Lemma sum_of_shift n f : sum_of (S n) f = f 0%nat + sum_of n (fun i => f (S i)).
Proof. induction n as [|n IH]; cbn [sum_of] in *; [ring|]. rewrite IH. ring. Qed.

(** ** similarity by a diagonal matrix *)
Definition similar (n : nat) (m m' : mat) : Prop :=
  exists d : nat -> R, (forall i, d i <> 0) /\
    forall i j, (i < n)%nat -> (j < n)%nat -> i <> j -> m' i j = m i j * d j / d i.

Lemma similar_refl n m : similar n m m.
Proof. exists (fun _ => 1). split; [intros; lra|]. intros. field. Qed.
Lemma similar_trans n a b c : similar n a b -> similar n b c -> similar n a c.
Proof.
  intros (d & Hd & H1) (e & He & H2). exists (fun i => d i * e i). split.
  - intros i. apply Rmult_integral_contrapositive; split; auto.
  - intros i j Hi Hj Hij. rewrite H2, H1 by auto. field. split; auto.
Qed.
Lemma pow2_nz e : powerRZ 2 e <> 0.
Proof. apply powerRZ_NOR. lra. Qed.
Lemma scale_pair_similar n m i e : similar n m (scale_pair m i e).
Proof.
  exists (fun k => if Nat.eqb k i then powerRZ 2 e else 1). split.
  - intros k. destruct (Nat.eqb k i); [apply pow2_nz|lra].
  - intros r c Hr Hc Hrc. unfold scale_pair. pose proof (pow2_nz e).
    destruct (Nat.eqb_spec r i), (Nat.eqb_spec c i); subst; try congruence;
      rewrite ?powerRZ_neg'; field; auto.
Qed.

Section Roots.
Variable exponent : R -> R -> Z.
Variable fuel : nat.
Variable eig : nat -> mat -> option (list root).

Lemma balance_step_similar n i s : similar n (fst s) (fst (balance_step exponent n i s)).
Proof.
  destruct s as [m ch]. unfold balance_step.
  destruct (Req_EM_T (col_norm m i n) 0); [apply similar_refl|].
  destruct (Z.eq_dec _ 0); [apply similar_refl|].
  destruct (Rlt_dec _ _); [apply scale_pair_similar|apply similar_refl].
Qed.
Lemma balance_pass_similar n k s : similar n (fst s) (fst (balance_pass exponent n k s)).
Proof.
  induction k as [|k IH]; cbn [balance_pass]; [apply similar_refl|].
  eapply similar_trans; [apply IH|apply balance_step_similar].
Qed.
Lemma balance_loop_similar n f : forall m, similar n m (balance_loop exponent n f m).
Proof.
  induction f as [|f IH]; intros m; cbn [balance_loop]; [apply similar_refl|].
  pose proof (balance_pass_similar n n (m, false)) as H.
  destruct (balance_pass exponent n n (m, false)) as [m' [|]]; cbn [fst] in H; auto.
  eapply similar_trans; [exact H|apply IH].
Qed.
Lemma balance_similar n m : exists d : nat -> R, (forall i, d i <> 0) /\
  forall i j, (i < n)%nat -> (j < n)%nat -> balance exponent fuel n m i j = m i j * d j / d i.
Proof.
  destruct (balance_loop_similar n fuel (fun i j => if Nat.eqb i j then 0 else m i j)) as (d & Hd & H).
  exists d. split; auto. intros i j Hi Hj. unfold balance.
  destruct (Nat.eqb_spec i j) as [->|N].
  - field. auto.
  - rewrite H by auto. destruct (Nat.eqb_spec i j); [contradiction|]. reflexivity.
Qed.
Lemma balance_eigenvalue n m x : eigenvalue n (balance exponent fuel n m) x <-> eigenvalue n m x.
Proof.
  destruct (balance_similar n m) as (d & Hd & H). split; intros (v & (i0 & Hi0 & Hv) & E).
  - exists (fun i => v i / d i). split.
    + exists i0. split; auto. intros K. apply Hv. replace (v i0) with (v i0 / d i0 * d i0) by (field; auto).
      rewrite K. ring.
    + intros j Hj. specialize (E j Hj).
      rewrite (sum_of_ext n _ (fun i => d j * (v i / d i * m i j))) in E.
      * rewrite sum_of_scal in E. apply (Rmult_eq_reg_l (d j)); auto. rewrite E. field. auto.
      * intros i Hi. rewrite H by auto. field. auto.
  - exists (fun i => v i * d i). split.
    + exists i0. split; [exact Hi0|]. apply Rmult_integral_contrapositive_currified; [exact Hv|apply Hd].
    + intros j Hj. specialize (E j Hj).
      rewrite (sum_of_ext n _ (fun i => d j * (v i * m i j))).
      * rewrite sum_of_scal, E. ring.
      * intros i Hi. rewrite H by auto. field. auto.
Qed.

(** ** the companion matrix *)
Lemma power_sum_sum p x : power_sum p x = sum_of (length p) (fun i => nth (length p - 1 - i) p 0 * x ^ i).
Proof.
  induction p as [|c q IH]; auto. cbn [power_sum length sum_of].
  replace (S (length q) - 1 - length q)%nat with 0%nat by lia. cbn [nth].
  rewrite (sum_of_ext _ _ (fun i => nth (length q - 1 - i) q 0 * x ^ i)).
  - rewrite IH. ring.
  - intros i Hi. replace (S (length q) - 1 - i)%nat with (S (length q - 1 - i)) by lia. reflexivity.
Qed.

Lemma companion_root q n x : length q = S n -> (1 <= n)%nat ->
  eigenvalue n (companion_matrix (1 :: tl q)) x <-> power_sum (1 :: tl q) x = 0.
Proof.
  intros Hl Hn. set (p := 1 :: tl q).
  assert (Lp : length p = S n) by (unfold p; destruct q; cbn in *; lia).
  assert (Hlast : forall v : nat -> R, sum_of n (fun i => v i * companion_matrix p i (n - 1)%nat) =
    - sum_of n (fun i => nth (n - i) p 0 * v i)).
  { intros v. replace (- sum_of n (fun i => nth (n - i) p 0 * v i))
      with (-1 * sum_of n (fun i => nth (n - i) p 0 * v i)) by ring.
    rewrite <- sum_of_scal. apply sum_of_ext. intros i Hi. unfold companion_matrix. rewrite Lp.
    replace (S n - 1)%nat with n by lia. rewrite Nat.eqb_refl. ring. }
  assert (Hmid : forall (v : nat -> R) j, (j < n - 1)%nat -> sum_of n (fun i => v i * companion_matrix p i j) = v (S j)).
  { intros v j Hj. rewrite (sum_of_single n _ (S j)); [|lia|].
    - unfold companion_matrix. rewrite Lp. destruct (Nat.eqb_spec j (S n - 1 - 1)); [lia|].
      destruct (Nat.eqb_spec (S j) (j + 1)); [ring|lia].
    - intros i Hi Hij. unfold companion_matrix. rewrite Lp. destruct (Nat.eqb_spec j (S n - 1 - 1)); [lia|].
      destruct (Nat.eqb_spec i (j + 1)); [lia|ring]. }
  assert (Hp : power_sum p x = x ^ n + sum_of n (fun i => nth (n - i) p 0 * x ^ i)).
  { rewrite power_sum_sum, Lp. cbn [sum_of]. replace (S n - 1 - n)%nat with 0%nat by lia.
    unfold p at 2. cbn [nth]. rewrite (sum_of_ext n _ (fun i => nth (n - i) p 0 * x ^ i)); [ring|].
    intros i Hi. do 2 f_equal. lia. }
  split.
  - intros (v & (i0 & Hi0 & Hv) & E).
    assert (Hvk : forall k, (k < n)%nat -> v k = v 0%nat * x ^ k).
    { induction k as [|k IH]; intros Hk; [cbn; ring|].
      assert (E' := E k ltac:(lia)). rewrite Hmid in E' by lia. rewrite E', IH by lia. cbn [pow]. ring. }
    assert (Hv0 : v 0%nat <> 0). { intros K. apply Hv. rewrite Hvk by auto. rewrite K. ring. }
    assert (E' := E (n - 1)%nat ltac:(lia)). rewrite Hlast in E'.
    rewrite (sum_of_ext n _ (fun i => v 0%nat * (nth (n - i) p 0 * x ^ i))) in E'.
    + rewrite sum_of_scal, (Hvk (n - 1)%nat) in E' by lia.
      rewrite Hp. apply (Rmult_eq_reg_l (v 0%nat)); auto.
      replace (x ^ n) with (x * x ^ (n - 1)).
      * lra.
      * replace n with (S (n - 1)) at 2 by lia. reflexivity.
    + intros i Hi. rewrite Hvk by auto. ring.
  - intros E. exists (fun i => x ^ i). split.
    + exists 0%nat. split; [lia|]. cbn. lra.
    + intros j Hj. destruct (Nat.eq_dec j (n - 1)) as [->|N].
      * rewrite Hlast. rewrite Hp in E.
        replace (x * x ^ (n - 1)) with (x ^ n).
        -- lra.
        -- replace n with (S (n - 1)) at 1 by lia. reflexivity.
      * rewrite Hmid by lia. reflexivity.
Qed.

Lemma power_sum_div p k x : k <> 0 -> power_sum (map (fun c => c / k) p) x = power_sum p x / k.
Proof.
  intros Hk. induction p as [|c q IH]; cbn [map power_sum]; [field; auto|].
  rewrite IH, map_length. field. auto.
Qed.

Lemma companion_roots_exact c d q l x : eigensolver_ok eig -> c <> 0 ->
  companion_roots exponent fuel eig (c :: d :: q) = Some l ->
  (In (Some x, Some 0) l <-> power_sum (c :: d :: q) x = 0).
Proof.
  intros He Hc Hr. unfold companion_roots in Hr. cbn [nth] in Hr.
  rewrite (He _ _ _ x Hr), balance_eigenvalue.
  assert (Em : map (fun c0 => c0 / c) (c :: d :: q) = 1 :: tl (map (fun c0 => c0 / c) (c :: d :: q))).
  { cbn [map tl]. f_equal. field. auto. }
  rewrite Em, (companion_root (map (fun c0 => c0 / c) (c :: d :: q))).
  - rewrite <- Em, power_sum_div by auto. split; intros K.
    + replace (power_sum (c :: d :: q) x) with (power_sum (c :: d :: q) x / c * c) by (field; auto). rewrite K. ring.
    + rewrite K. field. auto.
  - rewrite map_length. cbn [length]. lia.
  - cbn [length]. lia.
Qed.

(** the roots found of any polynomial with a nonzero coefficient *)
Lemma find_roots_exact p l x : eigensolver_ok eig ->
  (exists y, power_sum p y <> 0) ->
  find_polynomial_roots exponent fuel eig p = Some l ->
  (In (Some x, Some 0) l <-> power_sum p x = 0).
Proof.
  intros He (y & Hy) Hf. unfold find_polynomial_roots in Hf.
  destruct p as [|c0 q0]; [discriminate|]. set (p := c0 :: q0) in *.
  assert (Hnn : p <> []) by (unfold p; discriminate).
  rewrite <- (rlz_sum p x). rewrite <- rlz_sum in Hy.
  destruct (rlz_head p Hnn) as [(c & E)|(c & d & q & Hc & E)]; rewrite E in *.
  - inversion Hf; subst l. split; [intros []|]. intros K. exfalso. apply Hy. cbn in *. lra.
  - destruct q as [|e q].
    + inversion Hf; subst l. unfold linear_roots. rewrite quot_nz, rlin by auto. cbn [In]. split.
      * intros [K|[]]. injection K as <-. field. auto.
      * intros K. left. f_equal. f_equal. apply (Rmult_eq_reg_l c); auto.
        replace (c * (- d / c)) with (- d) by (field; auto). lra.
    + destruct q as [|e' q].
      * inversion Hf; subst l. rewrite rsq. split; intros K.
        -- eapply quadratic_sound; eauto.
        -- apply quadratic_complete; auto.
      * eapply companion_roots_exact; eauto.
Qed.

(** ** minimization *)
Definition best_of (p : poly) (a b : R) (best : R * R) : Prop :=
  a <= fst best <= b /\ snd best = eval p (fst best).

Lemma try_roots_spec p a b l : forall best, best_of p a b best ->
  let r := try_roots p a b l best in
  best_of p a b r /\ snd r <= snd best /\
  forall x i, In (Some x, i) l -> a <= x <= b -> snd r <= eval p x.
Proof.
  induction l as [|[[x|] i] l IH]; intros best Hb; cbn [try_roots].
  - split; auto. split; [lra|]. intros x i [].
  - destruct (Rlt_dec x a) as [H1|H1]; [|destruct (Rlt_dec b x) as [H2|H2]].
    + destruct (IH best Hb) as (A & B & C). split; [auto|split; [auto|]].
      intros y j [K|K] Hy; [inversion K; subst; lra|eauto].
    + destruct (IH best Hb) as (A & B & C). split; [auto|split; [auto|]].
      intros y j [K|K] Hy; [inversion K; subst; lra|eauto].
    + destruct (Rlt_dec (eval p x) (snd best)) as [H3|H3].
      * assert (Hb' : best_of p a b (x, eval p x)) by (split; cbn [fst snd]; [lra|auto]).
        destruct (IH _ Hb') as (A & B & C). cbn [snd] in B. split; [auto|split; [lra|]].
        intros y j [K|K] Hy; [inversion K; subst; lra|eauto].
      * destruct (IH best Hb) as (A & B & C). split; [auto|split; [auto|]].
        intros y j [K|K] Hy; [inversion K; subst; lra|eauto].
  - destruct (IH best Hb) as (A & B & C). split; [auto|split; [auto|]].
    intros y j [K|K] Hy; [inversion K|eauto].
Qed.

Lemma try_samples_spec p a b l : forall best, best_of p a b best ->
  let r := try_samples p a b l best in
  best_of p a b r /\ snd r <= snd best /\
  forall s, In s l -> a <= s_x s <= b -> snd r <= eval p (s_x s).
Proof.
  induction l as [|s l IH]; intros best Hb; cbn [try_samples].
  - split; auto. split; [lra|]. intros x [].
  - destruct (Rlt_dec (s_x s) a) as [H1|H1]; [|destruct (Rlt_dec b (s_x s)) as [H2|H2]].
    + destruct (IH best Hb) as (A & B & C). split; [auto|split; [auto|]].
      intros y [K|K] Hy; [subst; lra|eauto].
    + destruct (IH best Hb) as (A & B & C). split; [auto|split; [auto|]].
      intros y [K|K] Hy; [subst; lra|eauto].
    + destruct (Rlt_dec (eval p (s_x s)) (snd best)) as [H3|H3].
      * assert (Hb' : best_of p a b (s_x s, eval p (s_x s))) by (split; cbn [fst snd]; [lra|auto]).
        destruct (IH _ Hb') as (A & B & C). cbn [snd] in B. split; [auto|split; [lra|]].
        intros y [K|K] Hy; [subst; lra|eauto].
      * destruct (IH best Hb) as (A & B & C). split; [auto|split; [auto|]].
        intros y [K|K] Hy; [subst; lra|eauto].
Qed.

Lemma ends_spec p a b : a <= b ->
  let mid := (a + b) / 2 in
  let b0 := (mid, eval p mid) in
  let b1 := if Rlt_dec (eval p a) (snd b0) then (a, eval p a) else b0 in
  let b2 := if Rlt_dec (eval p b) (snd b1) then (b, eval p b) else b1 in
  best_of p a b b2 /\ snd b2 <= eval p a /\ snd b2 <= eval p b /\ snd b2 <= eval p mid.
Proof.
  intros Hab mid b0 b1 b2. unfold b2, b1, b0, mid, best_of. cbn [snd].
  destruct (Rlt_dec (eval p a) (eval p ((a + b) / 2))) as [H1|H1]; cbn [snd fst].
  - destruct (Rlt_dec (eval p b) (eval p a)); cbn [snd fst];
      (split; [split; [lra|auto]|split; [lra|split; lra]]).
  - destruct (Rlt_dec (eval p b) (eval p ((a + b) / 2))); cbn [snd fst];
      (split; [split; [lra|auto]|split; [lra|split; lra]]).
Qed.

Lemma minimize_basic p a b : a <= b ->
  let r := minimize_polynomial exponent fuel eig p a b in
  best_of p a b r /\ snd r <= eval p a /\ snd r <= eval p b /\ snd r <= eval p ((a + b) / 2) /\
  forall l x i, (3 <= length p)%nat -> find_polynomial_roots exponent fuel eig (differentiate p) = Some l ->
    In (Some x, i) l -> a <= x <= b -> snd r <= eval p x.
Proof.
  intros Hab. unfold minimize_polynomial. pose proof (ends_spec p a b Hab) as H. cbv zeta in *.
  set (b2 := if Rlt_dec (eval p b) _ then _ else _) in *. clearbody b2.
  destruct H as (H1 & H2 & H3 & H4).
  destruct (Nat.leb_spec (length p) 2).
  - split; [auto|split; [auto|split; [auto|split; [auto|]]]]. intros; lia.
  - destruct (find_polynomial_roots exponent fuel eig (differentiate p)) as [l|].
    + destruct (try_roots_spec p a b l b2 H1) as (A & B & C).
      split; [auto|split; [lra|split; [lra|split; [lra|]]]].
      intros l' x i _ K. inversion K; subst l'. apply C.
    + split; [auto|split; [auto|split; [auto|split; [auto|]]]]. intros; discriminate.
Qed.
End Roots.
