(** Proofs about polynomials: evaluation, derivative, closed form roots. *)
Require Import Reals List Lra Lia Psatz.
From Coquelicot Require Import Coquelicot.
From Verif Require Import PolynomialModel PolynomialSpec.
Import ListNotations.
Open Scope R_scope.

Lemma horner_gen p x : forall v, fold_left (fun v c => v * x + c) p v = v * x ^ (length p) + power_sum p x.
Proof.
  induction p as [|c q IH]; intros v; cbn [fold_left length power_sum].
  - rewrite pow_O. ring.
  - rewrite IH. cbn [pow]. ring.
Qed.
Lemma horner p x : eval p x = power_sum p x.
Proof. unfold eval. rewrite horner_gen. ring. Qed.

Lemma diff_loop_length p : length (diff_loop p) = (length p - 1)%nat.
Proof.
  induction p as [|c [|d q] IH]; auto.
  change (diff_loop (c :: d :: q)) with (INR (length (d :: q)) * c :: diff_loop (d :: q)).
  cbn [length] in *. rewrite IH. lia.
Qed.

Lemma mono_derive c n x : is_derive (fun t => c * t ^ S n) x (INR (S n) * c * x ^ n).
Proof.
  auto_derive; [auto|].
  change (match n with 0%nat => 1 | S _ => INR n + 1 end) with (INR (S n)).
  generalize (INR (S n)); intros k. change (c * (1 * (k * x ^ n)) = k * c * x ^ n). ring.
Qed.

Lemma const_derive (c x : R) : is_derive (fun _ : R => c) x 0.
Proof. auto_derive; auto. Qed.

Lemma power_sum_derive p x : is_derive (power_sum p) x (power_sum (diff_loop p) x).
Proof.
  induction p as [|c q IH].
  - apply const_derive.
  - destruct q as [|d q'].
    + cbn [power_sum diff_loop length]. apply (is_derive_ext (fun _ => c)).
      * intros t. change (c = c * 1 + 0). ring.
      * apply const_derive.
    + set (q := d :: q') in *.
      change (diff_loop (c :: q)) with (INR (length q) * c :: diff_loop q).
      cbn [power_sum]. rewrite diff_loop_length.
      apply (is_derive_ext (fun t => plus (c * t ^ length q) (power_sum q t))); [reflexivity|].
      apply (is_derive_plus (fun t => c * t ^ length q) (power_sum q)); [|exact IH].
      unfold q. cbn [length]. replace (S (length q') - 1)%nat with (length q') by lia.
      apply mono_derive.
Qed.
Lemma diff_sum p x : power_sum (differentiate p) x = power_sum (diff_loop p) x.
Proof. destruct p as [|c [|d q]]; cbn; first [ring | reflexivity]. Qed.
Lemma eval_derive p x : is_derive (eval p) x (eval (differentiate p) x).
Proof.
  rewrite horner, diff_sum.
  apply (is_derive_ext (power_sum p)); [intros; symmetry; apply horner|]. apply power_sum_derive.
Qed.

Lemma rlz_sum p x : power_sum (remove_leading_zeros p) x = power_sum p x.
Proof.
  induction p as [|c [|d q] IH]; auto.
  change (remove_leading_zeros (c :: d :: q))
    with (if Req_EM_T c 0 then remove_leading_zeros (d :: q) else c :: d :: q).
  destruct (Req_EM_T c 0) as [E|E]; auto. rewrite IH, E. cbn [power_sum]. ring.
Qed.
Lemma rlz_head p : p <> [] -> (exists c, remove_leading_zeros p = [c]) \/
  exists c d q, c <> 0 /\ remove_leading_zeros p = c :: d :: q.
Proof.
  induction p as [|c [|d q] IH]; intros Hn; [congruence|left; exists c; reflexivity|].
  change (remove_leading_zeros (c :: d :: q))
    with (if Req_EM_T c 0 then remove_leading_zeros (d :: q) else c :: d :: q).
  destruct (Req_EM_T c 0) as [E|E].
  - apply IH. discriminate.
  - right. exists c, d, q. auto.
Qed.

(** ** quadratic *)
Lemma quot_nz a b : b <> 0 -> quot a b = Some (a / b).
Proof. intros H. unfold quot. destruct (Req_EM_T b 0); congruence. Qed.
Lemma sqrt_abs_sq D : 0 <= D -> sqrt (Rabs D) * sqrt (Rabs D) = D.
Proof. intros H. rewrite Rabs_pos_eq; auto. apply sqrt_sqrt; auto. Qed.

(** the two roots of a real quadratic, unless it is a x^2 *)
Lemma quadratic_real_pair a b c : a <> 0 -> 0 <= b * b - 4 * a * c -> (b <> 0 \/ c <> 0) ->
  exists r1 r2, quadratic_roots a b c = [ (Some r1, Some 0); (Some r2, Some 0) ] /\
    forall x, a * x ^ 2 + b * x + c = a * (x - r1) * (x - r2).
Proof.
  intros Ha HD Hnz. unfold quadratic_roots.
  destruct (Rle_dec 0 (b * b - 4 * a * c)) as [_|N]; [|contradiction].
  pose proof (sqrt_abs_sq _ HD) as Hs. pose proof (sqrt_pos (Rabs (b * b - 4 * a * c))) as Hp.
  set (s := sqrt (Rabs (b * b - 4 * a * c))) in *. clearbody s.
  destruct (Rle_dec 0 b) as [Hb|Hb].
  - assert (Hd : - b - s <> 0).
    { intros E. assert (b = 0) by lra. assert (s = 0) by lra. subst. 
      assert (a * c = 0) by lra. destruct Hnz as [K|K]; [lra|].
      destruct (Rmult_integral _ _ H); lra. }
    rewrite !quot_nz by (auto; lra). do 2 eexists. split; [reflexivity|].
    intros x.
    assert (E1 : (- b - s) / (2 * a) * (2 * c / (- b - s)) = c / a) by (field; auto).
    assert (E2 : 2 * c / (- b - s) = (- b + s) / (2 * a)).
    { apply (Rmult_eq_reg_r ((- b - s) * (2 * a))).
      - replace (2 * c / (- b - s) * ((- b - s) * (2 * a))) with (4 * a * c) by (field; auto).
        replace ((- b + s) / (2 * a) * ((- b - s) * (2 * a))) with ((- b + s) * (- b - s)) by (field; auto).
        replace ((- b + s) * (- b - s)) with (b * b - s * s) by ring. lra.
      - apply Rmult_integral_contrapositive; split; auto; lra. }
    replace (a * (x - (- b - s) / (2 * a)) * (x - 2 * c / (- b - s)))
      with (a * x ^ 2 - a * x * ((- b - s) / (2 * a) + 2 * c / (- b - s)) +
            a * ((- b - s) / (2 * a) * (2 * c / (- b - s)))) by ring.
    rewrite E1, E2. field. auto.
  - assert (Hd : - b + s <> 0) by lra.
    rewrite !quot_nz by (auto; lra). do 2 eexists. split; [reflexivity|].
    intros x.
    assert (E1 : 2 * c / (- b + s) * ((- b + s) / (2 * a)) = c / a) by (field; auto).
    assert (E2 : 2 * c / (- b + s) = (- b - s) / (2 * a)).
    { apply (Rmult_eq_reg_r ((- b + s) * (2 * a))).
      - replace (2 * c / (- b + s) * ((- b + s) * (2 * a))) with (4 * a * c) by (field; auto).
        replace ((- b - s) / (2 * a) * ((- b + s) * (2 * a))) with ((- b + s) * (- b - s)) by (field; auto).
        replace ((- b + s) * (- b - s)) with (b * b - s * s) by ring. lra.
      - apply Rmult_integral_contrapositive; split; auto; lra. }
    replace (a * (x - 2 * c / (- b + s)) * (x - (- b + s) / (2 * a)))
      with (a * x ^ 2 - a * x * (2 * c / (- b + s) + (- b + s) / (2 * a)) +
            a * (2 * c / (- b + s) * ((- b + s) / (2 * a)))) by ring.
    rewrite E1, E2. field. auto.
Qed.

(** a x^2: one root is 0, the other is 0 / 0 *)
Lemma quadratic_double_zero a : a <> 0 -> quadratic_roots a 0 0 = [ (Some 0, Some 0); (None, Some 0) ].
Proof.
  intros Ha. unfold quadratic_roots. replace (0 * 0 - 4 * a * 0) with 0 by ring.
  destruct (Rle_dec 0 0) as [_|N]; [|lra]. rewrite Rabs_R0, sqrt_0.
  rewrite (quot_nz _ (2 * a)) by lra. replace ((- 0 - 0) / (2 * a)) with 0 by (field; auto).
  unfold quot. destruct (Req_EM_T (- 0 - 0) 0); [reflexivity|lra].
Qed.

(** a complex pair re +- i im *)
Lemma quadratic_complex_pair a b c : a <> 0 -> b * b - 4 * a * c < 0 ->
  exists re im, quadratic_roots a b c = [ (Some re, Some im); (Some re, Some (- im)) ] /\ im <> 0 /\
    forall x, a * x ^ 2 + b * x + c = a * ((x - re) ^ 2 + im ^ 2).
Proof.
  intros Ha HD. unfold quadratic_roots.
  destruct (Rle_dec 0 (b * b - 4 * a * c)) as [N|_]; [lra|].
  assert (Hs : sqrt (Rabs (b * b - 4 * a * c)) * sqrt (Rabs (b * b - 4 * a * c)) = - (b * b - 4 * a * c)).
  { rewrite Rabs_left by auto. apply sqrt_sqrt. lra. }
  set (s := sqrt (Rabs (b * b - 4 * a * c))) in *. clearbody s.
  rewrite !quot_nz by lra. exists (- b / (2 * a)), (s / (2 * a)). split; [|split].
  - do 3 f_equal. f_equal. field. auto.
  - intros E. assert (s = 0).
    { replace s with (s / (2 * a) * (2 * a)) by (field; auto). rewrite E. ring. }
    subst. lra.
  - intros x.
    replace (a * ((x - - b / (2 * a)) ^ 2 + (s / (2 * a)) ^ 2))
      with (a * x ^ 2 + b * x + (b * b + s * s) / (4 * a)) by (field; auto).
    rewrite Hs. field. auto.
Qed.

Lemma rsq a b c x : power_sum [a; b; c] x = a * x ^ 2 + b * x + c.
Proof. cbn. ring. Qed.
Lemma rlin a b x : power_sum [a; b] x = a * x + b.
Proof. cbn. ring. Qed.

Lemma quadratic_sound a b c x i : a <> 0 -> In (Some x, Some i) (quadratic_roots a b c) -> i = 0 ->
  a * x ^ 2 + b * x + c = 0.
Proof.
  intros Ha Hin Hi. destruct (Rlt_dec (b * b - 4 * a * c) 0) as [N|N].
  - destruct (quadratic_complex_pair a b c Ha N) as (re & im & E & Him & _). rewrite E in Hin.
    destruct Hin as [K|[K|[]]]; inversion K; subst; exfalso; apply Him; lra.
  - destruct (Req_EM_T b 0) as [Eb|Eb]; [destruct (Req_EM_T c 0) as [Ec|Ec]|].
    + subst. rewrite quadratic_double_zero in Hin by auto.
      destruct Hin as [K|[K|[]]]; inversion K. ring.
    + destruct (quadratic_real_pair a b c Ha) as (r1 & r2 & E & H); [lra|auto|].
      rewrite H, E in *. destruct Hin as [K|[K|[]]]; inversion K; subst; ring.
    + destruct (quadratic_real_pair a b c Ha) as (r1 & r2 & E & H); [lra|auto|].
      rewrite H, E in *. destruct Hin as [K|[K|[]]]; inversion K; subst; ring.
Qed.
Lemma quadratic_complete a b c x : a <> 0 -> a * x ^ 2 + b * x + c = 0 ->
  In (Some x, Some 0) (quadratic_roots a b c).
Proof.
  intros Ha Hx. destruct (Rlt_dec (b * b - 4 * a * c) 0) as [N|N].
  - destruct (quadratic_complex_pair a b c Ha N) as (re & im & E & Him & H). rewrite H in Hx.
    exfalso. destruct (Rmult_integral _ _ Hx); [auto|].
    assert (0 < im ^ 2) by (apply pow2_gt_0; auto). pose proof (pow2_ge_0 (x - re)). lra.
  - assert (Hpair : b <> 0 \/ c <> 0 -> In (Some x, Some 0) (quadratic_roots a b c)).
    { intros Hnz. destruct (quadratic_real_pair a b c Ha) as (r1 & r2 & E & H); [lra|auto|].
      rewrite H in Hx. rewrite E. apply Rmult_integral in Hx. destruct Hx as [Hx|Hx].
      - apply Rmult_integral in Hx. destruct Hx as [Hx|Hx]; [contradiction|].
        left. f_equal. f_equal. lra.
      - right. left. f_equal. f_equal. lra. }
    destruct (Req_EM_T b 0) as [Eb|Eb]; [|auto]. destruct (Req_EM_T c 0) as [Ec|Ec]; [|auto].
    subst. rewrite quadratic_double_zero by auto. left. f_equal. f_equal.
    assert (x ^ 2 = 0) by (apply (Rmult_eq_reg_l a); auto; lra).
    destruct (Req_EM_T x 0); auto. pose proof (pow2_gt_0 x n). lra.
Qed.
