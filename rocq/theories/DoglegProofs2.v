Require Import Reals List Lra Lia Psatz.
From Verif Require Import DoglegModel DoglegSpec DoglegProofs.
Import ListNotations.
Open Scope R_scope.

Lemma dot_zero_r : forall u v, length u = length v -> dot v v = 0 -> dot u v = 0.
Proof. intros u v L Z. pose proof (cauchy_schwarz_sq u v L). rewrite Z in H. nra. Qed.
Lemma dot_zero_l : forall u v, length u = length v -> dot u u = 0 -> dot u v = 0.
Proof. intros. rewrite dot_comm. apply dot_zero_r; auto. Qed.
Lemma vmul_length : forall u v, length u = length v -> length (vmul u v) = length u.
Proof. induction u; destruct v; simpl; intros; try discriminate; auto. Qed.

(** the exact Levenberg-Marquardt step *)
Lemma lm_change : forall J g D s, normal_equations J g D s ->
  model_change J g s = - ((1 / 2) * dot (mulv J s) (mulv J s)) - dot (vmul D s) (vmul D s).
Proof. intros J g D s N. unfold model_change. pose proof (N s eq_refl). lra. Qed.

Lemma lm_strict : forall J g D s, length D = length s -> length g = length s -> normal_equations J g D s ->
  dot g g <> 0 -> model_change J g s < 0.
Proof.
  intros J g D s LD LG N G. rewrite (lm_change J g D s N).
  pose proof (dot_nonneg (mulv J s)) as P1. pose proof (dot_nonneg (vmul D s)) as P2.
  destruct (Req_dec (dot (mulv J s) (mulv J s)) 0) as [Z1|]; [|lra].
  destruct (Req_dec (dot (vmul D s) (vmul D s)) 0) as [Z2|]; [|lra].
  exfalso. apply G. specialize (N g LG).
  rewrite (dot_zero_l (mulv J s)) in N; auto. 2: rewrite !mulv_length; auto.
  rewrite (dot_zero_l (vmul D s)) in N; auto. 2: rewrite !vmul_length; congruence.
  lra.
Qed.

(** the model along the gradient *)
Lemma change_scale : forall J g t, model_change J g (scale t g) = t * dot g g + (1 / 2) * (t * t * dot (mulv J g) (mulv J g)).
Proof. intros. unfold model_change. rewrite mulv_scale, !dot_scale_l, !dot_scale_r. lra. Qed.

Lemma change_cauchy : forall J g t, 0 < dot g g -> 0 < dot (mulv J g) (mulv J g) -> 0 < t <= cauchy_alpha J g ->
  model_change J g (scale (- t) g) < 0.
Proof.
  intros J g t G H [T1 T2]. rewrite change_scale. unfold cauchy_alpha in T2.
  assert (t * dot (mulv J g) (mulv J g) <= dot g g).
  { apply (Rmult_le_compat_r (dot (mulv J g) (mulv J g))) in T2; [|lra].
    unfold Rdiv in T2. rewrite Rmult_assoc, Rinv_l, Rmult_1_r in T2; lra. }
  nra.
Qed.

(** the model is convex *)
Lemma change_convex : forall J g p q t, length p = length q -> 0 <= t <= 1 ->
  model_change J g (vadd (scale (1 - t) p) (scale t q)) <= (1 - t) * model_change J g p + t * model_change J g q.
Proof.
  intros J g p q t L T. unfold model_change.
  rewrite mulv_vadd by (rewrite !scale_length; auto). rewrite !mulv_scale.
  rewrite dot_vadd_r by (rewrite !scale_length; auto).
  rewrite dot_vadd_l by (rewrite !scale_length, !mulv_length; auto).
  rewrite !dot_vadd_r by (rewrite !scale_length, !mulv_length; auto).
  rewrite !dot_scale_l, !dot_scale_r.
  rewrite (dot_comm (mulv J q) (mulv J p)).
  set (a := mulv J p). set (b := mulv J q).
  assert (0 <= dot a a - 2 * dot a b + dot b b).
  { pose proof (dot_nonneg (vadd a (scale (-1) b))) as H.
    assert (La : length a = length (scale (-1) b)) by (unfold a, b; rewrite scale_length, !mulv_length; auto).
    rewrite dot_vadd_l, !dot_vadd_r, !dot_scale_l, !dot_scale_r in H by auto. rewrite (dot_comm b a) in H. lra. }
  assert (0 <= t * (1 - t) * (dot a a - 2 * dot a b + dot b b)) by (apply Rmult_le_pos; [apply Rmult_le_pos; lra|lra]).
  lra.
Qed.

Lemma norm_pos_dot : forall u, 0 < norm u -> 0 < dot u u.
Proof. intros u H. rewrite <- norm_sq. nra. Qed.

(** ** the subspace problem *)
Lemma poly_root : forall r p y, eval_poly (boundary_poly r p) y =
  r * r * (detBy p y * detBy p y)
  - (((B11 p + y) * g0 p - B01 p * g1 p) * ((B11 p + y) * g0 p - B01 p * g1 p)
     + (- B01 p * g0 p + (B00 p + y) * g1 p) * (- B01 p * g0 p + (B00 p + y) * g1 p)).
Proof.
  intros. unfold eval_poly, boundary_poly, detBy, detB, trB, dot2, mul_adj, gvec. simpl. ring.
Qed.

Lemma step_norm : forall p y, detBy p y <> 0 ->
  dot2 (step_from_root p y) (step_from_root p y) * (detBy p y * detBy p y) =
  (((B11 p + y) * g0 p - B01 p * g1 p) * ((B11 p + y) * g0 p - B01 p * g1 p)
     + (- B01 p * g0 p + (B00 p + y) * g1 p) * (- B01 p * g0 p + (B00 p + y) * g1 p)).
Proof. intros p y D. unfold dot2, step_from_root. simpl. field. auto. Qed.

Lemma step_kkt : forall p y, detBy p y <> 0 -> kkt p y (step_from_root p y).
Proof.
  intros p y D. unfold kkt, step_from_root, mulB. cbn [fst snd].
  split; unfold detBy in *; field; auto.
Qed.

Lemma kkt_step : forall p y x, detBy p y <> 0 -> kkt p y x -> x = step_from_root p y.
Proof.
  intros p y [a b] D [K1 K2]. unfold mulB in *. cbn [fst snd] in *. unfold step_from_root.
  f_equal.
  - apply (Rmult_eq_reg_r (detBy p y)); auto.
    replace (- (((B11 p + y) * g0 p - B01 p * g1 p) / detBy p y) * detBy p y)
      with (- ((B11 p + y) * g0 p - B01 p * g1 p)) by (field; auto).
    replace (g0 p) with (- (B00 p * a + B01 p * b + y * a)) by lra.
    replace (g1 p) with (- (B01 p * a + B11 p * b + y * b)) by lra. unfold detBy. ring.
  - apply (Rmult_eq_reg_r (detBy p y)); auto.
    replace (- ((- B01 p * g0 p + (B00 p + y) * g1 p) / detBy p y) * detBy p y)
      with (- (- B01 p * g0 p + (B00 p + y) * g1 p)) by (field; auto).
    replace (g0 p) with (- (B00 p * a + B01 p * b + y * a)) by lra.
    replace (g1 p) with (- (B01 p * a + B11 p * b + y * b)) by lra. unfold detBy. ring.
Qed.

Lemma dot2_nonneg : forall x, 0 <= dot2 x x.
Proof. intros [a b]. unfold dot2; simpl; nra. Qed.
Lemma norm2_sq : forall x, norm2 x * norm2 x = dot2 x x.
Proof. intros. apply sqrt_sqrt, dot2_nonneg. Qed.
Lemma norm2_nonneg : forall x, 0 <= norm2 x. Proof. intros. apply sqrt_pos. Qed.
Lemma norm2_unique : forall x r, 0 <= r -> dot2 x x = r * r -> norm2 x = r.
Proof. intros x r R H. unfold norm2. rewrite H. apply sqrt_square; auto. Qed.

Lemma root_on_boundary : forall r p y, 0 < r -> detBy p y <> 0 -> eval_poly (boundary_poly r p) y = 0 ->
  norm2 (step_from_root p y) = r.
Proof.
  intros r p y R D P. rewrite poly_root, <- step_norm in P by auto.
  apply norm2_unique; [lra|].
  assert (detBy p y * detBy p y <> 0) by (intros X; apply D; nra).
  apply (Rmult_eq_reg_r (detBy p y * detBy p y)); auto. lra.
Qed.

Lemma boundary_root : forall r p y x, kkt p y x -> norm2 x = r -> detBy p y <> 0 ->
  eval_poly (boundary_poly r p) y = 0.
Proof.
  intros r p y x K N D. rewrite poly_root, <- step_norm by auto.
  rewrite <- (kkt_step p y x D K), <- norm2_sq, N. ring.
Qed.

(** a KKT point with B + y I positive definite and y >= 0 on the boundary is the minimiser *)
Lemma kkt_minimises : forall r p y x, 0 < r -> kkt p y x -> norm2 x = r -> 0 <= y -> pos_def p y -> minimises r p x.
Proof.
  intros r p y [a b] R [K1 K2] N Y PD. split; [lra|]. intros [c d] Z.
  assert (NX : dot2 (a, b) (a, b) = r * r) by (rewrite <- norm2_sq, N; auto).
  assert (NZ : dot2 (c, d) (c, d) <= r * r).
  { rewrite <- norm2_sq. pose proof (norm2_nonneg (c, d)). nra. }
  unfold sub_model, dot2, mulB, gvec in *. cbn [fst snd] in *.
  (* f(z) - f(x) = 1/2 (z-x)'(B+yI)(z-x) + y/2 (|x|^2 - |z|^2) *)
  assert (Q : 0 <= (c - a) * (B00 p * (c - a) + B01 p * (d - b)) + (d - b) * (B01 p * (c - a) + B11 p * (d - b))
                 + y * ((c - a) * (c - a) + (d - b) * (d - b))).
  { destruct (Req_dec (c - a) 0) as [E1|E1]; [destruct (Req_dec (d - b) 0) as [E2|E2]|].
    - rewrite E1, E2. lra.
    - specialize (PD (c - a, d - b)). unfold dot2, mulB in PD. cbn [fst snd] in PD.
      apply Rlt_le, PD. intros X. apply E2. congruence.
    - specialize (PD (c - a, d - b)). unfold dot2, mulB in PD. cbn [fst snd] in PD.
      apply Rlt_le, PD. intros X. apply E1. congruence. }
  replace (g0 p) with (- (B00 p * a + B01 p * b + y * a)) by lra.
  replace (g1 p) with (- (B01 p * a + B11 p * b + y * b)) by lra.
  nra.
Qed.

(** what the loop over the roots returns *)
Lemma best_root_spec : forall r p roots best,
  match best_root r p roots best with
  | None => best = None /\ (forall y, In y roots -> ~ 0 < norm2 (step_from_root p y))
  | Some (f, x) =>
      ((exists y, In y roots /\ x = step_from_root p y /\ 0 < norm2 x /\ f = sub_model p (scale2 (r / norm2 x) x)) \/ best = Some (f, x)) /\
      (forall y, In y roots -> 0 < norm2 (step_from_root p y) ->
         f <= sub_model p (scale2 (r / norm2 (step_from_root p y)) (step_from_root p y))) /\
      (forall f0 x0, best = Some (f0, x0) -> f <= f0)
  end.
Proof.
  intros r p. induction roots as [|y l IH]; intros best; cbn [best_root].
  - destruct best as [[f x]|].
    + split; auto. split; [intros y []|]. intros f0 x0 X. injection X as <- <-. lra.
    + split; auto.
  - cbv zeta. set (x := step_from_root p y). destruct (Rlt_dec 0 (norm2 x)) as [P|P].
    + set (f := sub_model p (scale2 (r / norm2 x) x)).
      destruct best as [[m z]|].
      * destruct (Rlt_dec f m) as [L|L].
        -- specialize (IH (Some (f, x))). destruct (best_root r p l (Some (f, x))) as [[f1 x1]|].
           ++ destruct IH as (A & B & C). split; [|split].
              ** left. destruct A as [(y1 & I & X)|X].
                 { exists y1. split; [right; auto|auto]. }
                 { injection X as <- <-. exists y. split; [left; auto|]. repeat split; auto. }
              ** intros y1 [<-|I] P1; [apply (C f x eq_refl)|apply B; auto].
              ** intros f0 x0 X. injection X as <- <-. pose proof (C f x eq_refl). lra.
           ++ destruct IH as [X _]. discriminate.
        -- specialize (IH (Some (m, z))). destruct (best_root r p l (Some (m, z))) as [[f1 x1]|].
           ++ destruct IH as (A & B & C). split; [|split].
              ** destruct A as [(y1 & I & X)|X]; auto. left. exists y1. split; [right; auto|auto].
              ** intros y1 [<-|I] P1; [|apply B; auto]. pose proof (C m z eq_refl). fold x. fold f. lra.
              ** exact C.
           ++ destruct IH as [X _]. discriminate.
      * specialize (IH (Some (f, x))). destruct (best_root r p l (Some (f, x))) as [[f1 x1]|].
        -- destruct IH as (A & B & C). split; [|split].
           ++ left. destruct A as [(y1 & I & X)|X].
              { exists y1. split; [right; auto|auto]. }
              { injection X as <- <-. exists y. split; [left; auto|]. repeat split; auto. }
           ++ intros y1 [<-|I] P1; [apply (C f x eq_refl)|apply B; auto].
           ++ discriminate.
        -- destruct IH as [X _]. discriminate.
    + specialize (IH best). destruct (best_root r p l best) as [[f1 x1]|].
      * destruct IH as (A & B & C). split; [|split]; auto.
        -- destruct A as [(y1 & I & X)|X]; auto. left. exists y1. split; [right; auto|auto].
        -- intros y1 [<-|I] P1; [contradiction|apply B; auto].
      * destruct IH as [A B]. split; auto. intros y1 [<-|I]; auto.
Qed.

Lemma scale2_one : forall x, scale2 1 x = x.
Proof. intros [a b]. unfold scale2. simpl. f_equal; lra. Qed.
