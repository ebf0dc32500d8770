(** Theorems about the step of the dogleg and Levenberg-Marquardt strategies
    (over the real numbers). *)
Require Import Reals List Lra Psatz.
From Verif Require Import DoglegModel DoglegSpec DoglegProofs DoglegProofs2.
Import ListNotations.
Open Scope R_scope.

(** *** C31: the traditional dogleg step *)
(** The scaled step is the Gauss-Newton step when that fits; else the steepest descent
    direction cut at the boundary when the Cauchy point is outside; else the
    point where the segment from the Cauchy point to the Gauss-Newton point
    leaves the trust region.  It never leaves the trust region. *)
Theorem dogleg_three_cases : forall radius alpha g gn, 0 < radius -> 0 <= alpha -> length g = length gn ->
  let s := dogleg_scaled radius alpha g gn in
  norm s <= radius /\
  (norm gn <= radius -> s = gn) /\
  (radius < norm gn -> radius <= alpha * norm g ->
     norm s = radius /\ exists t, 0 < t /\ s = scale (- t) g) /\
  (radius < norm gn -> alpha * norm g < radius ->
     norm s = radius /\ on_segment (scale (- alpha) g) gn s).
Proof.
  intros radius alpha g gn R A L. unfold dogleg_scaled.
  destruct (Rle_dec (norm gn) radius) as [I|O].
  { cbv zeta. split; auto. split; auto. split; intros; lra. }
  assert (Out : radius < norm gn) by lra.
  destruct (Rge_dec (norm g * alpha) radius) as [C|C]; cbv zeta.
  - assert (G : 0 < norm g). { pose proof (norm_nonneg g). destruct (Req_dec (norm g) 0) as [Z|Z]; [rewrite Z in C; lra|lra]. }
    assert (N : norm (scale (- (radius / norm g)) g) = radius).
    { apply norm_unique; [lra|]. rewrite dot_scale_l, dot_scale_r, <- norm_sq. field. lra. }
    rewrite N. split; [lra|]. split; [intros; lra|]. split.
    + intros _ _. split; auto. exists (radius / norm g). split; auto. apply Rdiv_lt_0_compat; lra.
    + intros _ X. lra.
  - assert (In_ : norm g * alpha < radius) by lra.
    pose proof (interp_dot radius alpha g gn R A L Out In_) as D.
    pose proof (beta_range radius alpha g gn R A L Out In_) as B.
    apply norm_unique in D; [|lra]. rewrite D.
    split; [lra|]. split; [intros; lra|]. split; [intros _ X; lra|].
    intros _ _. split; auto. exists (dogleg_beta radius alpha g gn). split; [lra|].
    f_equal. unfold scale. rewrite map_map. apply map_ext. intros a. ring.
Qed.

(** The step handed to the minimizer, multiplied by the scaling diagonal, is that
    point: its scaled length is at most the radius. *)
Theorem dogleg_inside : forall radius alpha g gn d, 0 < radius -> 0 <= alpha -> length g = length gn ->
  length d = length g -> Forall (fun a => a <> 0) d ->
  norm (vmul d (dogleg_step radius alpha g gn d)) <= radius.
Proof.
  intros radius alpha g gn d R A L Ld Nz.
  assert (LS : length (dogleg_scaled radius alpha g gn) = length d).
  { unfold dogleg_scaled. destruct (Rle_dec _ _); [congruence|]. destruct (Rge_dec _ _).
    - rewrite scale_length. auto.
    - rewrite vadd_length; rewrite !scale_length; auto. }
  replace (vmul d (dogleg_step radius alpha g gn d)) with (dogleg_scaled radius alpha g gn).
  - apply (dogleg_three_cases radius alpha g gn R A L).
  - unfold dogleg_step. generalize dependent (dogleg_scaled radius alpha g gn).
    clear - Nz. intros v. revert v. induction Nz as [|a d H Nz IH]; intros [|b v] E; try discriminate; auto.
    cbn. rewrite <- IH by (cbn in E; congruence). f_equal. field. auto.
Qed.

(** Every dogleg step decreases the linearised cost, whether the Gauss-Newton step
    solves the normal equations exactly or the regularised ones. *)
Theorem dogleg_decreases_model : forall J D radius g gn, 0 < radius ->
  length g = length gn -> length D = length gn -> normal_equations J g D gn ->
  0 < dot g g -> 0 < dot (mulv J g) (mulv J g) ->
  model_change J g (dogleg_scaled radius (cauchy_alpha J g) g gn) < 0.
Proof.
  intros J D radius g gn R L LD NE GG JG.
  assert (AP : 0 < cauchy_alpha J g) by (apply Rdiv_lt_0_compat; auto).
  assert (GNd : model_change J g gn < 0) by (eapply lm_strict; eauto; lra).
  unfold dogleg_scaled. destruct (Rle_dec (norm gn) radius) as [I|O]; auto.
  assert (Out : radius < norm gn) by lra.
  assert (G : 0 < norm g).
  { pose proof (norm_nonneg g). pose proof (norm_sq g). destruct (Req_dec (norm g) 0) as [Z|Z]; [rewrite Z in *; lra|lra]. }
  destruct (Rge_dec _ _) as [C|C].
  - apply change_cauchy; auto. split; [apply Rdiv_lt_0_compat; lra|].
    apply (Rmult_le_reg_r (norm g)); auto. unfold Rdiv. rewrite Rmult_assoc, Rinv_l, Rmult_1_r by lra. lra.
  - assert (In_ : norm g * cauchy_alpha J g < radius) by lra.
    pose proof (beta_range radius _ g gn R (Rlt_le _ _ AP) L Out In_) as B.
    set (b := dogleg_beta radius (cauchy_alpha J g) g gn) in *. cbv zeta.
    replace (scale (- cauchy_alpha J g * (1 - b)) g) with (scale (1 - b) (scale (- cauchy_alpha J g) g)).
    2:{ unfold scale. rewrite map_map. apply map_ext. intros a. ring. }
    eapply Rle_lt_trans; [apply change_convex; [rewrite scale_length; auto|lra]|].
    pose proof (change_cauchy J g (cauchy_alpha J g) GG JG ltac:(lra)) as CC.
    assert ((1 - b) * model_change J g (scale (- cauchy_alpha J g) g) < 0) by (apply Rmult_lt_compat_l with (r := 1 - b) in CC; lra).
    assert (b * model_change J g gn < 0) by (apply Rmult_lt_compat_l with (r := b) in GNd; lra).
    lra.
Qed.

(** *** C58: the Levenberg-Marquardt step decreases the model *)
Theorem lm_step_decreases_model : forall J g D s, length D = length s -> length g = length s ->
  normal_equations J g D s -> dot g g <> 0 -> model_change J g s < 0.
Proof. exact lm_strict. Qed.
(** and more regularisation never means a longer step: with D = sqrt(mu) d the
    scaled length shrinks as mu grows *)
Definition reg_equations (J : list vec) (g d : vec) (mu : R) (s : vec) : Prop :=
  forall v, length v = length s ->
    dot (mulv J s) (mulv J v) + mu * dot (vmul d s) (vmul d v) = - dot g v.
Theorem lm_step_shrinks : forall J g d mu1 mu2 s1 s2, length s1 = length s2 -> length d = length s1 ->
  0 <= mu1 <= mu2 -> reg_equations J g d mu1 s1 -> reg_equations J g d mu2 s2 -> mu1 < mu2 ->
  dot (vmul d s2) (vmul d s2) <= dot (vmul d s1) (vmul d s1).
Proof.
  intros J g d mu1 mu2 s1 s2 L Ld M E1 E2 Lt.
  pose proof (E1 s1 eq_refl) as A. pose proof (E1 s2 (eq_sym L)) as B.
  pose proof (E2 s1 L) as C. pose proof (E2 s2 eq_refl) as D.
  set (e := vadd s1 (scale (-1) s2)).
  assert (Q : 0 <= dot (mulv J e) (mulv J e)) by apply dot_nonneg.
  unfold e in Q. rewrite mulv_vadd, mulv_scale in Q by (rewrite scale_length; auto).
  assert (LL : length (mulv J s1) = length (scale (-1) (mulv J s2))) by (rewrite scale_length, !mulv_length; auto).
  rewrite dot_vadd_l, !dot_vadd_r in Q by auto.
  rewrite ?dot_scale_l, ?dot_scale_r in Q. rewrite ?dot_scale_l, ?dot_scale_r in Q.
  rewrite (dot_comm (mulv J s2) (mulv J s1)) in *. rewrite (dot_comm (vmul d s2) (vmul d s1)) in *.
  set (j11 := dot (mulv J s1) (mulv J s1)) in *. set (j12 := dot (mulv J s1) (mulv J s2)) in *.
  set (j22 := dot (mulv J s2) (mulv J s2)) in *.
  pose proof (cauchy_schwarz_sq (vmul d s1) (vmul d s2)) as CS.
  rewrite !vmul_length in CS by congruence. specialize (CS eq_refl).
  pose proof (dot_nonneg (vmul d s1)) as P1. pose proof (dot_nonneg (vmul d s2)) as P2.
  set (a := dot (vmul d s1) (vmul d s1)) in *. set (b := dot (vmul d s2) (vmul d s2)) in *.
  set (c := dot (vmul d s1) (vmul d s2)) in *.
  (* (mu1 - mu2)... from the four equations: j11 - 2 j12 + j22 = -mu1 (a - c) + mu2 (c - b) *)
  assert (K : mu1 * a + mu2 * b <= (mu1 + mu2) * c) by nra.
  destruct (Rle_dec b a) as [|N]; auto. exfalso. assert (a < b) by lra.
  assert (CM : c < (a + b) / 2).
  { destruct (Rlt_dec c ((a + b) / 2)) as [|Ge]; auto. exfalso.
    assert (G : (a + b) / 2 <= c) by lra. assert (G2 : (a + b) / 2 * ((a + b) / 2) <= c * c) by (apply Rmult_le_compat; lra).
    nra. }
  assert ((mu1 + mu2) * c < (mu1 + mu2) * ((a + b) / 2)) by (apply Rmult_lt_compat_l; lra).
  assert (0 <= (mu2 - mu1) * (b - a)) by (apply Rmult_le_pos; lra). nra.
Qed.

Definition exJ : list vec := [[1; 0]; [0; 2]].
Lemma ex_norms : normal_equations exJ [4; 4] [0; 0] [-4; -1] /\ cauchy_alpha exJ [4; 4] = 2 / 5.
Proof.
  split.
  - intros v L. destruct v as [|a [|b [|]]]; try discriminate. cbn. lra.
  - unfold cauchy_alpha. cbn. field.
Qed.
(** all three cases occur for J = diag(1, 2), gradient (4, 4): the Gauss-Newton step is
    (-4, -1) of length sqrt 17 and the Cauchy point has length 1.6 sqrt 2 *)
Example dogleg_cases :
  norm [-4; -1] <= 5 /\ (3 < norm [-4; -1] /\ 2 / 5 * norm [4; 4] < 3) /\ (2 < norm [-4; -1] /\ 2 <= 2 / 5 * norm [4; 4]).
Proof.
  assert (N1 : norm [-4; -1] * norm [-4; -1] = 17) by (rewrite norm_sq; cbn; ring).
  assert (N2 : norm [4; 4] * norm [4; 4] = 32) by (rewrite norm_sq; cbn; ring).
  pose proof (norm_nonneg [-4; -1]). pose proof (norm_nonneg [4; 4]).
  repeat split; nra.
Qed.

(** *** C31: the subspace variant *)
Lemma scale2_norm : forall c x, 0 <= c -> norm2 (scale2 c x) = c * norm2 x.
Proof.
  intros c x C. apply norm2_unique.
  - apply Rmult_le_pos; auto. apply sqrt_pos.
  - transitivity (c * c * (norm2 x * norm2 x)); [|ring]. rewrite norm2_sq. unfold dot2, scale2. cbn. ring.
Qed.

(** a minimiser with a positive multiplier is unique *)
Lemma minimiser_unique : forall r p y x z, 0 < r -> kkt p y x -> norm2 x = r -> 0 <= y -> pos_def p y ->
  minimises r p z -> z = x.
Proof.
  intros r p y x z R K N Y PD [Z1 Z2].
  pose proof (Z2 x ltac:(lra)) as F.
  destruct K as [K1 K2].
  set (e := (fst z - fst x, snd z - snd x) : v2).
  assert (X : e = (0, 0) \/ e <> (0, 0)).
  { unfold e. destruct (Req_dec (fst z - fst x) 0); [destruct (Req_dec (snd z - snd x) 0)|]; [left; congruence|right; congruence|right; congruence]. }
  destruct X as [X|X].
  - unfold e in X. injection X as X1 X2. destruct z, x. cbn in *. f_equal; lra.
  - exfalso. pose proof (PD e X) as P.
    assert (ZZ : dot2 z z <= r * r). { rewrite <- norm2_sq. assert (0 <= norm2 z) by apply sqrt_pos. nra. }
    assert (XX : dot2 x x = r * r) by (rewrite <- norm2_sq, N; ring).
    assert (Q : sub_model p z - sub_model p x =
                1 / 2 * (dot2 e (mulB p e) + y * dot2 e e) - y / 2 * (dot2 z z - dot2 x x)
                + ((fst (mulB p x) + y * fst x + g0 p) * fst e + (snd (mulB p x) + y * snd x + g1 p) * snd e)).
    { unfold sub_model, e, dot2, mulB, gvec. destruct z, x. cbn. field. }
    rewrite K1, K2 in Q. replace (- g0 p + g0 p) with 0 in Q by ring. replace (- g1 p + g1 p) with 0 in Q by ring.
    assert (0 <= y / 2 * (dot2 x x - dot2 z z)) by (apply Rmult_le_pos; lra).
    nra.
Qed.

(** If the root finder returns exact real roots, among them the one with a
    positive definite B + y I, the subspace step is the exact minimiser of the two
    dimensional model in the trust region. *)
Theorem subspace_optimal : forall r p roots y, 0 < r ->
  (forall z, In z roots -> eval_poly (boundary_poly r p) z = 0 /\ detBy p z <> 0) ->
  In y roots -> 0 < y -> pos_def p y ->
  exists x, subspace_step r p roots = Some x /\ minimises r p x /\ norm2 x = r.
Proof.
  intros r p roots y R Roots Iy Y PD.
  destruct (Roots y Iy) as [Ry Dy].
  pose proof (root_on_boundary r p y R Dy Ry) as Ny.
  pose proof (step_kkt p y Dy) as Ky. set (xs := step_from_root p y) in *.
  pose proof (kkt_minimises r p y xs R Ky Ny (Rlt_le _ _ Y) PD) as Mn.
  unfold subspace_step. pose proof (best_root_spec r p roots None) as B.
  destruct (best_root r p roots None) as [[f x]|].
  2:{ destruct B as [_ B]. exfalso. apply (B y Iy). fold xs. lra. }
  destruct B as [[(z & Iz & Ez & Pz & Ef)|B] [Bm _]]; [|discriminate].
  destruct (Roots z Iz) as [Rz Dz]. pose proof (root_on_boundary r p z R Dz Rz) as Nz. rewrite <- Ez in Nz.
  pose proof (Bm y Iy) as Le. fold xs in Le. specialize (Le ltac:(lra)).
  rewrite Ny in Le. replace (r / r) with 1 in Le by (field; lra). rewrite scale2_one in Le.
  rewrite Nz in Ef. replace (r / r) with 1 in Ef by (field; lra). rewrite scale2_one in Ef.
  assert (Mx : minimises r p x).
  { split; [lra|]. intros w W. destruct Mn as [_ Mn]. specialize (Mn w W). lra. }
  pose proof (minimiser_unique r p y xs x R Ky Ny (Rlt_le _ _ Y) PD Mx) as EX.
  exists x. destruct Ky as [K1 K2]. rewrite <- EX in K1, K2.
  set (h := (fst (mulB p x) + g0 p, snd (mulB p x) + g1 p)).
  assert (H : h = scale2 (- y) x). { unfold h, scale2. f_equal; lra. }
  assert (C : - dot2 x h / (norm2 x * norm2 h) = 1).
  { assert (NH : norm2 h = y * r).
    { apply norm2_unique; [nra|]. rewrite H. transitivity (y * y * dot2 x x); [unfold dot2, scale2; cbn; ring|].
      rewrite <- norm2_sq, Nz. ring. }
    rewrite NH, Nz. assert (D : dot2 x h = - y * (r * r)).
    { rewrite H. transitivity (- y * dot2 x x); [unfold dot2, scale2; cbn; ring|]. rewrite <- norm2_sq, Nz. ring. }
    rewrite D. field. split; lra. }
  fold h. rewrite C. destruct (Rlt_dec 1 (99 / 100)); [lra|]. auto.
Qed.

(** Such a root exists whenever B is positive definite and the unconstrained
    minimiser lies outside the trust region. *)
Theorem subspace_root_exists : forall r p, 0 < r -> pos_def p 0 -> r < norm2 (step_from_root p 0) ->
  exists y, 0 < y /\ eval_poly (boundary_poly r p) y = 0 /\ detBy p y <> 0 /\ pos_def p y.
Proof.
  intros r p R PD Out.
  assert (a0 : 0 < B00 p). { pose proof (PD (1, 0)) as X. unfold dot2, mulB in X. cbn in X. assert (H : (1, 0) <> (0, 0) :> v2) by (intros Q; injection Q; lra). specialize (X H). lra. }
  assert (DB : 0 < detB p).
  { pose proof (PD (- B01 p, B00 p)) as X. unfold dot2, mulB in X. cbn in X.
    assert (H : (- B01 p, B00 p) <> (0, 0) :> v2) by (intros Q; injection Q; lra). specialize (X H). unfold detB. nra. }
  assert (a1 : 0 < B11 p). { unfold detB in DB. nra. }
  assert (Det : forall y, 0 <= y -> 0 < detBy p y).
  { intros y Y. unfold detBy, detB in *. nra. }
  set (F := fun y => eval_poly (boundary_poly r p) y).
  assert (F0 : F 0 < 0).
  { unfold F. rewrite poly_root. rewrite <- step_norm by (specialize (Det 0); lra).
    rewrite <- norm2_sq. specialize (Det 0 ltac:(lra)).
    assert (r * r < norm2 (step_from_root p 0) * norm2 (step_from_root p 0)) by nra.
    assert (0 < detBy p 0 * detBy p 0) by nra. nra. }
  assert (Cont : continuity F).
  { unfold F, eval_poly, boundary_poly. cbn [fold_left]. intros y. reg. }
  (* far out the polynomial is positive *)
  set (G := sqrt (dot2 (gvec p) (gvec p))).
  assert (GN : G * G = g0 p * g0 p + g1 p * g1 p).
  { unfold G. rewrite sqrt_sqrt; [|apply dot2_nonneg]. reflexivity. }
  assert (G0 : 0 <= G) by apply sqrt_pos.
  set (m := G / r + 1).
  assert (GR : G < m * r). { unfold m. replace ((G / r + 1) * r) with (G + r) by (field; lra). lra. }
  assert (MP : 0 < m). { unfold m. assert (0 <= G / r) by (apply Rmult_le_pos; auto; left; apply Rinv_0_lt_compat; lra). lra. }
  assert (Fm : 0 < F m).
  { unfold F. rewrite poly_root. rewrite <- step_norm by (specialize (Det m); lra).
    specialize (Det m ltac:(lra)).
    assert (XX : dot2 (step_from_root p m) (step_from_root p m) < r * r).
    { pose proof (step_kkt p m ltac:(lra)) as [K1 K2]. set (x := step_from_root p m) in *.
      assert (P : 0 <= dot2 x (mulB p x)).
      { destruct (Req_dec (fst x) 0) as [U|U]; [destruct (Req_dec (snd x) 0) as [V|V]|].
        - unfold dot2. rewrite U, V. lra.
        - pose proof (PD x) as Q. assert (x <> (0,0)) by (intros Z; rewrite Z in V; cbn in V; lra). specialize (Q H). lra.
        - pose proof (PD x) as Q. assert (x <> (0,0)) by (intros Z; rewrite Z in U; cbn in U; lra). specialize (Q H). lra. }
      assert (I : dot2 x (mulB p x) + m * dot2 x x = - dot2 (gvec p) x).
      { unfold dot2, gvec. cbn [fst snd]. transitivity (fst x * (fst (mulB p x) + m * fst x) + snd x * (snd (mulB p x) + m * snd x)); [ring|].
        rewrite K1, K2. ring. }
      assert (CS : dot2 (gvec p) x * dot2 (gvec p) x <= (G * G) * dot2 x x).
      { rewrite GN. unfold dot2, gvec. cbn [fst snd]. generalize (fst x) (snd x) (g0 p) (g1 p). intros u v a b. pose proof (Rle_0_sqr (a * v - b * u)) as SQ. unfold Rsqr in SQ. lra. }
      pose proof (dot2_nonneg x) as Nx.
      destruct (Rlt_dec (dot2 x x) (r * r)) as [|Ge]; auto. exfalso.
      assert (0 < r * r) by nra. assert (X0 : 0 < dot2 x x) by lra.
      assert (T : m * dot2 x x <= - dot2 (gvec p) x) by lra.
      assert (T2 : (m * dot2 x x) * (m * dot2 x x) <= (G * G) * dot2 x x).
      { assert (0 < m * dot2 x x) by nra. nra. }
      assert (T3 : m * m * dot2 x x <= G * G).
      { apply (Rmult_le_reg_r (dot2 x x)); auto. nra. }
      assert (m * m * (r * r) <= m * m * dot2 x x) by (apply Rmult_le_compat_l; nra).
      assert (G * G < (m * r) * (m * r)) by nra. nra. }
    assert (0 < detBy p m * detBy p m) by nra. nra. }
  destruct (IVT F 0 m Cont MP F0 Fm) as (y & [Y0 Ym] & Fy).
  assert (Y : 0 < y). { destruct (Req_dec y 0) as [->|]; [rewrite Fy in F0; lra|lra]. }
  exists y. split; auto. split; [exact Fy|]. split; [specialize (Det y ltac:(lra)); lra|].
  intros x X. pose proof (PD x X) as Q. pose proof (dot2_nonneg x). nra.
Qed.

(** So a complete exact root finder gives the exact minimiser. *)
Theorem subspace_step_optimal : forall r p roots, 0 < r -> pos_def p 0 -> r < norm2 (step_from_root p 0) ->
  (forall z, In z roots <-> eval_poly (boundary_poly r p) z = 0) ->
  (forall z, In z roots -> detBy p z <> 0) ->
  exists x, subspace_step r p roots = Some x /\ minimises r p x /\ norm2 x = r.
Proof.
  intros r p roots R PD Out Rt Dt.
  destruct (subspace_root_exists r p R PD Out) as (y & Y & Fy & _ & PDy).
  apply (subspace_optimal r p roots y); auto.
  - intros z Z. split; auto. apply Rt; auto.
  - apply Rt; auto.
Qed.

(** With an inexact root finder the step may leave the trust region, although
    dogleg_step_norm_ reports the radius: the candidates are compared after projection to the
    boundary but the unprojected point is stored.  Here B = I, g = (4, 0), radius 2 (exact
    roots 1 and -3) and the root finder returns 99/100 for 1. *)
Theorem subspace_inside_refuted : exists r p roots x, 0 < r /\ pos_def p 0 /\
  subspace_step r p roots = Some x /\ r < norm2 x.
Proof.
  set (p := mkSub 1 0 1 4 0). exists 2, p, [99 / 100], (step_from_root p (99 / 100)).
  assert (X : step_from_root p (99 / 100) = (- (400 / 199), 0)).
  { unfold step_from_root, detBy, p. cbn. f_equal; field. }
  assert (N : norm2 (- (400 / 199), 0) = 400 / 199). { apply norm2_unique; [lra|]. unfold dot2. cbn. field. }
  split; [lra|]. split.
  { intros [a b] H. unfold dot2, mulB, p. cbn. assert (a <> 0 \/ b <> 0).
    { destruct (Req_dec a 0); [|auto]. destruct (Req_dec b 0); [|auto]. exfalso. apply H. congruence. } nra. }
  unfold subspace_step. cbn [best_root]. rewrite X, N.
  destruct (Rlt_dec 0 (400 / 199)); [|lra].
  cbn [best_root].
  set (h := (fst (mulB p (- (400 / 199), 0)) + g0 p, snd (mulB p (- (400 / 199), 0)) + g1 p)).
  assert (H : h = (396 / 199, 0)). { unfold h, mulB, p. cbn. f_equal; field. }
  assert (NH : norm2 (396 / 199, 0) = 396 / 199). { apply norm2_unique; [lra|]. unfold dot2. cbn. field. }
  rewrite H, N, NH. replace (- dot2 (- (400 / 199), 0) (396 / 199, 0) / (400 / 199 * (396 / 199))) with 1.
  2:{ unfold dot2. cbn. field. }
  destruct (Rlt_dec 1 (99 / 100)); [lra|]. split; auto. lra.
Qed.

Example subspace_case : let p := mkSub 1 0 1 4 0 in
  pos_def p 0 /\ 2 < norm2 (step_from_root p 0) /\ eval_poly (boundary_poly 2 p) 1 = 0 /\
  step_from_root p 1 = (-2, 0).
Proof.
  cbv zeta. split.
  { intros [a b] H. unfold dot2, mulB. cbn. assert (a <> 0 \/ b <> 0).
    { destruct (Req_dec a 0); [|auto]. destruct (Req_dec b 0); [|auto]. exfalso. apply H. congruence. } nra. }
  split. { replace (step_from_root _ 0) with (-4, 0) by (unfold step_from_root, detBy; cbn; f_equal; field).
    replace (norm2 (-4, 0)) with 4; [lra|]. symmetry. apply norm2_unique; [lra|]. unfold dot2. cbn. ring. }
  split. { unfold eval_poly, boundary_poly, trB, detB, dot2, mul_adj, gvec. cbn. ring. }
  unfold step_from_root, detBy. cbn. f_equal; field.
Qed.

Print Assumptions dogleg_three_cases.
Print Assumptions dogleg_inside.
Print Assumptions dogleg_decreases_model.
Print Assumptions lm_step_decreases_model.
Print Assumptions lm_step_shrinks.
Print Assumptions subspace_optimal.
Print Assumptions subspace_root_exists.
Print Assumptions subspace_step_optimal.
Print Assumptions subspace_inside_refuted.
