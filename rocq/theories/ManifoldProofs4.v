(* The Householder reflection and the sphere manifold. *)
From Coq Require Import Reals List Arith Lia Lra Psatz Bool.
From Verif Require Import RotationModel RotationSpec RotationProofs RotationProofs4 ManifoldModel ManifoldSpec ManifoldProofs ManifoldProofs2.
Import ListNotations.
Open Scope R_scope.

Definition reflector (k : nat) (v : arr) (beta : R) (x : arr) (rho : R) : Prop :=
  beta * (beta * dot (S k) v v - 2) = 0 /\ forall i, (i < S k)%nat -> rho * (identity i k - beta * v i * v k) = x i.

Lemma identity_same i : identity i i = 1.
Proof. unfold identity. rewrite Nat.eqb_refl. reflexivity. Qed.
Lemma identity_diff i j : i <> j -> identity i j = 0.
Proof. intro H. unfold identity. destruct (Nat.eqb_spec i j); [contradiction|reflexivity]. Qed.

Lemma dot_scale n c x : dot n (fun i => c * x i) (fun i => c * x i) = c * c * dot n x x.
Proof. unfold dot. rewrite <- sumn_scal. apply sumn_ext. intros. ring. Qed.

Lemma eps_pos : 0 < epsilon.
Proof. unfold epsilon. apply Rinv_0_lt_compat. lra. Qed.

Lemma householder k x rho : 0 < rho -> norm (S k) x = rho -> off_threshold (S k) x ->
  forall v beta, ComputeHouseholderVector (S k) x = (v, beta) -> reflector k v beta x rho.
Proof.
  intros P N OT v beta E. assert (rho * rho = dot k x x + x k * x k) as N2 by (rewrite <- N, norm_S, norm_sq; reflexivity).
  unfold ComputeHouseholderVector in E. unfold off_threshold in OT. replace (S k - 1)%nat with k in * by lia. cbv zeta in E.
  set (sigma := dot k x x) in *. destruct (Rle_dec sigma epsilon) as [L|L].
  - assert (sigma = 0) as S0 by (destruct OT as [O|O]; lra).
    assert (forall i, (i < k)%nat -> x i = 0) as Z.
    { apply norm_zero. unfold norm. fold sigma. rewrite S0. apply sqrt_0. }
    injection E as <- <-.
    assert (dot (S k) (upd x k 1) (upd x k 1) = 1) as D.
    { unfold dot. cbn [sumn]. rewrite (sumn_ext k _ (fun _ => 0)), sumn_zero.
      - unfold upd. rewrite Nat.eqb_refl. ring.
      - intros i Hi. unfold upd. destruct (Nat.eqb_spec i k); [lia|]. rewrite (Z i Hi). ring. }
    assert (forall i, (i < S k)%nat -> upd x k 1 i = identity i k) as EU.
    { intros i Hi. unfold upd, identity. destruct (Nat.eqb_spec i k); [reflexivity|]. apply Z. lia. }
    split.
    + rewrite D. destruct (Rlt_dec (x k) 0); ring.
    + intros i Hi. rewrite (EU k), (EU i), identity_same by lia. destruct (Nat.eq_dec i k) as [->|Ni].
      * rewrite identity_same. destruct (Rlt_dec (x k) 0) as [C|C]; nra.
      * rewrite identity_diff, (Z i) by lia. ring.
  - assert (sqrt (x k * x k + sigma) = rho) as EM.
    { replace (x k * x k + sigma) with (rho * rho) by lra. apply sqrt_square. lra. }
    rewrite EM in E. pose proof eps_pos. assert (0 < sigma) as SP by lra.
    assert (x k < rho) as LT. { assert (x k * x k < rho * rho) by lra. nra. }
    assert ((if Rle_dec (x k) 0 then x k - rho else - sigma / (x k + rho)) = x k - rho) as EV.
    { destruct (Rle_dec (x k) 0); [reflexivity|]. assert (sigma = (rho - x k) * (x k + rho)) as -> by lra. field. lra. }
    rewrite EV in E. set (vp := x k - rho) in *. assert (vp < 0) as VN by (unfold vp; lra).
    assert (sigma + vp * vp = - 2 * rho * vp) as SV by (unfold vp in *; nra).
    assert (2 * vp * vp / (sigma + vp * vp) = - vp / rho) as EB by (rewrite SV; field; split; lra).
    rewrite EB in E. injection E as <- <-.
    assert (dot (S k) (fun i => if Nat.ltb i k then x i / vp else 1) (fun i => if Nat.ltb i k then x i / vp else 1) = (sigma + vp * vp) / (vp * vp)) as D.
    { unfold dot. cbn [sumn]. rewrite Nat.ltb_irrefl.
      rewrite (sumn_ext k _ (fun i => (/ vp * x i) * (/ vp * x i))).
      - fold (dot k (fun i => / vp * x i) (fun i => / vp * x i)). rewrite dot_scale. fold sigma. field. lra.
      - intros i Hi. destruct (Nat.ltb_spec i k); [|lia]. unfold Rdiv. ring. }
    split.
    + rewrite D, SV. field. lra.
    + intros i Hi. rewrite Nat.ltb_irrefl. destruct (Nat.eq_dec i k) as [->|Ni].
      * rewrite identity_same, Nat.ltb_irrefl. unfold vp. field. lra.
      * rewrite identity_diff by exact Ni. destruct (Nat.ltb_spec i k); [|lia]. field. lra.
Qed.

(* H y and the matrix of H *)
Definition refl (v : arr) (beta : R) : mat := fun r c => - beta * v r * v c + identity r c.
Lemma refl_mvec n v beta y i : (i < n)%nat -> mvec n (refl v beta) y i = ApplyHouseholderVector n y v beta i.
Proof.
  intro Hi. unfold mvec, refl, ApplyHouseholderVector, dot.
  rewrite (sumn_ext n _ (fun j => (- beta * v i) * (v j * y j) + identity i j * y j)) by (intros; ring).
  rewrite sumn_add, sumn_scal, sumn_identity_l by exact Hi. ring.
Qed.
Lemma apply_lin n v beta c y i : ApplyHouseholderVector n (fun j => c * y j) v beta i = c * ApplyHouseholderVector n y v beta i.
Proof.
  unfold ApplyHouseholderVector. assert (dot n v (fun j => c * y j) = c * dot n v y) as ->; [|ring].
  unfold dot. rewrite <- sumn_scal. apply sumn_ext. intros. ring.
Qed.
Lemma apply_ext n v beta y y' : eqn n y y' -> eqn n (ApplyHouseholderVector n y v beta) (ApplyHouseholderVector n y' v beta).
Proof. intros H i Hi. unfold ApplyHouseholderVector. rewrite (H i Hi). rewrite (dot_ext n v y v y' (fun _ _ => eq_refl) H). reflexivity. Qed.
Lemma dot_apply n v beta y : dot n v (ApplyHouseholderVector n y v beta) = dot n v y * (1 - beta * dot n v v).
Proof.
  unfold ApplyHouseholderVector. unfold dot at 1. rewrite (sumn_ext n _ (fun i => v i * y i - (beta * dot n v y) * (v i * v i))) by (intros; ring).
  rewrite sumn_sub, sumn_scal. fold (dot n v y) (dot n v v). ring.
Qed.
Lemma apply_twice n v beta y i : beta * (beta * dot n v v - 2) = 0 ->
  ApplyHouseholderVector n (ApplyHouseholderVector n y v beta) v beta i = y i.
Proof.
  intro H. unfold ApplyHouseholderVector at 1. rewrite dot_apply. unfold ApplyHouseholderVector.
  transitivity (y i + (beta * (beta * dot n v v - 2)) * (v i * dot n v y)); [ring|]. rewrite H. ring.
Qed.
Lemma apply_norm n v beta y : beta * (beta * dot n v v - 2) = 0 -> norm n (ApplyHouseholderVector n y v beta) = norm n y.
Proof.
  intro H. unfold norm. f_equal. unfold ApplyHouseholderVector. unfold dot at 1.
  rewrite (sumn_ext n _ (fun i => (y i * y i - (2 * beta * dot n v y) * (v i * y i)) + (beta * dot n v y * (beta * dot n v y)) * (v i * v i))) by (intros; ring).
  rewrite sumn_add, sumn_sub, !sumn_scal. fold (dot n v y) (dot n v v) (dot n y y).
  transitivity (dot n y y + (beta * (beta * dot n v v - 2)) * (dot n v y * dot n v y)); [ring|]. rewrite H. ring.
Qed.

Section Sphere.
Variable k : nat.
Variables (v x : arr) (beta rho : R).
Hypothesis RP : 0 < rho.
Hypothesis RF : reflector k v beta x rho.
Definition sphA : mat := fun r c => refl v beta r c * rho.
Definition sphB : mat := fun r c => refl v beta r c / rho.

Lemma sphA_mvec z i : (i < S k)%nat -> mvec (S k) sphA z i = rho * ApplyHouseholderVector (S k) z v beta i.
Proof.
  intro Hi. rewrite <- (refl_mvec (S k) v beta z i Hi). unfold mvec. rewrite <- sumn_scal. apply sumn_ext. intros. unfold sphA. ring.
Qed.
Lemma sphB_mvec z i : (i < S k)%nat -> mvec (S k) sphB z i = ApplyHouseholderVector (S k) z v beta i / rho.
Proof.
  intro Hi. rewrite <- (refl_mvec (S k) v beta z i Hi). unfold mvec. unfold Rdiv. rewrite Rmult_comm, <- sumn_scal. apply sumn_ext. intros. unfold sphB, Rdiv. ring.
Qed.
Lemma sphBA z : eqn (S k) (mvec (S k) sphB (mvec (S k) sphA z)) z.
Proof.
  intros i Hi. rewrite sphB_mvec by exact Hi.
  rewrite (apply_ext (S k) v beta _ (fun j => rho * ApplyHouseholderVector (S k) z v beta j)) by (try exact Hi; intros j Hj; apply sphA_mvec; exact Hj).
  rewrite apply_lin, apply_twice by apply RF. field. lra.
Qed.
Lemma sphAB z : eqn (S k) (mvec (S k) sphA (mvec (S k) sphB z)) z.
Proof.
  intros i Hi. rewrite sphA_mvec by exact Hi.
  rewrite (apply_ext (S k) v beta _ (fun j => / rho * ApplyHouseholderVector (S k) z v beta j)) by (try exact Hi; intros j Hj; rewrite sphB_mvec by exact Hj; unfold Rdiv; ring).
  rewrite apply_lin, apply_twice by apply RF. field. lra.
Qed.
Lemma sphX i : (i < S k)%nat -> sphA i k = x i.
Proof. intro Hi. destruct RF as [_ H]. rewrite <- (H i Hi). unfold sphA, refl. ring. Qed.
Lemma sphB_norm y : norm (S k) (mvec (S k) sphB y) = norm (S k) y / rho.
Proof.
  rewrite (norm_ext (S k) _ (fun i => / rho * ApplyHouseholderVector (S k) y v beta i)) by (intros i Hi; rewrite sphB_mvec by exact Hi; unfold Rdiv; ring).
  rewrite norm_scale, apply_norm by apply RF. rewrite Rabs_pos_eq by (apply Rlt_le, Rinv_0_lt_compat, RP). unfold Rdiv. ring.
Qed.
Lemma sphA_norm y : norm (S k) (mvec (S k) sphA y) = rho * norm (S k) y.
Proof.
  rewrite (norm_ext (S k) _ (fun i => rho * ApplyHouseholderVector (S k) y v beta i)) by (intros i Hi; apply sphA_mvec; exact Hi).
  rewrite norm_scale, apply_norm by apply RF. rewrite Rabs_pos_eq by lra. reflexivity.
Qed.

Hypothesis NX : norm (S k) x = rho.
Lemma sphere_plus_chart d : eqn (S k)
  (if Req_EM_T (norm k d) 0 then x else ComputeSphereManifoldPlus (S k) v beta x d (norm k d)) (chart_plus k x sphA d).
Proof.
  intros i Hi. unfold chart_plus. destruct (Req_EM_T (norm k d) 0); [reflexivity|]. rewrite sphA_mvec by exact Hi.
  unfold ComputeSphereManifoldPlus, exp_chart. cbv zeta. rewrite NX. replace (S k - 1)%nat with k by lia. reflexivity.
Qed.
Definition sphere_degenerate (w : R) : arr := upd zeros (k - 1)%nat (if Rle_dec 0 w then 0 else PI).
Lemma sphere_minus_chart y : eqn k (ComputeSphereManifoldMinus (S k) v beta x y) (chart_minus k sphB sphere_degenerate y).
Proof.
  intros i Hi. unfold ComputeSphereManifoldMinus, chart_minus. cbv zeta. replace (S k - 1)%nat with k by lia. rewrite NX.
  rewrite (norm_ext k (mvec (S k) sphB y) (fun i => ApplyHouseholderVector (S k) y v beta i / rho)) by (intros j Hj; apply sphB_mvec; lia).
  rewrite (sphB_mvec y k) by lia. destruct (Req_EM_T _ 0); [reflexivity|].
  unfold log_chart. rewrite (norm_ext k (mvec (S k) sphB y) (fun i => ApplyHouseholderVector (S k) y v beta i / rho)) by (intros j Hj; apply sphB_mvec; lia).
  rewrite (sphB_mvec y k), (sphB_mvec y i) by lia. reflexivity.
Qed.
Lemma sphere_degenerate_zero w : 0 <= w -> eqn k (sphere_degenerate w) zeros.
Proof. intros W i Hi. unfold sphere_degenerate, upd, zeros. destruct (Rle_dec 0 w); [|lra]. destruct (Nat.eqb i (k - 1)); reflexivity. Qed.

Lemma chart_plus_ext m d d' : eqn k d d' -> eqn (S k) (chart_plus k x m d) (chart_plus k x m d').
Proof.
  intros E j Hj. unfold chart_plus. rewrite (norm_ext k d d' E). destruct (Req_EM_T (norm k d') 0); [reflexivity|].
  apply mvec_ext. apply exp_ext. exact E.
Qed.
Lemma chart_minus_ext m y y' : eqn (S k) y y' -> eqn k (chart_minus k m sphere_degenerate y) (chart_minus k m sphere_degenerate y').
Proof.
  intros E i Hi. unfold chart_minus. cbv zeta. rewrite (norm_ext k _ (mvec (S k) m y')) by (intros j Hj; apply mvec_ext; exact E).
  rewrite (mvec_ext (S k) m y y' E k). destruct (Req_EM_T _ 0); [reflexivity|]. apply log_ext; [|exact Hi]. intros j Hj. apply mvec_ext. exact E.
Qed.

(* opposite points included *)
Lemma sphere_plus_minus y : (1 <= k)%nat -> norm (S k) y = rho ->
  eqn (S k) (chart_plus k x sphA (chart_minus k sphB sphere_degenerate y)) y.
Proof.
  intros K NY. set (u := mvec (S k) sphB y). assert (norm (S k) u = 1) as N1 by (unfold u; rewrite sphB_norm, NY; field; lra).
  destruct (Req_EM_T (norm k u) 0) as [Z|Z]; [|apply chart_plus_minus; [exact sphAB|exact N1|exact Z]].
  pose proof (norm_S k u) as NS. rewrite N1, Z in NS. pose proof (norm_zero k u Z) as Z'.
  assert (chart_minus k sphB sphere_degenerate y = sphere_degenerate (u k)) as ->.
  { unfold chart_minus. cbv zeta. fold u. destruct (Req_EM_T (norm k u) 0); [reflexivity|contradiction]. }
  unfold sphere_degenerate. destruct (Rle_dec 0 (u k)) as [W|W].
  - assert (u k = 1) as W1 by nra. rewrite chart_zero.
    + intros i Hi. rewrite <- (sphAB y i Hi). fold u. rewrite <- (mA_ek k x sphA sphX i Hi). apply mvec_ext. intros j Hj.
      unfold ek. destruct (Nat.eq_dec j k) as [->|Nj]; [rewrite identity_same; lra|rewrite identity_diff, Z' by lia; reflexivity].
    + intros i Hi. unfold upd, zeros. destruct (Nat.eqb i (k - 1)); reflexivity.
  - assert (u k = -1) as W1 by nra. set (d := upd zeros (k - 1)%nat PI). pose proof PI_RGT_0 as PP.
    assert (norm k d = PI) as ND.
    { apply sqrt_uniq; [lra|]. unfold dot. rewrite (sumn_single k _ (k - 1)%nat); [unfold d, upd; rewrite Nat.eqb_refl; reflexivity|lia|].
      intros j Hj Nj. unfold d, upd, zeros. destruct (Nat.eqb_spec j (k - 1)); [contradiction|ring]. }
    unfold chart_plus. rewrite ND. destruct (Req_EM_T PI 0); [lra|]. intros i Hi. rewrite <- (sphAB y i Hi). fold u. apply mvec_ext.
    intros j Hj. unfold exp_chart. rewrite ND, sin_PI, cos_PI. destruct (Nat.eq_dec j k) as [->|Nj].
    + rewrite append_last. lra.
    + rewrite append_lt, Z' by lia. unfold Rdiv. ring.
Qed.
End Sphere.

Lemma householder_ext n x x' : (1 <= n)%nat -> eqn n x x' ->
  snd (ComputeHouseholderVector n x) = snd (ComputeHouseholderVector n x') /\
  eqn n (fst (ComputeHouseholderVector n x)) (fst (ComputeHouseholderVector n x')).
Proof.
  intros N H. unfold ComputeHouseholderVector. cbv zeta.
  assert (dot (n - 1) x x = dot (n - 1) x' x') as -> by (apply dot_ext; intros i Hi; apply H; lia).
  rewrite (H (n - 1)%nat) by lia. destruct (Rle_dec _ _); cbn [fst snd].
  - split; [reflexivity|]. intros i Hi. unfold upd. destruct (Nat.eqb i (n - 1)); [reflexivity|apply H; exact Hi].
  - split; [reflexivity|]. intros i Hi. destruct (Nat.ltb i (n - 1)); [rewrite (H i Hi); reflexivity|reflexivity].
Qed.
Lemma apply_full_ext n y y' v v' beta : eqn n y y' -> eqn n v v' ->
  eqn n (ApplyHouseholderVector n y v beta) (ApplyHouseholderVector n y' v' beta).
Proof. intros H K i Hi. unfold ApplyHouseholderVector. rewrite (dot_ext n v y v' y' K H), (H i Hi), (K i Hi). reflexivity. Qed.
Lemma append_ext k a a' l l' : eqn k a a' -> l = l' -> forall i, append k a l i = append k a' l' i.
Proof. intros H E i. unfold append. destruct (Nat.ltb_spec i k); [apply H; assumption|exact E]. Qed.
Lemma sphere_plus_ext n v v' beta x x' d d' : eqn n v v' -> eqn n x x' -> eqn (n - 1) d d' ->
  eqn n (ComputeSphereManifoldPlus n v beta x d (norm (n - 1) d)) (ComputeSphereManifoldPlus n v' beta x' d' (norm (n - 1) d')).
Proof.
  intros V X D i Hi. unfold ComputeSphereManifoldPlus. cbv zeta. rewrite (norm_ext n x x' X), (norm_ext (n - 1) d d' D). f_equal.
  apply apply_full_ext; [|exact V|exact Hi]. intros j Hj. apply append_ext; [|reflexivity]. intros l Hl. rewrite (D l Hl). reflexivity.
Qed.
Lemma sphere_minus_ext n v v' beta x x' y y' : (1 <= n)%nat -> eqn n v v' -> eqn n x x' -> eqn n y y' ->
  eqn (n - 1) (ComputeSphereManifoldMinus n v beta x y) (ComputeSphereManifoldMinus n v' beta x' y').
Proof.
  intros N V X Y i Hi. unfold ComputeSphereManifoldMinus. cbv zeta. rewrite (norm_ext n x x' X).
  set (h := fun i => ApplyHouseholderVector n y v beta i / norm n x'). set (h' := fun i => ApplyHouseholderVector n y' v' beta i / norm n x').
  assert (eqn n h h') as E by (intros j Hj; unfold h, h'; rewrite (apply_full_ext n y y' v v' beta Y V j Hj); reflexivity).
  rewrite (norm_ext (n - 1) h h') by (intros j Hj; apply E; lia).
  change (ApplyHouseholderVector n y v beta (n - 1)%nat / norm n x') with (h (n - 1)%nat).
  change (ApplyHouseholderVector n y' v' beta (n - 1)%nat / norm n x') with (h' (n - 1)%nat).
  rewrite (E (n - 1)%nat) by lia. destruct (Req_EM_T _ 0); [reflexivity|].
  change (ApplyHouseholderVector n y v beta i / norm n x') with (h i). change (ApplyHouseholderVector n y' v' beta i / norm n x') with (h' i).
  rewrite (E i) by lia. reflexivity.
Qed.

Lemma sphere_is_manifold n rho : (2 <= n)%nat -> 0 < rho ->
  exists m, SphereManifold n = Some m /\ AmbientSize m = n /\ TangentSize m = (n - 1)%nat /\
    is_manifold m (on_sphere n rho) (off_threshold n) always2 (shorter (n - 1) PI).
Proof.
  intros N2 RP. unfold SphereManifold. destruct (Nat.leb_spec n 1) as [C|_]; [lia|]. eexists. split; [reflexivity|]. cbn [AmbientSize TangentSize].
  split; [reflexivity|]. split; [reflexivity|].
  destruct n as [|k]; [lia|]. replace (S k - 1)%nat with k by lia.
  constructor; cbn [AmbientSize TangentSize Plus PlusJacobian Minus MinusJacobian RightMultiplyByPlusJacobian]; unfold on_sphere, always2, shorter.
  - intros x x' H U. rewrite <- U. symmetry. apply norm_ext. exact H.
  - intros x d O G. destruct (ComputeHouseholderVector (S k) x) as [v beta] eqn:EH.
    pose proof (householder k x rho RP O G v beta EH) as RF. pose proof (sphere_plus_chart k v x beta rho O d) as SC.
    assert (norm (S k) (chart_plus k x (sphA v beta rho) d) = rho) as NC.
    { unfold chart_plus. destruct (Req_EM_T (norm k d) 0) as [E|E]; [exact O|]. rewrite (sphA_norm k v x beta rho RP RF), (exp_unit k d E). ring. }
    destruct (Req_EM_T (norm k d) 0) as [E|E]; (eexists; split; [reflexivity|]); [exact O|].
    rewrite <- NC. apply norm_ext. exact SC.
  - intros x d O G H. rewrite (norm_zeros k d H). destruct (Req_EM_T 0 0); [|lra]. intros i Hi. reflexivity.
  - intros x y O G OY _. destruct (ComputeHouseholderVector (S k) x) as [v beta] eqn:EH.
    pose proof (householder k x rho RP O G v beta EH) as RF. eexists. split; [reflexivity|].
    set (d := ComputeSphereManifoldMinus (S k) v beta x y).
    assert (eqn (S k) (if Req_EM_T (norm k d) 0 then x else ComputeSphereManifoldPlus (S k) v beta x d (norm k d)) y) as K.
    { intros i Hi. rewrite (sphere_plus_chart k v x beta rho O d i Hi).
      rewrite (chart_plus_ext k x _ _ _ (sphere_minus_chart k v x beta rho O y) i Hi).
      apply (sphere_plus_minus k v x beta rho RP RF); [lia|exact OY|exact Hi]. }
    destruct (Req_EM_T (norm k d) 0); exact K.
  - intros x d O G SM. destruct (ComputeHouseholderVector (S k) x) as [v beta] eqn:EH.
    pose proof (householder k x rho RP O G v beta EH) as RF.
    assert (eqn k (ComputeSphereManifoldMinus (S k) v beta x (if Req_EM_T (norm k d) 0 then x else ComputeSphereManifoldPlus (S k) v beta x d (norm k d))) d) as K.
    { intros i Hi. rewrite (sphere_minus_chart k v x beta rho O _ i Hi).
      rewrite (chart_minus_ext k _ _ _ (sphere_plus_chart k v x beta rho O d) i Hi).
      apply (chart_minus_plus k x (sphA v beta rho) (sphB v beta rho)); [exact (sphBA k v x beta rho RP RF)|exact (sphX k v x beta rho RF)|exact (sphere_degenerate_zero k)|exact SM|exact Hi]. }
    destruct (Req_EM_T (norm k d) 0) as [E|E]; (eexists; split; [reflexivity|]); exact K.
  - intros x O G. eexists. split; [reflexivity|]. unfold ComputeSphereManifoldPlusJacobian.
    destruct (ComputeHouseholderVector (S k) x) as [v beta] eqn:EH.
    pose proof (householder k x rho RP O G v beta EH) as RF.
    apply (derivative_ext (S k) k (fun d => Some (chart_plus k x (sphA v beta rho) d)) _ x x (sphA v beta rho)).
    + intro h. pose proof (sphere_plus_chart k v x beta rho O h) as SC. destruct (Req_EM_T (norm k h) 0); intros i Hi; symmetry; apply SC; exact Hi.
    + intros i Hi. reflexivity.
    + intros i j Hi Hj. unfold sphA, refl, identity. rewrite O. ring.
    + apply chart_plus_derivative. exact (sphX k v x beta rho RF).
  - intros x O G. eexists. split; [reflexivity|]. unfold ComputeSphereManifoldMinusJacobian.
    destruct (ComputeHouseholderVector (S k) x) as [v beta] eqn:EH.
    pose proof (householder k x rho RP O G v beta EH) as RF.
    apply (derivative_ext k (S k) (fun h => Some (chart_minus k (sphB v beta rho) (sphere_degenerate k) (fun i => x i + h i))) _ zeros zeros (sphB v beta rho)).
    + intro h. intros i Hi. symmetry. apply (sphere_minus_chart k v x beta rho O _ i Hi).
    + intros i Hi. reflexivity.
    + intros i j Hi Hj. unfold sphB, refl, identity. rewrite O. reflexivity.
    + apply (chart_minus_derivative k x (sphA v beta rho)); [exact (sphBA k v x beta rho RP RF)|exact (sphX k v x beta rho RF)|exact (sphere_degenerate_zero k)].
  - intros x O G. eexists. eexists. split; [reflexivity|]. split; [reflexivity|]. unfold ComputeSphereManifoldPlusJacobian, ComputeSphereManifoldMinusJacobian.
    destruct (ComputeHouseholderVector (S k) x) as [v beta] eqn:EH.
    pose proof (householder k x rho RP O G v beta EH) as RF.
    intros r c Hr Hc. rewrite <- (chart_inverse k (sphA v beta rho) (sphB v beta rho) (sphBA k v x beta rho RP RF) r c Hr Hc).
    unfold mmul. apply sumn_ext. intros j Hj. unfold sphA, sphB, refl, identity. rewrite O. ring.
  - intros x a rows O G. eexists. destruct (default_right (S k) k (fun x => Some (ComputeSphereManifoldPlusJacobian (S k) x)) x _ a rows eq_refl) as (b & E & K).
    exists b. split; [reflexivity|]. split; [exact E|exact K].
  - intros x x' d d' Hx Hd. rewrite (norm_ext k d d' Hd). destruct (Req_EM_T (norm k d') 0) as [E|E]; [exact Hx|].
    pose proof (householder_ext (S k) x x' ltac:(lia) Hx) as [Hb Hv].
    destruct (ComputeHouseholderVector (S k) x) as [v beta]. destruct (ComputeHouseholderVector (S k) x') as [v' beta']. cbn [fst snd] in Hb, Hv. subst beta'.
    cbn [eqo]. rewrite <- (norm_ext k d d' Hd) at 1. pose proof (sphere_plus_ext (S k) v v' beta x x' d d' Hv Hx) as EX.
    replace (S k - 1)%nat with k in EX by lia. exact (EX Hd).
  - intros x x' y y' Hx Hy. pose proof (householder_ext (S k) x x' ltac:(lia) Hx) as [Hb Hv].
    destruct (ComputeHouseholderVector (S k) x) as [v beta]. destruct (ComputeHouseholderVector (S k) x') as [v' beta']. cbn [fst snd] in Hb, Hv. subst beta'.
    cbn [eqo]. pose proof (sphere_minus_ext (S k) v v' beta x x' y y' ltac:(lia) Hv Hx Hy) as EX. replace (S k - 1)%nat with k in EX by lia. exact EX.
Qed.
