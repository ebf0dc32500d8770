(* The line manifold; where the laws fail. *)
From Coq Require Import Reals List Arith Lia Lra Psatz Bool.
From Verif Require Import RotationModel RotationSpec RotationProofs RotationProofs4 ManifoldModel ManifoldSpec ManifoldProofs ManifoldProofs2 ManifoldProofs4 ManifoldProofs5.
Import ListNotations.
Open Scope R_scope.

Lemma apply_zero n v beta y i : (i < n)%nat -> eqn n y zeros -> ApplyHouseholderVector n y v beta i = 0.
Proof.
  intros Hi H. rewrite (apply_ext n v beta y (fun j => 0 * y j)) by (try exact Hi; intros j Hj; rewrite (H j Hj); unfold zeros; ring).
  rewrite apply_lin. ring.
Qed.
Lemma apply_sub n v beta y w i : ApplyHouseholderVector n (fun j => y j - w j) v beta i = ApplyHouseholderVector n y v beta i - ApplyHouseholderVector n w v beta i.
Proof.
  unfold ApplyHouseholderVector. assert (dot n v (fun j => y j - w j) = dot n v y - dot n v w) as ->; [|ring].
  unfold dot. rewrite <- sumn_sub. apply sumn_ext. intros. ring.
Qed.

Section Line.
Variable k : nat.
Variables (x v : arr) (beta : R).
Let n := S k.
Let d := shift n x.
Hypothesis ND : norm n d = 1.
Hypothesis EH : ComputeHouseholderVector n d = (v, beta).
Hypothesis RF : reflector k v beta d 1.

Definition opart (h : arr) : arr := fun i => x i + ApplyHouseholderVector n (append k h 0) v beta i.
Lemma line_plus_join h : eqn (n + n) (line_plus n x h) (join n (opart h) (chart_plus k d (sphA v beta 1) (shift k h))).
Proof.
  intros i Hi. unfold line_plus. replace (n - 1)%nat with k by (unfold n; lia). fold d. rewrite EH. cbv zeta.
  rewrite blit_join by exact Hi. unfold join. destruct (Nat.ltb_spec i n) as [L|L].
  - unfold blit. cbn [Nat.leb Nat.add andb]. destruct (Nat.ltb_spec i n) as [_|C]; [|lia]. rewrite Nat.sub_0_r. unfold opart.
    destruct (Req_EM_T (norm k (shift k h)) 0); [|reflexivity]. destruct (Req_EM_T (norm k h) 0) as [Z|Z]; [|reflexivity].
    rewrite apply_zero; [ring|exact L|]. intros j Hj. unfold append, zeros. destruct (Nat.ltb_spec j k); [apply (norm_zero k h Z j); assumption|reflexivity].
  - apply (sphere_plus_chart k v d beta 1 ND (shift k h)). unfold n in *. lia.
Qed.
Definition ominus (y : arr) : arr := ApplyHouseholderVector n (fun i => y i - x i) v beta.
Lemma line_minus_join y : eqn (k + k) (line_minus n y x) (join k (ominus y) (chart_minus k (sphB v beta 1) (sphere_degenerate k) (shift n y))).
Proof.
  intros i Hi. unfold line_minus. replace (n - 1)%nat with k by (unfold n; lia). fold d. rewrite EH. cbv zeta.
  unfold blit. cbn [Nat.leb Nat.add andb]. unfold join. destruct (Nat.ltb_spec i k) as [L|L].
  - rewrite Nat.sub_0_r. reflexivity.
  - destruct (Nat.leb_spec k i); [|lia]. destruct (Nat.ltb_spec i (k + k)); [|lia]. cbn [andb].
    apply (sphere_minus_chart k v d beta 1 ND). lia.
Qed.

Lemma line_jac_block J : eqm n k J (sphA v beta 1) ->
  J = ComputeSphereManifoldPlusJacobian n d -> eqm (n + n) (k + k) (line_plus_jacobian n x) (block_diag n k (sphA v beta 1) (sphA v beta 1)).
Proof.
  intros HJ EJ r c Hr Hc. unfold line_plus_jacobian, block_diag. replace (n - 1)%nat with k by (unfold n; lia). fold d. cbv zeta. rewrite <- EJ.
  destruct (Nat.ltb_spec r n), (Nat.ltb_spec c k); cbn [andb].
  - apply HJ; assumption.
  - destruct (Nat.leb_spec n r); [lia|]. reflexivity.
  - destruct (Nat.leb_spec n r), (Nat.leb_spec k c); try lia; reflexivity.
  - destruct (Nat.leb_spec n r), (Nat.leb_spec k c); try lia. cbn [andb]. apply HJ; lia.
Qed.
Lemma plus_jac : eqm (n + n) (k + k) (line_plus_jacobian n x) (block_diag n k (sphA v beta 1) (sphA v beta 1)).
Proof.
  apply (line_jac_block (ComputeSphereManifoldPlusJacobian n d)); [|reflexivity]. intros i j Hi Hj. unfold ComputeSphereManifoldPlusJacobian. rewrite EH, ND.
  unfold sphA, refl, identity. ring.
Qed.
Lemma minus_jac : eqm (k + k) (n + n) (line_minus_jacobian n x) (block_diag k n (sphB v beta 1) (sphB v beta 1)).
Proof.
  assert (eqm k n (ComputeSphereManifoldMinusJacobian n d) (sphB v beta 1)) as HJ.
  { intros i j Hi Hj. unfold ComputeSphereManifoldMinusJacobian. rewrite EH, ND. unfold sphB, refl, identity. reflexivity. }
  intros r c Hr Hc. unfold line_minus_jacobian, block_diag. replace (n - 1)%nat with k by (unfold n; lia). fold d. cbv zeta.
  destruct (Nat.ltb_spec r k), (Nat.ltb_spec c n); cbn [andb].
  - apply HJ; assumption.
  - destruct (Nat.leb_spec k r); [lia|]. reflexivity.
  - destruct (Nat.leb_spec k r), (Nat.leb_spec n c); try lia; reflexivity.
  - destruct (Nat.leb_spec k r), (Nat.leb_spec n c); try lia. cbn [andb]. apply HJ; lia.
Qed.

Lemma opart_derivative : derivative_at_zero n k (fun h => Some (opart h)) x (sphA v beta 1).
Proof.
  intros eps He. exists 1. split; [lra|]. intros h Hh. eexists. split; [reflexivity|]. intros i Hi. unfold opart.
  rewrite <- (refl_mvec n v beta _ i Hi). assert (mvec n (refl v beta) (append k h 0) i = mvec k (sphA v beta 1) h i) as ->.
  { unfold mvec, n. cbn [sumn]. rewrite append_last. rewrite (sumn_ext k _ (fun j => sphA v beta 1 i j * h j)); [ring|].
    intros j Hj. rewrite append_lt by exact Hj. unfold sphA. ring. }
  replace (x i + mvec k (sphA v beta 1) h i - x i - mvec k (sphA v beta 1) h i) with 0 by ring. rewrite Rabs_R0. pose proof (norm_nonneg k h). nra.
Qed.
Lemma ominus_derivative : derivative_at_zero k n (fun h => Some (ominus (fun i => x i + h i))) zeros (sphB v beta 1).
Proof.
  intros eps He. exists 1. split; [lra|]. intros h Hh. eexists. split; [reflexivity|]. intros i Hi. unfold ominus.
  assert (i < n)%nat as Hi' by (unfold n; lia).
  rewrite (apply_ext n v beta _ h) by (try exact Hi'; intros j Hj; ring). rewrite <- (refl_mvec n v beta _ i Hi').
  assert (mvec n (refl v beta) h i = mvec n (sphB v beta 1) h i) as ->.
  { apply sumn_ext. intros j Hj. unfold sphB. field. }
  unfold zeros. replace (mvec n (sphB v beta 1) h i - 0 - mvec n (sphB v beta 1) h i) with 0 by ring. rewrite Rabs_R0. pose proof (norm_nonneg n h). nra.
Qed.

(* the last entry of H y is d . y *)
Lemma apply_last y : ApplyHouseholderVector n y v beta k = dot n d y.
Proof.
  destruct RF as [_ C]. unfold ApplyHouseholderVector. unfold dot at 2. rewrite (sumn_ext n _ (fun j => y j * identity j k - (beta * v k) * (v j * y j))).
  - rewrite sumn_sub, sumn_scal, sumn_identity_r by (unfold n; lia). unfold dot. ring.
  - intros j Hj. rewrite <- (C j Hj). ring.
Qed.
(* H applied to the last unit vector is d *)
Lemma apply_ek i : (i < n)%nat -> ApplyHouseholderVector n (ek k) v beta i = d i.
Proof.
  intro Hi. destruct RF as [_ C]. rewrite <- (C i Hi). unfold ApplyHouseholderVector, ek, dot.
  rewrite (sumn_identity_r n (fun j => v j) k) by (unfold n; lia). ring.
Qed.
Lemma opart_ominus y i : (i < n)%nat ->
  opart (ominus y) i = y i - dot n d (fun j => y j - x j) * d i.
Proof.
  intro Hi. unfold opart, ominus. set (e := fun j => y j - x j). set (he := ApplyHouseholderVector n e v beta).
  rewrite (apply_ext n v beta _ (fun j => he j - he k * ek k j)); [|
    intros j Hj; unfold ek; destruct (Nat.eq_dec j k) as [->|Nj]; [rewrite append_last, identity_same; ring|rewrite append_lt, identity_diff by (unfold n in Hj; lia); ring]|exact Hi].
  rewrite apply_sub. rewrite apply_lin, (apply_ek i Hi). unfold he at 1. rewrite apply_twice by apply RF. unfold he. rewrite apply_last. unfold e. ring.
Qed.
Lemma ominus_opart h z i : eqn n z (opart h) -> (i < k)%nat -> ominus z i = h i.
Proof.
  intros Ez Hi. unfold ominus. rewrite (apply_ext n v beta _ (ApplyHouseholderVector n (append k h 0) v beta)).
  - rewrite apply_twice by apply RF. apply append_lt. exact Hi.
  - intros j Hj. rewrite (Ez j Hj). unfold opart. ring.
  - unfold n. lia.
Qed.
End Line.

Lemma line_sizes n m : LineManifold n = Some m -> (2 <= n)%nat /\ AmbientSize m = (n + n)%nat /\ TangentSize m = (n - 1 + (n - 1))%nat.
Proof.
  unfold LineManifold. destruct (Nat.leb_spec n 1) as [C|C]; [discriminate|]. intro E. injection E as <-. cbn [AmbientSize TangentSize]. lia.
Qed.

(* what Plus(x, Minus(y, x)) is: the direction of y, and the projection of the point of
   y on the plane through the point of x perpendicular to the direction of x *)
Lemma line_plus_minus n x y : (2 <= n)%nat -> on_lines n x -> line_regular n x -> on_lines n y ->
  eqn (n + n) (line_plus n x (line_minus n y x))
    (join n (fun i => y i - dot n (shift n x) (fun j => y j - x j) * shift n x i) (shift n y)).
Proof.
  intros N2 O G OY. destruct n as [|k]; [lia|]. unfold on_lines, line_regular in *.
  destruct (ComputeHouseholderVector (S k) (shift (S k) x)) as [v beta] eqn:EH.
  pose proof (householder k (shift (S k) x) 1 ltac:(lra) O G v beta EH) as RF.
  intros i Hi. rewrite (line_plus_join k x v beta O EH _ i Hi). unfold join. destruct (Nat.ltb_spec i (S k)) as [L|L].
  - unfold opart. rewrite (apply_ext (S k) v beta _ (append k (ominus k x v beta y) 0)).
    + pose proof (opart_ominus k x v beta RF y i L) as E. unfold opart in E. exact E.
    + intros j Hj. apply append_ext; [|reflexivity]. intros l Hl. rewrite (line_minus_join k x v beta O EH y l) by lia. apply join_lt. exact Hl.
    + exact L.
  - rewrite (chart_plus_ext k (shift (S k) x) _ _ (chart_minus k (sphB v beta 1) (sphere_degenerate k) (shift (S k) y))).
    + apply (sphere_plus_minus k v (shift (S k) x) beta 1 ltac:(lra) RF); [lia|exact OY|lia].
    + intros j Hj. unfold shift at 1. rewrite (line_minus_join k x v beta O EH y (k + j)%nat) by lia. apply join_ge.
    + lia.
Qed.

Lemma line_is_manifold n m : LineManifold n = Some m ->
  is_manifold m (on_lines n) (line_regular n) (perpendicular_offset n) (fun d => shorter (n - 1) PI (shift (n - 1) d)).
Proof.
  intro E. destruct (line_sizes n m E) as (N2 & SA & ST). unfold LineManifold in E. destruct (Nat.leb_spec n 1) as [C|_]; [discriminate|]. injection E as E.
  constructor; rewrite ?SA, ?ST; subst m; cbn [Plus PlusJacobian Minus MinusJacobian RightMultiplyByPlusJacobian AmbientSize TangentSize].
  - intros x x' H O. unfold on_lines in *. rewrite <- O. apply norm_ext. intros i Hi. symmetry. apply H. lia.
  - intros x h O G. eexists. split; [reflexivity|]. destruct n as [|k]; [lia|]. unfold on_lines, line_regular in *.
    destruct (ComputeHouseholderVector (S k) (shift (S k) x)) as [v beta] eqn:EH.
    pose proof (householder k (shift (S k) x) 1 ltac:(lra) O G v beta EH) as RF.
    rewrite (norm_ext (S k) _ (chart_plus k (shift (S k) x) (sphA v beta 1) (shift k h))).
    + unfold chart_plus. destruct (Req_EM_T _ 0) as [E|E]; [exact O|]. rewrite (sphA_norm k v (shift (S k) x) beta 1 ltac:(lra) RF), exp_unit by exact E. ring.
    + intros i Hi. unfold shift at 1. rewrite (line_plus_join k x v beta O EH h) by lia. apply join_ge.
  - intros x h O G H. destruct n as [|k]; [lia|]. unfold on_lines, line_regular in *.
    destruct (ComputeHouseholderVector (S k) (shift (S k) x)) as [v beta] eqn:EH.
    replace (S k - 1)%nat with k in * by lia. cbn [eqo]. intros i Hi. rewrite (line_plus_join k x v beta O EH h i Hi). unfold join. destruct (Nat.ltb_spec i (S k)) as [L|L].
    + unfold opart. rewrite apply_zero; [ring|exact L|]. intros j Hj. unfold append, zeros. destruct (Nat.ltb_spec j k); [apply (H j); lia|reflexivity].
    + rewrite chart_zero; [unfold shift; f_equal; lia|]. intros j Hj. unfold shift. apply (H (k + j)%nat). lia.
  - intros x y O G OY R. eexists. split; [reflexivity|]. cbn [eqo]. intros i Hi. rewrite (line_plus_minus n x y N2 O G OY i Hi).
    unfold join. destruct (Nat.ltb_spec i n); [|unfold shift; f_equal; lia].
    assert (dot n (shift n x) (fun j => y j - x j) = 0) as ->; [|ring]. unfold perpendicular_offset in R. rewrite <- R. apply sumn_ext. intros. ring.
  - intros x h O G SM. eexists. split; [reflexivity|]. destruct n as [|k]; [lia|]. unfold on_lines, line_regular in *.
    destruct (ComputeHouseholderVector (S k) (shift (S k) x)) as [v beta] eqn:EH.
    pose proof (householder k (shift (S k) x) 1 ltac:(lra) O G v beta EH) as RF.
    replace (S k - 1)%nat with k in * by lia. cbn [eqo]. intros i Hi. rewrite (line_minus_join k x v beta O EH _ i Hi). unfold join. destruct (Nat.ltb_spec i k) as [L|L].
    + apply (ominus_opart k x v beta RF h); [|exact L]. intros j Hj. rewrite (line_plus_join k x v beta O EH h j) by lia. apply join_lt. exact Hj.
    + transitivity (chart_minus k (sphB v beta 1) (sphere_degenerate k) (chart_plus k (shift (S k) x) (sphA v beta 1) (shift k h)) (i - k)%nat).
      * apply chart_minus_ext; [|lia]. intros j Hj. unfold shift at 1. rewrite (line_plus_join k x v beta O EH h) by lia. apply join_ge.
      * rewrite (chart_minus_plus k (shift (S k) x) (sphA v beta 1) (sphB v beta 1) (sphBA k v _ beta 1 ltac:(lra) RF) (sphX k v _ beta 1 RF)
          (sphere_degenerate k) (sphere_degenerate_zero k) (shift k h) SM) by lia. unfold shift. f_equal. lia.
  - intros x O G. eexists. split; [reflexivity|]. destruct n as [|k]; [lia|]. unfold on_lines, line_regular in *.
    destruct (ComputeHouseholderVector (S k) (shift (S k) x)) as [v beta] eqn:EH.
    pose proof (householder k (shift (S k) x) 1 ltac:(lra) O G v beta EH) as RF. replace (S k - 1)%nat with k in * by lia.
    apply (derivative_ext (S k + S k) (k + k) (fun h => join_opt (S k) (Some (opart k x v beta h)) (Some (chart_plus k (shift (S k) x) (sphA v beta 1) (shift k h)))) _ x x
      (block_diag (S k) k (sphA v beta 1) (sphA v beta 1))).
    + intro h. cbn [join_opt eqo]. intros i Hi. symmetry. apply (line_plus_join k x v beta O EH h i Hi).
    + intros i Hi. reflexivity.
    + intros i j Hi Hj. symmetry. apply (plus_jac k x v beta O EH i j Hi Hj).
    + apply (deriv_block (S k) (S k) k k _ (fun h => Some (opart k x v beta h)) (fun h => Some (chart_plus k (shift (S k) x) (sphA v beta 1) h))); [reflexivity| |].
      * apply opart_derivative.
      * apply chart_plus_derivative. apply (sphX k v _ beta 1 RF).
  - intros x O G. eexists. split; [reflexivity|]. destruct n as [|k]; [lia|]. unfold on_lines, line_regular in *.
    destruct (ComputeHouseholderVector (S k) (shift (S k) x)) as [v beta] eqn:EH.
    pose proof (householder k (shift (S k) x) 1 ltac:(lra) O G v beta EH) as RF. replace (S k - 1)%nat with k in * by lia.
    apply (derivative_ext (k + k) (S k + S k) (fun h => join_opt k (Some (ominus k x v beta (fun i => x i + h i)))
        (Some (chart_minus k (sphB v beta 1) (sphere_degenerate k) (fun i => shift (S k) x i + shift (S k) h i)))) _ zeros zeros
      (block_diag k (S k) (sphB v beta 1) (sphB v beta 1))).
    + intro h. cbn [join_opt eqo]. intros i Hi. symmetry. apply (line_minus_join k x v beta O EH (fun i => x i + h i) i Hi).
    + intros i Hi. reflexivity.
    + intros i j Hi Hj. symmetry. apply (minus_jac k x v beta O EH i j Hi Hj).
    + apply (deriv_block k k (S k) (S k) _ (fun h => Some (ominus k x v beta (fun i => x i + h i)))
        (fun h => Some (chart_minus k (sphB v beta 1) (sphere_degenerate k) (fun i => shift (S k) x i + h i)))); [reflexivity| |].
      * apply ominus_derivative.
      * apply (chart_minus_derivative k (shift (S k) x) (sphA v beta 1) (sphB v beta 1)); [exact (sphBA k v _ beta 1 ltac:(lra) RF)|exact (sphX k v _ beta 1 RF)|exact (sphere_degenerate_zero k)].
  - intros x O G. eexists. eexists. split; [reflexivity|]. split; [reflexivity|]. destruct n as [|k]; [lia|]. unfold on_lines, line_regular in *.
    destruct (ComputeHouseholderVector (S k) (shift (S k) x)) as [v beta] eqn:EH.
    pose proof (householder k (shift (S k) x) 1 ltac:(lra) O G v beta EH) as RF. replace (S k - 1)%nat with k in * by lia.
    intros r c Hr Hc. pose proof (chart_inverse k (sphA v beta 1) (sphB v beta 1) (sphBA k v _ beta 1 ltac:(lra) RF)) as CI.
    rewrite <- (block_diag_mmul (S k) (S k) k k (sphB v beta 1) (sphB v beta 1) (sphA v beta 1) (sphA v beta 1) CI CI r c Hr Hc).
    unfold mmul. apply sumn_ext. intros j Hj. rewrite (plus_jac k x v beta O EH j c Hj Hc), (minus_jac k x v beta O EH r j Hr Hj). reflexivity.
  - intros x a rows O G. eexists.
    destruct (default_right (2 * n) (2 * (n - 1)) (fun x => Some (line_plus_jacobian n x)) x _ a rows eq_refl) as (b & Eb & Kb).
    exists b. split; [reflexivity|]. split; [exact Eb|]. replace (n + n)%nat with (2 * n)%nat by lia. replace (n - 1 + (n - 1))%nat with (2 * (n - 1))%nat by lia. exact Kb.
  - intros x x' h h' Hx Hh. cbn [eqo]. unfold line_plus.
    pose proof (eqn_shift n n x x' Hx) as Hs. pose proof (eqn_shift (n - 1) (n - 1) h h' Hh) as Ht. pose proof (eqn_le (n - 1 + (n - 1)) (n - 1) h h' ltac:(lia) Hh) as Ho.
    pose proof (householder_ext n _ _ ltac:(lia) Hs) as [Hb Hv].
    destruct (ComputeHouseholderVector n (shift n x)) as [v beta]. destruct (ComputeHouseholderVector n (shift n x')) as [v' beta']. cbn [fst snd] in Hb, Hv. subst beta'.
    cbv zeta. pose proof (norm_ext (n - 1) (shift (n - 1) h) (shift (n - 1) h') Ht) as Q1. pose proof (norm_ext (n - 1) h h' Ho) as Q2. intros i Hi. rewrite !blit_join by lia. unfold join.
    assert (forall j, (j < n)%nat -> ApplyHouseholderVector n (append (n - 1) h 0) v beta j = ApplyHouseholderVector n (append (n - 1) h' 0) v' beta j) as EA.
    { intros j Hj. apply apply_full_ext; [|exact Hv|exact Hj]. intros l Hl. apply append_ext; [exact Ho|reflexivity]. }
    destruct (Nat.ltb_spec i n) as [L|L].
    + unfold blit. cbn [Nat.leb Nat.add andb]. destruct (Nat.ltb_spec i n); [|lia]. rewrite Nat.sub_0_r.
      destruct (Req_EM_T (norm (n - 1) (shift (n - 1) h)) 0), (Req_EM_T (norm (n - 1) (shift (n - 1) h')) 0); try congruence;
        [destruct (Req_EM_T (norm (n - 1) h) 0), (Req_EM_T (norm (n - 1) h') 0); try congruence|]; rewrite ?(EA i L), ?(Hx i) by lia; reflexivity.
    + destruct (Req_EM_T (norm (n - 1) (shift (n - 1) h)) 0), (Req_EM_T (norm (n - 1) (shift (n - 1) h')) 0); try congruence; [apply Hs; lia|]. apply sphere_plus_ext; [exact Hv|exact Hs|exact Ht|lia].
  - intros x x' y y' Hx Hy. cbn [eqo]. unfold line_minus.
    pose proof (eqn_shift n n x x' Hx) as Hs. pose proof (eqn_shift n n y y' Hy) as Ht.
    pose proof (householder_ext n _ _ ltac:(lia) Hs) as [Hb Hv].
    destruct (ComputeHouseholderVector n (shift n x)) as [v beta]. destruct (ComputeHouseholderVector n (shift n x')) as [v' beta']. cbn [fst snd] in Hb, Hv. subst beta'.
    cbv zeta. intros i Hi. unfold blit. cbn [Nat.leb Nat.add andb]. destruct (Nat.ltb_spec i (n - 1)) as [L|L].
    + apply apply_full_ext; [|exact Hv|lia]. intros j Hj. rewrite (Hx j), (Hy j) by lia. reflexivity.
    + destruct (Nat.leb_spec (n - 1) i); [|lia]. destruct (Nat.ltb_spec i (n - 1 + (n - 1))); [|lia]. cbn [andb].
      apply sphere_minus_ext; [lia|exact Hv|exact Hs|exact Ht|lia].
Qed.
