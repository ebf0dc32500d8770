(** Proofs about polynomials: global minimum, interpolation. *)
Require Import Reals List Lra Lia Psatz ZArith Classical.
From Coquelicot Require Import Coquelicot.
From Verif Require Import PolynomialModel PolynomialSpec PolynomialProofs PolynomialProofs2.
Import ListNotations.
Open Scope R_scope.

Definition dsum (p : poly) (x : R) : R := power_sum (diff_loop p) x.
Lemma eval_dsum p x : eval (differentiate p) x = dsum p x.
Proof. rewrite horner. apply diff_sum. Qed.
Lemma derive_dsum p x : is_derive (eval p) x (dsum p x).
Proof. rewrite <- eval_dsum. apply eval_derive. Qed.

Lemma eval_continuity p x : continuity_pt (eval p) x.
Proof.
  apply derivable_continuous_pt. exists (dsum p x).
  apply is_derive_Reals. apply derive_dsum.
Qed.

(** the ends and the interior critical points decide *)
Lemma critical_min p a b m : a <= b -> m <= eval p a -> m <= eval p b ->
  (forall x, a <= x <= b -> dsum p x = 0 -> m <= eval p x) ->
  forall y, a <= y <= b -> m <= eval p y.
Proof.
  intros Hab Ha Hb Hc y Hy.
  destruct (continuity_ab_min (eval p) a b Hab) as (z & Hz & Hzi).
  { intros c Hcc. apply eval_continuity. }
  apply Rle_trans with (eval p z); [|apply Hz; auto].
  destruct (Req_EM_T z a) as [->|Na]; auto. destruct (Req_EM_T z b) as [->|Nb]; auto.
  apply Hc; auto.
  assert (Hd : derivable_pt_lim (eval p) z (dsum p z)).
  { apply is_derive_Reals. apply derive_dsum. }
  pose (pr := exist (fun l => derivable_pt_abs (eval p) z l) (dsum p z) Hd : derivable_pt (eval p) z).
  assert (K : derive_pt (eval p) z pr = 0).
  { apply (deriv_minimum (eval p) a b z pr); try lra. intros x H1 H2. apply Hz. lra. }
  exact K.
Qed.

Lemma const_of_dzero p : (forall x, dsum p x = 0) -> forall x y, eval p x = eval p y.
Proof.
  intros H x y. destruct (Req_EM_T x y) as [->|N]; auto.
  assert (Hd : forall t, is_derive (eval p) t ((fun _ => 0) t)).
  { intros t. rewrite <- (H t). apply derive_dsum. }
  destruct (MVT_gen (eval p) x y (fun _ => 0)) as (c & _ & E).
  - intros t _. apply Hd.
  - intros t _. apply eval_continuity.
  - lra.
Qed.

Lemma find_roots_no_eig ex f eig p : (length p <= 3)%nat ->
  find_polynomial_roots ex f eig p = find_polynomial_roots ex f (fun _ _ => None) p.
Proof.
  intros H. unfold find_polynomial_roots. destruct p as [|c q]; auto.
  assert (L : (length (remove_leading_zeros (c :: q)) <= 3)%nat).
  { clear -H. revert H. generalize (c :: q). clear c q.
    induction l as [|c [|d q] IH]; auto. intros H.
    change (remove_leading_zeros (c :: d :: q))
      with (if Req_EM_T c 0 then remove_leading_zeros (d :: q) else c :: d :: q).
    destruct (Req_EM_T c 0); auto. apply IH. cbn [length] in *. lia. }
  destruct (remove_leading_zeros (c :: q)) as [|x [|y [|z [|w l]]]]; auto.
  cbn [length] in L. lia.
Qed.
Lemma find_roots_small ex f eig p : p <> [] -> (length p <= 3)%nat ->
  exists l, find_polynomial_roots ex f eig p = Some l.
Proof.
  intros Hn H. rewrite find_roots_no_eig by auto. unfold find_polynomial_roots. destruct p as [|c q]; [congruence|].
  assert (L : (length (remove_leading_zeros (c :: q)) <= 3)%nat).
  { clear -H. revert H. generalize (c :: q). clear c q.
    induction l as [|c [|d q] IH]; auto. intros H.
    change (remove_leading_zeros (c :: d :: q))
      with (if Req_EM_T c 0 then remove_leading_zeros (d :: q) else c :: d :: q).
    destruct (Req_EM_T c 0); auto. apply IH. cbn [length] in *. lia. }
  destruct (remove_leading_zeros (c :: q)) as [|x [|y [|z [|w l]]]]; eauto.
  cbn [length] in L. lia.
Qed.

Lemma no_eig_ok : eigensolver_ok (fun _ _ => None).
Proof. intros n m l x H. discriminate. Qed.

Lemma diff_length p : (2 <= length p)%nat -> length (differentiate p) = (length p - 1)%nat.
Proof. destruct p as [|c [|d q]]; intros H; cbn [length] in H; try lia. apply diff_loop_length. Qed.

Lemma minimize_global_gen ex f eig p a b : a <= b -> eigensolver_ok eig ->
  ((3 <= length p)%nat -> find_polynomial_roots ex f eig (differentiate p) <> None) ->
  let r := minimize_polynomial ex f eig p a b in
  minimum_on (eval p) a b (fst r) /\ snd r = eval p (fst r).
Proof.
  intros Hab He Hf r. destruct (minimize_basic ex f eig p a b Hab) as (H1 & H2 & H3 & _ & H5).
  fold r in H1, H2, H3, H5. clearbody r. destruct H1 as [H1 H1'].
  split; [|auto]. split; [auto|]. rewrite <- H1'.
  destruct (classic (exists y, dsum p y <> 0)) as [Hy|Hy].
  2:{ intros y _. rewrite (const_of_dzero p) with (y := a); auto.
      intros x. destruct (Req_EM_T (dsum p x) 0); auto. exfalso. eauto. }
  apply critical_min; auto. intros x Hx Hd.
  destruct (le_lt_dec 3 (length p)) as [L|L].
  - destruct (find_polynomial_roots ex f eig (differentiate p)) as [l|] eqn:E; [|exfalso; apply Hf; auto].
    apply (H5 l x (Some 0) L eq_refl); auto.
    apply (find_roots_exact ex f eig (differentiate p)); auto.
    + destruct Hy as (y & Hy). exists y. rewrite diff_sum. exact Hy.
    + rewrite diff_sum. exact Hd.
  - exfalso. destruct Hy as (y & Hy). apply Hy. revert Hd. unfold dsum.
    destruct p as [|c [|d [|e q]]]; cbn [length] in L; try lia; cbn; lra.
Qed.

Lemma minimize_no_eig ex f eig p a b : (length p <= 4)%nat ->
  minimize_polynomial ex f eig p a b = minimize_polynomial ex f (fun _ _ => None) p a b.
Proof.
  intros L. unfold minimize_polynomial. destruct (Nat.leb_spec (length p) 2); auto.
  rewrite find_roots_no_eig; auto. rewrite diff_length by lia. lia.
Qed.

Lemma minimize_global_small ex f eig p a b : a <= b -> (length p <= 4)%nat ->
  let r := minimize_polynomial ex f eig p a b in
  minimum_on (eval p) a b (fst r) /\ snd r = eval p (fst r).
Proof.
  intros Hab L. cbv zeta. rewrite minimize_no_eig by auto.
  apply minimize_global_gen; auto using no_eig_ok.
  intros L3. assert (Hl := diff_length p ltac:(lia)).
  destruct (find_roots_small ex f (fun _ _ => None) (differentiate p)) as (l & El).
  - intros K. rewrite K in Hl. cbn [length] in Hl. lia.
  - lia.
  - congruence.
Qed.

(** ** interpolation *)
Lemma row_value x : forall p, row_dot (value_row x (length p)) p = power_sum p x.
Proof. induction p as [|c q IH]; auto. cbn [length value_row row_dot power_sum]. rewrite IH. ring. Qed.
Lemma row_gradient x : forall p, row_dot (gradient_row x (length p)) p = dsum p x.
Proof.
  unfold dsum. induction p as [|c [|d q] IH]; [reflexivity|cbn; ring|].
  change (diff_loop (c :: d :: q)) with (INR (length (d :: q)) * c :: diff_loop (d :: q)).
  change (gradient_row x (length (c :: d :: q)))
    with (INR (length (d :: q)) * x ^ length q :: gradient_row x (length (d :: q))).
  cbn [row_dot]. rewrite IH. cbn [power_sum]. rewrite diff_loop_length. cbn [length].
  replace (S (length q) - 1)%nat with (length q) by lia. ring.
Qed.

Definition meets (p : poly) (s : sample) : Prop :=
  (forall v, s_value s = Some v -> power_sum p (s_x s) = v) /\
  (forall g, s_gradient s = Some g -> dsum p (s_x s) = g).
Lemma meets_matches p s : meets p s <-> matches p s.
Proof.
  unfold meets, matches. split; intros [H1 H2]; split.
  - intros v Hv. rewrite horner. auto.
  - intros g Hg. rewrite <- (H2 g Hg). apply derive_dsum.
  - intros v Hv. rewrite <- horner. auto.
  - intros g Hg. specialize (H2 g Hg).
    transitivity (Derive (eval p) (s_x s)); [symmetry|]; apply is_derive_unique; auto. apply derive_dsum.
Qed.

Lemma equations_meets n l p : length p = n ->
  (forall e, In e (equations n l) -> row_dot (fst e) p = snd e) <-> (forall s, In s l -> meets p s).
Proof.
  intros Hl. induction l as [|s l IH]; cbn [equations].
  - split; intros H x [].
  - split.
    + intros H t [<-|Ht].
      * split; intros v Hv.
        -- rewrite Hv in H. rewrite <- row_value, Hl. apply (H (_, v)). left. reflexivity.
        -- rewrite Hv in H. rewrite <- row_gradient, Hl. apply (H (_, v)).
           apply in_or_app. right. left. reflexivity.
      * apply IH; auto. intros e He. apply H. apply in_or_app. right. apply in_or_app. right. auto.
    + intros H e He. apply in_app_or in He. destruct He as [He|He]; [|apply in_app_or in He; destruct He as [He|He]].
      * destruct (s_value s) as [v|] eqn:Ev; [|destruct He]. destruct He as [<-|[]]. cbn [fst snd].
        rewrite <- Hl, row_value. apply (H s); [left; auto|auto].
      * destruct (s_gradient s) as [g|] eqn:Eg; [|destruct He]. destruct He as [<-|[]]. cbn [fst snd].
        rewrite <- Hl, row_gradient. apply (H s); [left; auto|auto].
      * apply IH; auto. intros t Ht. apply H. right. auto.
Qed.
Lemma equations_length n l : length (equations n l) = num_constraints l.
Proof.
  induction l as [|s l IH]; auto. cbn [equations num_constraints]. rewrite !app_length, IH.
  destruct (s_value s), (s_gradient s); cbn [length]; lia.
Qed.

Lemma interpolation_if_exists solve l p : solver_ok solve (equations (num_constraints l) l) -> length p = num_constraints l ->
  (forall s, In s l -> meets p s) ->
  length (interpolating_polynomial solve l) = num_constraints l /\
  forall s, In s l -> meets (interpolating_polynomial solve l) s.
Proof.
  intros Hs Hl Hm. unfold interpolating_polynomial.
  destruct (Hs p) as [A B]; rewrite equations_length in *.
  - split; auto. apply equations_meets; auto.
  - split; auto. apply (equations_meets (num_constraints l)); auto.
Qed.

(** *** list polynomials as a vector space with multiplication by x - a *)
Fixpoint padd (p q : poly) : poly :=
  match p, q with a :: p', b :: q' => a + b :: padd p' q' | _, _ => [] end.
Definition pscal (c : R) (p : poly) : poly := map (Rmult c) p.
Definition plin (a : R) (p : poly) : poly := padd (p ++ [0]) (0 :: pscal (- a) p).

Lemma padd_length p : forall q, length p = length q -> length (padd p q) = length p.
Proof. induction p as [|a p IH]; intros [|b q] H; cbn [padd length] in *; auto; try discriminate; f_equal; auto. Qed.
Lemma padd_sum p x : forall q, length p = length q -> power_sum (padd p q) x = power_sum p x + power_sum q x.
Proof.
  induction p as [|a p IH]; intros [|b q] H; cbn [padd power_sum length] in *; try discriminate; try ring.
  injection H as H. rewrite IH, padd_length, H by auto. ring.
Qed.
Lemma pscal_sum c p x : power_sum (pscal c p) x = c * power_sum p x.
Proof.
  induction p as [|a p IH]; cbn [pscal map power_sum]; [ring|]. unfold pscal in *.
  rewrite IH, map_length. ring.
Qed.
Lemma psnoc_sum p x : power_sum (p ++ [0]) x = x * power_sum p x.
Proof.
  induction p as [|a p IH]; cbn [app power_sum]; [cbn; ring|].
  rewrite IH, app_length. cbn [length]. rewrite Nat.add_1_r. cbn [pow]. ring.
Qed.
Lemma plin_length a p : length (plin a p) = S (length p).
Proof.
  unfold plin. rewrite padd_length; rewrite ?app_length; cbn [length]; unfold pscal; rewrite ?map_length; lia.
Qed.
Lemma plin_sum a p x : power_sum (plin a p) x = (x - a) * power_sum p x.
Proof.
  unfold plin. rewrite padd_sum.
  - rewrite psnoc_sum. cbn [power_sum]. rewrite pscal_sum. ring.
  - rewrite app_length. unfold pscal. cbn [length]. rewrite map_length. lia.
Qed.

Lemma dsum_ext p q x : (forall t, power_sum p t = power_sum q t) -> dsum p x = dsum q x.
Proof.
  intros H. transitivity (Derive (power_sum p) x).
  - symmetry. apply is_derive_unique. apply power_sum_derive.
  - apply is_derive_unique. apply (is_derive_ext (power_sum q)); [intros; symmetry; apply H|]. apply power_sum_derive.
Qed.
Lemma dsum_of p f d x : (forall t, power_sum p t = f t) -> is_derive f x d -> dsum p x = d.
Proof.
  intros H Hd. transitivity (Derive f x).
  - transitivity (Derive (power_sum p) x).
    + symmetry. apply is_derive_unique. apply power_sum_derive.
    + apply Derive_ext. exact H.
  - apply is_derive_unique. exact Hd.
Qed.
Lemma padd_dsum p q x : length p = length q -> dsum (padd p q) x = dsum p x + dsum q x.
Proof.
  intros H. apply (dsum_of _ (fun t => plus (power_sum p t) (power_sum q t))).
  - intros t. apply padd_sum. auto.
  - apply (is_derive_plus (power_sum p) (power_sum q)); apply power_sum_derive.
Qed.
Lemma pscal_dsum c p x : dsum (pscal c p) x = c * dsum p x.
Proof.
  apply (dsum_of _ (fun t => scal c (power_sum p t))).
  - intros t. apply pscal_sum.
  - apply (is_derive_scal (power_sum p)). apply power_sum_derive.
Qed.
Lemma lin_mult_dsum p q a x : (forall t, power_sum p t = (t - a) * power_sum q t) ->
  dsum p x = power_sum q x + (x - a) * dsum q x.
Proof.
  intros H. apply (dsum_of _ _ _ _ H).
  evar_last.
  - apply (is_derive_mult (fun t => t - a) (power_sum q) x 1 (dsum q x)).
    + auto_derive; auto.
    + apply power_sum_derive.
    + intros; apply Rmult_comm.
  - unfold plus, mult; cbn. ring.
Qed.
Lemma cons0_sum p x : power_sum (0 :: p) x = power_sum p x.
Proof. cbn [power_sum]. ring. Qed.
Lemma cons0_dsum p x : dsum (0 :: p) x = dsum p x.
Proof. apply dsum_ext. intros. apply cons0_sum. Qed.

(** *** existence *)
Lemma hermite_exists l : hermite l -> exists p w,
  length p = num_constraints l /\ length w = S (num_constraints l) /\
  (forall s, In s l -> meets p s) /\
  (forall s, In s l -> (s_value s <> None -> power_sum w (s_x s) = 0) /\
                       (s_gradient s <> None -> dsum w (s_x s) = 0)) /\
  (forall y, ~ In y (map s_x l) -> power_sum w y <> 0).
Proof.
  induction l as [|s l IH]; intros [Hd Hg].
  - exists [], [1]. cbn. split; [auto|split; [auto|split; [intros s []|split; [intros s []|]]]].
    intros y _. lra.
  - destruct IH as (p & w & Lp & Lw & Hm & Hw & Hnz).
    { split; [cbn in Hd; inversion Hd; auto|]. intros t Ht. apply Hg. right; auto. }
    assert (Hxs : ~ In (s_x s) (map s_x l)) by (cbn in Hd; inversion Hd; auto).
    assert (Hw0 := Hnz _ Hxs).
    destruct (s_value s) as [v|] eqn:Ev.
    2:{ assert (Eg : s_gradient s = None).
        { destruct (s_gradient s) eqn:E; auto. exfalso. apply (Hg s); [left; auto|congruence|auto]. }
        exists p, w. cbn [num_constraints]. rewrite Ev, Eg. split; [lia|split; [lia|split; [|split]]].
        - intros t [<-|Ht]; auto. split; intros; congruence.
        - intros t [<-|Ht]; [split; intros; congruence|auto].
        - intros y Hy. apply Hnz. intros K. apply Hy. right. auto. }
    set (a := s_x s) in *.
    pose (p1 := padd (0 :: p) (pscal ((v - power_sum p a) / power_sum w a) w)).
    pose (w1 := plin a w).
    assert (Lc : forall c, length (0 :: p) = length (pscal c w)).
    { intros c. unfold pscal. rewrite map_length. cbn [length]. lia. }
    assert (Lp1 : length p1 = S (num_constraints l)).
    { unfold p1. rewrite padd_length by auto. cbn [length]. lia. }
    assert (Lw1 : length w1 = S (S (num_constraints l))) by (unfold w1; rewrite plin_length; lia).
    assert (Ep1 : forall t, power_sum p1 t = power_sum p t + (v - power_sum p a) / power_sum w a * power_sum w t).
    { intros t. unfold p1. rewrite padd_sum, cons0_sum, pscal_sum by auto. ring. }
    assert (Dp1 : forall t, dsum p1 t = dsum p t + (v - power_sum p a) / power_sum w a * dsum w t).
    { intros t. unfold p1. rewrite padd_dsum, cons0_dsum, pscal_dsum by auto. ring. }
    assert (Ew1 : forall t, power_sum w1 t = (t - a) * power_sum w t) by (intros; apply plin_sum).
    assert (Dw1 : forall t, dsum w1 t = power_sum w t + (t - a) * dsum w t) by (intros; apply lin_mult_dsum; auto).
    assert (Va : power_sum p1 a = v). { rewrite Ep1. field. auto. }
    assert (Hm1 : forall t, In t l -> meets p1 t).
    { intros t Ht. destruct (Hm t Ht) as [A B]. destruct (Hw t Ht) as [C D]. split.
      - intros u Hu. rewrite Ep1, (A u Hu), C by congruence. ring.
      - intros u Hu. rewrite Dp1, (B u Hu), D by congruence. ring. }
    assert (Hw1 : forall t, In t l -> (s_value t <> None -> power_sum w1 (s_x t) = 0) /\
                       (s_gradient t <> None -> dsum w1 (s_x t) = 0)).
    { intros t Ht. destruct (Hw t Ht) as [C D]. split; intros K.
      - rewrite Ew1, C by auto. ring.
      - rewrite Dw1, C, D by (auto; apply Hg; auto; right; auto). ring. }
    assert (Hnz1 : forall y, ~ In y (map s_x (s :: l)) -> power_sum w1 y <> 0).
    { intros y Hy. rewrite Ew1. apply Rmult_integral_contrapositive_currified.
      - intros K. apply Hy. left. fold a. lra.
      - apply Hnz. intros K. apply Hy. right. auto. }
    assert (Wa : power_sum w1 a = 0) by (rewrite Ew1; ring).
    destruct (s_gradient s) as [g|] eqn:Eg.
    + assert (Da : dsum w1 a = power_sum w a) by (rewrite Dw1; ring).
      pose (p2 := padd (0 :: p1) (pscal ((g - dsum p1 a) / power_sum w a) w1)).
      pose (w2 := plin a w1).
      assert (Lc2 : forall c, length (0 :: p1) = length (pscal c w1)).
      { intros c. unfold pscal. rewrite map_length. cbn [length]. lia. }
      assert (Ep2 : forall t, power_sum p2 t = power_sum p1 t + (g - dsum p1 a) / power_sum w a * power_sum w1 t).
      { intros t. unfold p2. rewrite padd_sum, cons0_sum, pscal_sum by auto. ring. }
      assert (Dp2 : forall t, dsum p2 t = dsum p1 t + (g - dsum p1 a) / power_sum w a * dsum w1 t).
      { intros t. unfold p2. rewrite padd_dsum, cons0_dsum, pscal_dsum by auto. ring. }
      assert (Ew2 : forall t, power_sum w2 t = (t - a) * power_sum w1 t) by (intros; apply plin_sum).
      assert (Dw2 : forall t, dsum w2 t = power_sum w1 t + (t - a) * dsum w1 t) by (intros; apply lin_mult_dsum; auto).
      exists p2, w2. cbn [num_constraints]. rewrite Ev, Eg. split; [|split; [|split; [|split]]].
      * unfold p2. rewrite padd_length by auto. cbn [length]. lia.
      * unfold w2. rewrite plin_length. lia.
      * intros t [<-|Ht].
        -- split; intros u Hu; [rewrite Ev in Hu|rewrite Eg in Hu]; injection Hu as <-; fold a.
           ++ rewrite Ep2, Wa, Va. ring.
           ++ rewrite Dp2, Da. field. auto.
        -- destruct (Hm1 t Ht) as [A B]. destruct (Hw1 t Ht) as [C D]. split.
           ++ intros u Hu. rewrite Ep2, (A u Hu), C by congruence. ring.
           ++ intros u Hu. rewrite Dp2, (B u Hu), D by congruence. ring.
      * intros t [<-|Ht]; fold a.
        -- split; intros _; [rewrite Ew2|rewrite Dw2, Wa]; ring.
        -- destruct (Hw1 t Ht) as [C D]. split; intros K.
           ++ rewrite Ew2, C by auto. ring.
           ++ rewrite Dw2, C, D by (auto; apply Hg; auto; right; auto). ring.
      * intros y Hy. rewrite Ew2. apply Rmult_integral_contrapositive_currified; [|apply Hnz1; auto].
        intros K. apply Hy. left. fold a. lra.
    + exists p1, w1. cbn [num_constraints]. rewrite Ev, Eg. split; [lia|split; [lia|split; [|split; [|auto]]]].
      * intros t [<-|Ht]; auto. split; intros u Hu; [|congruence]. rewrite Ev in Hu. injection Hu as <-. exact Va.
      * intros t [<-|Ht]; auto. split; intros K; [exact Wa|congruence].
Qed.

(** *** uniqueness *)
(** synthetic division by x - a: running Horner values *)
Fixpoint hdiv (a acc : R) (p : poly) : poly :=
  match p with
  | [] => []
  | [_] => []
  | c :: q => (acc * a + c) :: hdiv a (acc * a + c) q
  end.
Lemma hdiv_length a p : forall acc, length (hdiv a acc p) = (length p - 1)%nat.
Proof.
  induction p as [|c [|d q] IH]; intros acc; auto.
  change (hdiv a acc (c :: d :: q)) with ((acc * a + c) :: hdiv a (acc * a + c) (d :: q)).
  cbn [length] in *. rewrite IH. lia.
Qed.
Lemma hdiv_sum a x p : forall acc, p <> [] ->
  power_sum p x + acc * a * x ^ (length p - 1) =
  (x - a) * power_sum (hdiv a acc p) x + (acc * a ^ length p + power_sum p a).
Proof.
  induction p as [|c [|d q] IH]; intros acc Hn; [congruence|cbn; ring|].
  change (hdiv a acc (c :: d :: q)) with ((acc * a + c) :: hdiv a (acc * a + c) (d :: q)).
  cbn [power_sum]. rewrite hdiv_length. specialize (IH (acc * a + c) ltac:(discriminate)).
  set (r := d :: q) in *. assert (Lr : length r = S (length q)) by reflexivity.
  change (length (c :: r)) with (S (length r)).
  replace (S (length r) - 1)%nat with (length r) by lia.
  change (d * x ^ length q + power_sum q x) with (power_sum r x).
  change (d * a ^ length q + power_sum q a) with (power_sum r a).
  rewrite Rmult_plus_distr_l.
  replace (power_sum r x) with ((x - a) * power_sum (hdiv a (acc * a + c) r) x +
     ((acc * a + c) * a ^ length r + power_sum r a) - (acc * a + c) * a * x ^ (length r - 1)) by lra.
  rewrite !Lr. replace (S (length q) - 1)%nat with (length q) by lia. cbn [pow]. ring.
Qed.
Lemma hdiv_zero a p : forall acc, hdiv a acc p = repeat 0 (length p - 1) -> acc = 0 ->
  p <> [] -> power_sum p a = 0 -> p = repeat 0 (length p).
Proof.
  induction p as [|c [|d q] IH]; intros acc Hh Ha Hn Hp; [congruence|cbn in *; f_equal; lra|].
  change (hdiv a acc (c :: d :: q)) with ((acc * a + c) :: hdiv a (acc * a + c) (d :: q)) in Hh.
  cbn [length] in Hh. replace (S (S (length q)) - 1)%nat with (S (length q)) in Hh by lia.
  cbn [repeat] in Hh. injection Hh as H1 H2. assert (c = 0) by (subst acc; lra). subst c.
  cbn [length repeat]. f_equal. apply (IH (acc * a + 0)); auto.
  - cbn [length]. replace (S (length q) - 1)%nat with (length q) by lia. exact H2.
  - discriminate.
  - rewrite <- Hp. cbn [power_sum]. ring.
Qed.

Lemma divide p a n : length p = S n -> power_sum p a = 0 -> exists q, length q = n /\
  (forall x, power_sum p x = (x - a) * power_sum q x) /\
  (forall x, dsum p x = power_sum q x + (x - a) * dsum q x) /\
  (q = repeat 0 n -> p = repeat 0 (S n)).
Proof.
  intros L Hp. exists (hdiv a 0 p).
  assert (Hnn : p <> []) by (destruct p; cbn in L; congruence).
  assert (E : forall x, power_sum p x = (x - a) * power_sum (hdiv a 0 p) x).
  { intros x. pose proof (hdiv_sum a x p 0 Hnn). rewrite Hp in H. lra. }
  split; [rewrite hdiv_length; lia|split; [auto|split]].
  - intros x. apply lin_mult_dsum. auto.
  - intros H. rewrite <- L. apply (hdiv_zero a p 0); auto. rewrite L. replace (S n - 1)%nat with n by lia. auto.
Qed.

Definition vanishes (p : poly) (s : sample) : Prop :=
  (s_value s <> None -> power_sum p (s_x s) = 0) /\ (s_gradient s <> None -> dsum p (s_x s) = 0).

Lemma hermite_unique l : hermite l -> forall p, length p = num_constraints l ->
  (forall s, In s l -> vanishes p s) -> p = repeat 0 (num_constraints l).
Proof.
  induction l as [|s l IH]; intros [Hd Hg] p Lp Hv.
  - destruct p; cbn in *; [auto|discriminate].
  - assert (Hxs : ~ In (s_x s) (map s_x l)) by (cbn in Hd; inversion Hd; auto).
    assert (Hl : hermite l).
    { split; [cbn in Hd; inversion Hd; auto|]. intros t Ht. apply Hg. right; auto. }
    assert (Hother : forall q r, (forall x, power_sum q x = (x - s_x s) * power_sum r x) ->
       (forall x, dsum q x = power_sum r x + (x - s_x s) * dsum r x) ->
       (forall t, In t l -> vanishes q t) -> forall t, In t l -> vanishes r t).
    { intros q r E D H t Ht. destruct (H t Ht) as [A B].
      assert (Hne : s_x t - s_x s <> 0).
      { intros K. apply Hxs. apply in_map_iff. exists t. split; [lra|auto]. }
      assert (A' : s_value t <> None -> power_sum r (s_x t) = 0).
      { intros K. specialize (A K). rewrite E in A. destruct (Rmult_integral _ _ A); [contradiction|auto]. }
      split; [exact A'|].
      intros K. specialize (B K). rewrite D, A' in B by (apply Hg; [right; auto|auto]).
      rewrite Rplus_0_l in B. destruct (Rmult_integral _ _ B); [contradiction|auto]. }
    destruct (Hv s (or_introl eq_refl)) as [V1 V2]. cbn [num_constraints] in *.
    destruct (s_value s) as [v|] eqn:Ev.
    2:{ destruct (s_gradient s) eqn:E; [exfalso; apply (Hg s); [left; auto|congruence|auto]|].
        cbn in *. apply IH; auto. }
    assert (V1' : power_sum p (s_x s) = 0) by (apply V1; congruence).
    destruct (s_gradient s) as [g|] eqn:Eg.
    + assert (V2' : dsum p (s_x s) = 0) by (apply V2; congruence).
      destruct (divide p (s_x s) (S (num_constraints l))) as (q & Lq & Eq & Dq & Zq); [cbn in Lp; lia|auto|].
      assert (Vq : power_sum q (s_x s) = 0). { rewrite Dq in V2'. lra. }
      destruct (divide q (s_x s) (num_constraints l)) as (r & Lr & Er & Dr & Zr); [auto|auto|].
      cbn [plus]. apply Zq. apply Zr. apply IH; auto.
      apply (Hother q r Er Dr). apply (Hother p q Eq Dq). intros t Ht. apply Hv. right; auto.
    + destruct (divide p (s_x s) (num_constraints l)) as (q & Lq & Eq & Dq & Zq); [cbn in Lp; lia|auto|].
      cbn [plus]. apply Zq. apply IH; auto. apply (Hother p q Eq Dq). intros t Ht. apply Hv. right; auto.
Qed.

Lemma padd_neg_zero n : forall p q, length p = n -> length q = n -> padd p (pscal (-1) q) = repeat 0 n -> p = q.
Proof.
  induction n as [|n IH]; intros [|a p] [|b q] Lp Lq H; cbn in *; try discriminate; auto.
  injection H as H1 H2. f_equal; [lra|]. apply IH; auto.
Qed.

Lemma hermite_same l p q : hermite l -> length p = num_constraints l -> length q = num_constraints l ->
  (forall s, In s l -> meets p s) -> (forall s, In s l -> meets q s) -> p = q.
Proof.
  intros Hl Lp Lq Hp Hq. apply (padd_neg_zero (num_constraints l)); auto.
  assert (Le : length p = length (pscal (-1) q)) by (unfold pscal; rewrite map_length; lia).
  apply hermite_unique; auto.
  - rewrite padd_length; auto.
  - intros s Hs. destruct (Hp s Hs) as [A B]. destruct (Hq s Hs) as [C D]. split; intros K.
    + rewrite padd_sum, pscal_sum by auto. destruct (s_value s) as [v|]; [|congruence].
      rewrite (A v), (C v) by auto. ring.
    + rewrite padd_dsum, pscal_dsum by auto. destruct (s_gradient s) as [v|]; [|congruence].
      rewrite (B v), (D v) by auto. ring.
Qed.
