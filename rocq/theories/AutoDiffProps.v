(* C61: cost functions built by automatic differentiation of a templated functor. *)
From Coq Require Import Reals List ZArith Bool Lia Lra.
From Flocq Require Import Core.
From Verif Require Import JetModel JetSpec JetProofs4 JetProps AutoDiffModel AutoDiffSpec
  AutoDiffProofs AutoDiffProofs2 AutoDiffProofs3 AutoDiffProofs4.
Import ListNotations.
Local Open Scope nat_scope.

(* ---------------- the real functor ---------------- *)

Lemma neval_regular N e x : uses_below N e -> regular e x -> neval (fun i => Some (x i)) e = Some (val e x).
Proof.
  intros U Rg. destruct (jets_compute_exact_derivatives false N e x (fun i => jvar (Some (x i)) i) U Rg) as [A _].
  { reflexivity. }
  rewrite jeval_value in A. exact A.
Qed.

Lemma run_doubles_accepts N f x : functor_uses N f -> functor_regular f x -> accepts f x ->
  run_doubles f (fun i => Some (x i)) = Some (map (fun e => Some (val e x)) (f_out f)).
Proof.
  intros [U1 U2] [R1 R2] A. unfold run_doubles.
  replace (forallb _ _) with true.
  - f_equal. apply map_ext_in. intros e I. rewrite Forall_forall in U1, R1. apply (neval_regular N); auto.
  - symmetry. apply forallb_forall. intros [[c a] b] I. rewrite Forall_forall in U2, R2. unfold accepts in A. rewrite Forall_forall in A.
    specialize (A _ I). specialize (U2 _ I). specialize (R2 _ I). cbn in A, U2, R2.
    rewrite !(neval_regular N) by tauto. rewrite ncmp_holds. destruct (holds_dec c (val a x) (val b x)); [reflexivity|contradiction].
Qed.
Lemma run_doubles_rejects N f x : functor_uses N f -> functor_regular f x -> ~ accepts f x ->
  run_doubles f (fun i => Some (x i)) = None.
Proof.
  intros [U1 U2] [R1 R2] A. unfold run_doubles. destruct (forallb _ _) eqn:E; [|reflexivity].
  exfalso. apply A. unfold accepts. rewrite forallb_forall in E. rewrite Forall_forall in U2, R2 |- *.
  intros [[c a] b] I. specialize (E _ I). specialize (U2 _ I). specialize (R2 _ I). cbn in E, U2, R2.
  rewrite !(neval_regular N) in E by tauto. rewrite ncmp_holds in E.
  destruct (holds_dec c (val a x) (val b x)); [assumption|discriminate].
Qed.

Lemma deriv_exact c N f x r p :
  functor_uses N f -> functor_regular f x -> r < length (f_out f) -> p < N ->
  exists g, deriv c f (fun i => Some (x i)) r p = Some g /\
    partial_at (val (nth r (f_out f) (Const 0%R))) x p g.
Proof.
  intros [U _] [Rg _] Hr Hp. rewrite Forall_forall in U, Rg. unfold deriv.
  rewrite (nth_map_in _ _ _ (Const 0%R)) by exact Hr.
  pose proof (nth_In (f_out f) (Const 0%R) Hr) as I.
  destruct (jets_compute_exact_derivatives c N (nth r (f_out f) (Const 0%R)) x (fun i => jvar (Some (x i)) i) (U _ I) (Rg _ I)) as [_ (g & _ & G)].
  { reflexivity. }
  exists (g p). apply G, Hp.
Qed.

(* ---------------- AutoDiffCostFunction ---------------- *)

(* At a point where the functor is differentiable: Evaluate returns what the functor
   returns, the residuals are its values, and each requested Jacobian is the matrix of
   the partial derivatives, whichever Jacobians are requested. *)
Theorem static_evaluate_exact :
  forall cpp20 f sizes x js,
    functor_uses (total sizes) f -> functor_regular f x ->
    (~ accepts f x -> Evaluate cpp20 f sizes (fun i => Some (x i)) (Some js) = ReturnsFalse) /\
    (accepts f x ->
       exists js' D,
         Evaluate cpp20 f sizes (fun i => Some (x i)) (Some js) =
           ReturnsTrue (map (fun e => Some (val e x)) (f_out f)) js' /\
         fills sizes (length (f_out f)) D js js' /\
         forall r p, r < length (f_out f) -> p < total sizes ->
           exists g, D r p = Some g /\ partial_at (val (nth r (f_out f) (Const 0%R))) x p g).
Proof.
  intros c f sizes x js U Rg. pose proof (static_at c f sizes (fun i => Some (x i)) js U) as S.
  cbn [Evaluate]. split; intro A.
  - rewrite (run_doubles_rejects _ _ _ U Rg A) in S. destruct (AutoDifferentiate _ _ _ _ _); try contradiction. reflexivity.
  - rewrite (run_doubles_accepts _ _ _ U Rg A) in S. destruct (AutoDifferentiate _ _ _ _ _) as [| |r js']; try contradiction.
    destruct S as [-> F]. exists js', (deriv c f (fun i => Some (x i))). split; [reflexivity|]. split; [exact F|].
    intros r p Hr Hp. apply (deriv_exact c (total sizes)); assumption.
Qed.
Print Assumptions static_evaluate_exact.

(* the residuals of an outcome *)
Definition residuals_of (o : outcome) : option (list num) :=
  match o with ReturnsTrue r _ => Some r | _ => None end.

(* At every point, also where an operation is undefined or not differentiable: asking
   for Jacobians changes neither the returned flag nor any residual. *)
Theorem jacobians_do_not_change_residuals :
  forall cpp20 f sizes x js,
    functor_uses (total sizes) f ->
    Evaluate cpp20 f sizes x (Some js) <> Aborts /\
    residuals_of (Evaluate cpp20 f sizes x (Some js)) = residuals_of (Evaluate cpp20 f sizes x None).
Proof.
  intros c f sizes x js U. pose proof (static_at c f sizes x js U) as S. cbn [Evaluate].
  destruct (AutoDifferentiate _ _ _ _ _) as [| |r js']; destruct (run_doubles f x) as [r'|]; try contradiction.
  - split; [discriminate|reflexivity].
  - destruct S as [-> _]. split; [discriminate|reflexivity].
Qed.
Print Assumptions jacobians_do_not_change_residuals.

(* ---------------- DynamicAutoDiffCostFunction ---------------- *)

Lemma dynamic_at c stride f sizes x js :
  functor_uses (total sizes) f -> f_out f <> [] -> length js = length sizes ->
  Forall (fun n => 0 < n) sizes -> 0 < stride -> (Z.of_nat stride <= 2 ^ 24)%Z ->
  (Z.of_nat (wanted sizes js) <= 2 ^ 24)%Z ->
  match DynamicEvaluate c stride f sizes x (Some js), run_doubles f x with
  | ReturnsFalse, None => True
  | ReturnsTrue r js', Some r' => r = r' /\ fills sizes (length (f_out f)) (deriv c f x) js js'
  | _, _ => False
  end.
Proof.
  intros U O HL HP S1 S2 HW. unfold DynamicEvaluate.
  destruct (Nat.eqb_spec (length (f_out f)) 0) as [E|_]; [destruct (f_out f); [contradiction|discriminate]|].
  pose proof (discover_sections sizes js 0 0 false [] 0 HL HP) as DS.
  destruct (discover sizes js 0 false [] 0) as [[starts tot] act]. destruct DS as (D1 & D2 & D3).
  cbn in D2, D3. subst tot act. cbn [app] in D1. rewrite D1.
  pose proof (rk_total 0 sizes js HL) as RT.
  destruct (Nat.eqb_spec (wanted sizes js) 0) as [W0|W0].
  - destruct (run_doubles f x) as [r|]; [|exact I]. split; [reflexivity|].
    apply (filled_fills c f stride sizes x js S1 HL js).
    rewrite (slots_length 0 sizes js HL), RT, W0. apply (filled_0 c f stride sizes x js S1 HL).
  - destruct (num_strides_enough (wanted sizes js) stride) as [N1 N2]; try lia; try assumption.
    pose proof (passes_spec c f stride (sec_flags 0 false (flags (slots 0 sizes js))) sizes x js S1 HL U
      (num_strides (wanted sizes js) stride) 0 0 0 0 (fun p => mkjet (x p) vz) [] js) as P.
    destruct (passes _ _ _ _ _ _ _ _ _ _ _ _ _) as [| |r js']; destruct (run_doubles f x) as [r'|];
      (specialize (P (Nat.le_0_l _))); (lapply P; [clear P; intro P|left; split; reflexivity]);
      specialize (P eq_refl (filled_0 c f stride sizes x js S1 HL)); try contradiction; try exact I.
    + destruct P as [-> F]. destruct (Nat.eqb_spec (num_strides (wanted sizes js) stride) 0); [lia|]. split; [reflexivity|].
      apply (filled_fills c f stride sizes x js S1 HL js'). rewrite (slots_length 0 sizes js HL), RT in F |- *.
      rewrite Nat.min_r in F by lia. exact F.
    + destruct P as [P _]. lia.
Qed.

Lemma fills_same sizes M D old a b :
  length old = length sizes -> fills sizes M D old a -> fills sizes M D old b -> Forall2 same_jacobian a b.
Proof.
  intros HL [A1 A2] [B1 B2].
  assert (forall k, match nth_error a k, nth_error b k with Some u, Some v => same_jacobian u v | None, None => True | _, _ => False end) as H.
  { intro k. destruct (nth_error sizes k) as [n|] eqn:En.
    - specialize (A2 k n En). specialize (B2 k n En). destruct (nth_error old k) as [[d|]|] eqn:Eo.
      + destruct A2 as (d1 & E1 & F1 & G1). destruct B2 as (d2 & E2 & F2 & G2). rewrite E1, E2. cbn. intro i.
        destruct (Nat.lt_ge_cases i (M * n)) as [L|L].
        * assert (n <> 0) as Hn by (destruct n; lia).
          pose proof (Nat.div_mod i n Hn) as Ed. pose proof (Nat.mod_upper_bound i n Hn).
          assert (i / n < M) by (apply Nat.div_lt_upper_bound; lia).
          replace i with (i / n * n + i mod n) by lia. rewrite F1, F2 by assumption. reflexivity.
        * rewrite G1, G2 by exact L. reflexivity.
      + rewrite A2, B2. exact I.
      + apply nth_error_None in Eo. assert (k < length sizes) by (apply nth_error_Some; rewrite En; discriminate). lia.
    - apply nth_error_None in En. rewrite (proj2 (nth_error_None a k)), (proj2 (nth_error_None b k)) by lia. exact I. }
  clear A2 B2. assert (length a = length b) as AB by lia. clear A1 B1 HL. revert b H AB.
  induction a as [|u a IH]; intros [|v b] H AB; try discriminate; constructor.
  - exact (H 0).
  - apply IH; [intro k; exact (H (S k))|injection AB; auto].
Qed.

(* Whatever the stride, the block sizes, the requested Jacobians and the point: the dynamic
   cost function returns what the static one returns.  (Blocks of size zero and more than
   2^24 requested columns are excluded, see below.) *)
Theorem dynamic_equals_static :
  forall cpp20 stride f sizes x jacobians,
    functor_uses (total sizes) f -> f_out f <> [] ->
    (forall js, jacobians = Some js ->
       length js = length sizes /\ (Z.of_nat (wanted sizes js) <= 2 ^ 24)%Z) ->
    Forall (fun n => 0 < n) sizes -> 0 < stride -> (Z.of_nat stride <= 2 ^ 24)%Z ->
    same_outcome (DynamicEvaluate cpp20 stride f sizes x jacobians) (Evaluate cpp20 f sizes x jacobians).
Proof.
  intros c stride f sizes x jacobians U O HJ HP S1 S2. destruct jacobians as [js|].
  - destruct (HJ js eq_refl) as [HL HW].
    pose proof (dynamic_at c stride f sizes x js U O HL HP S1 S2 HW) as P.
    pose proof (static_at c f sizes x js U) as S. cbn [Evaluate].
    destruct (DynamicEvaluate _ _ _ _ _ _) as [| |r js']; destruct (AutoDifferentiate _ _ _ _ _) as [| |r2 js2];
      destruct (run_doubles f x) as [r'|]; try contradiction; try exact I.
    destruct P as [-> P]. destruct S as [-> S]. split; [reflexivity|]. apply (fills_same sizes _ _ js _ _ HL P S).
  - unfold DynamicEvaluate. destruct (Nat.eqb_spec (length (f_out f)) 0) as [E|_]; [destruct (f_out f); [contradiction|discriminate]|].
    cbn [Evaluate]. destruct (run_doubles f x); [split; [reflexivity|constructor]|exact I].
Qed.
Print Assumptions dynamic_equals_static.

(* Hence its Jacobians are exact as well. *)
Theorem dynamic_evaluate_exact :
  forall cpp20 stride f sizes x js,
    functor_uses (total sizes) f -> functor_regular f x -> f_out f <> [] -> length js = length sizes ->
    (Z.of_nat (wanted sizes js) <= 2 ^ 24)%Z ->
    Forall (fun n => 0 < n) sizes -> 0 < stride -> (Z.of_nat stride <= 2 ^ 24)%Z ->
    (~ accepts f x -> DynamicEvaluate cpp20 stride f sizes (fun i => Some (x i)) (Some js) = ReturnsFalse) /\
    (accepts f x ->
       exists js' D,
         DynamicEvaluate cpp20 stride f sizes (fun i => Some (x i)) (Some js) =
           ReturnsTrue (map (fun e => Some (val e x)) (f_out f)) js' /\
         fills sizes (length (f_out f)) D js js' /\
         forall r p, r < length (f_out f) -> p < total sizes ->
           exists g, D r p = Some g /\ partial_at (val (nth r (f_out f) (Const 0%R))) x p g).
Proof.
  intros c stride f sizes x js U Rg O HL HW HP S1 S2.
  pose proof (dynamic_at c stride f sizes (fun i => Some (x i)) js U O HL HP S1 S2 HW) as S.
  split; intro A.
  - rewrite (run_doubles_rejects _ _ _ U Rg A) in S. destruct (DynamicEvaluate _ _ _ _ _ _); try contradiction. reflexivity.
  - rewrite (run_doubles_accepts _ _ _ U Rg A) in S. destruct (DynamicEvaluate _ _ _ _ _ _) as [| |r js']; try contradiction.
    destruct S as [-> F]. exists js', (deriv c f (fun i => Some (x i))). split; [reflexivity|]. split; [exact F|].
    intros r p Hr Hp. apply (deriv_exact c (total sizes)); assumption.
Qed.
Print Assumptions dynamic_evaluate_exact.

(* a functor of three residuals that rejects some points, three blocks, stride 2 *)
Definition three : functor :=
  mkfunctor [(CGt, Var 0, Const 0%R)]
    [Bin BMul (Var 0) (Var 4); Un USin (Var 2); Bin BAdd (Un ULog (Var 0)) (Var 3)].
Definition only_some : list jacobian := [Some (fun _ => None); None; Some (fun _ => None)].
Example three_ok (x : nat -> R) : (0 < x 0%nat)%R ->
  functor_uses (total [2; 1; 2]) three /\ f_out three <> [] /\ functor_regular three x /\ accepts three x /\
  length only_some = length [2; 1; 2] /\ wanted [2; 1; 2] only_some = 4.
Proof.
  intro H. split; [|split; [discriminate|split; [|split; [|split; reflexivity]]]].
  - split; repeat constructor; cbn; lia.
  - split; repeat constructor; cbn; tauto.
  - repeat constructor. exact H.
Qed.

(* without SetNumResiduals the process is aborted *)
Theorem dynamic_needs_residuals :
  forall cpp20 stride f sizes x jacobians,
    f_out f = [] -> DynamicEvaluate cpp20 stride f sizes x jacobians = Aborts.
Proof. intros c stride f sizes x js H. unfold DynamicEvaluate. rewrite H. reflexivity. Qed.
Print Assumptions dynamic_needs_residuals.

(* ---------------- what does not hold ---------------- *)

(* A constant block of size zero between two others: a section is recorded twice, and a later
   pass starts at the wrong one.  The last Jacobian is never written, although Evaluate
   returns true.  (Stride 4 is the default.) *)
Definition zsizes : list nat := [4; 0; 4; 1; 4; 1; 4].
Definition zjac (d : nat -> num) : list jacobian := [Some d; None; Some d; None; Some d; None; Some d].
Definition zfun : functor := mkfunctor [] [Var 14].

Lemma num_strides_16_4 : num_strides 16 4 = 4.
Proof.
  unfold num_strides. rewrite !INR_IZR_INZ, num_strides_Z by (cbn; lia).
  cbn [Z.of_nat Pos.of_succ_nat Pos.succ]. replace (IZR 16 / IZR 4)%R with (IZR 4) by lra.
  rewrite Zceil_IZR. reflexivity.
Qed.

Theorem dynamic_zero_size_block_refuted :
  forall cpp20 x d, exists js js',
    Evaluate cpp20 zfun zsizes x (Some (zjac d)) = ReturnsTrue [x 14] js /\
    DynamicEvaluate cpp20 4 zfun zsizes x (Some (zjac d)) = ReturnsTrue [x 14] js' /\
    (exists e, nth_error js 6 = Some (Some e) /\ e 0 = Some 1%R) /\
    nth_error js' 6 = Some (Some d).
Proof.
  intros c x d. unfold DynamicEvaluate. cbn [zfun f_out length Nat.eqb].
  cbn [zsizes zjac discover Nat.add app Nat.eqb]. rewrite num_strides_16_4.
  eexists. eexists. split; [reflexivity|]. split; [lazy; reflexivity|]. split.
  - eexists. split; [reflexivity|]. lazy. reflexivity.
  - reflexivity.
Qed.
Print Assumptions dynamic_zero_size_block_refuted.

(* 2^24 + 1 parameters and stride 1: the number of passes is computed in float, one pass is
   missing, and the last column is never written. *)
Lemma f32_tie : f32 (IZR (2 ^ 24 + 1)) = IZR (2 ^ 24).
Proof.
  unfold f32, round, scaled_mantissa, cexp.
  rewrite (mag_unique_pos radix2 (IZR (2 ^ 24 + 1)) 25).
  2:{ change (bpow radix2 (25 - 1)) with (IZR (2 ^ 24)). change (bpow radix2 25) with (IZR (2 ^ 25)).
      split; [apply IZR_le|apply IZR_lt]; lia. }
  change (FLT_exp (-149) 24 25) with 1%Z. change (- (1))%Z with (-1)%Z.
  assert (IZR (2 ^ 24 + 1) * bpow radix2 (-1) = IZR (2 ^ 23) + / 2)%R as E.
  { rewrite plus_IZR. change (2 ^ 24)%Z with (2 * 2 ^ 23)%Z. rewrite mult_IZR. cbn [bpow]. change (IZR (radix2 ^ 1)) with 2%R. change (Z.pow_pos radix2 1) with 2%Z. lra. }
  rewrite E. unfold Znearest.
  assert (Zfloor (IZR (2 ^ 23) + / 2) = 2 ^ 23)%Z as F.
  { apply Zfloor_imp. rewrite plus_IZR. lra. }
  rewrite F. rewrite Rcompare_Eq by lra. cbn [Z.even negb Z.pow Z.pow_pos Pos.iter Z.mul Pos.mul].
  unfold F2R. cbn [Fnum Fexp]. change (bpow radix2 1) with 2%R. rewrite <- mult_IZR. reflexivity.
Qed.

Definition many : nat := Z.to_nat (2 ^ 24).
Lemma num_strides_many : num_strides (S many) 1 = many.
Proof.
  unfold num_strides. rewrite (INR_IZR_INZ (S many)), Nat2Z.inj_succ. unfold many. rewrite Z2Nat.id by lia.
  unfold Z.succ. rewrite f32_tie. change (INR 1) with 1%R. rewrite (f32_int 1) by lia.
  replace (IZR (2 ^ 24) / 1)%R with (IZR (2 ^ 24)) by field. rewrite f32_int by lia. rewrite Zceil_IZR. reflexivity.
Qed.

Lemma rk_one n d k : k <= n -> rk (slots 0 [n] [Some d]) k = k.
Proof.
  intro H. unfold rk. cbn [slots]. rewrite app_nil_r.
  replace (firstn k (map (fun i => mkslot 0 i true) (seq 0 n))) with (map (fun i => mkslot 0 i true) (seq 0 k)).
  - rewrite (filter_repeat true k 0 (Some d) 0). reflexivity.
  - rewrite firstn_map. f_equal. replace n with (k + (n - k)) by lia. rewrite seq_app.
    rewrite firstn_app, firstn_all2 by (rewrite seq_length; lia). rewrite seq_length, Nat.sub_diag, firstn_O, app_nil_r. reflexivity.
Qed.

Lemma one_pass_missing c (n : nat) (x : nat -> num) (d : nat -> num) :
  0 < n -> num_strides (S n) 1 = n ->
  exists d', DynamicEvaluate c 1 (mkfunctor [] [Var n]) [S n] x (Some [Some d]) = ReturnsTrue [x n] [Some d'] /\ d' n = d n.
Proof.
  intros Hn HN. unfold DynamicEvaluate. cbn [f_out length Nat.eqb discover app].
  rewrite (Nat.add_0_l (S n)). cbn [Nat.eqb]. rewrite HN.
  assert (functor_uses (total [S n]) (mkfunctor [] [Var n])) as U.
  { split; [constructor; [unfold total; cbn [fold_right uses_below f_out]; lia|constructor]|constructor]. }
  assert (length [Some d] = length [S n]) as HL by reflexivity.
  pose proof (discover_sections [S n] [Some d] 0 0 false [] 0 HL ltac:(repeat constructor; lia)) as DS.
  cbn [discover app] in DS. destruct DS as (D1 & _ & _). rewrite (Nat.add_0_l (S n)) in D1. cbn [app] in D1. 
  pose proof (passes_spec c (mkfunctor [] [Var n]) 1 [0; S n] [S n] x [Some d] Nat.lt_0_1 HL U n 0 0 0 0
    (fun p => mkjet (x p) vz) [] [Some d] (Nat.le_0_l _)) as P.
  lapply P; [clear P; intro P|left; split; [reflexivity|]; exact D1].
  specialize (P eq_refl (filled_0 c _ 1 [S n] x [Some d] Nat.lt_0_1 HL)).
  assert (run_doubles (mkfunctor [] [Var n]) x = Some [x n]) as ER by reflexivity. rewrite ER in P.
  destruct (passes _ _ _ _ _ _ _ _ _ _ _ _ _) as [| |r js']; try contradiction.
  destruct P as [-> F]. destruct (Nat.eqb_spec n 0); [lia|].
  destruct F as [F1 F2]. specialize (F2 0 (S n) eq_refl). cbn [nth_error] in F2.
  destruct F2 as (d' & E & F). destruct js' as [|j [|? ?]]; try discriminate. injection E as ->.
  exists d'. split; [reflexivity|]. rewrite F. clear F.
  rewrite (slots_length 0 [S n] [Some d] HL). unfold total. cbn [fold_right]. rewrite (Nat.add_0_r (S n)).
  unfold offset. cbn [firstn fold_right]. rewrite Nat.add_0_l, Nat.mod_small by lia.
  rewrite !rk_one by lia. rewrite Nat.min_l by lia.
  destruct (Nat.ltb_spec n (0 + n * 1)); [lia|]. rewrite andb_false_r. reflexivity.
Qed.

Theorem dynamic_many_parameters_refuted :
  forall cpp20 x d, exists e d',
    Evaluate cpp20 (mkfunctor [] [Var many]) [S many] x (Some [Some d]) = ReturnsTrue [x many] [Some e] /\
    e many = Some 1%R /\
    DynamicEvaluate cpp20 1 (mkfunctor [] [Var many]) [S many] x (Some [Some d]) = ReturnsTrue [x many] [Some d'] /\
    d' many = d many.
Proof.
  intros c x d. assert (0 < many) as Hm by (unfold many; lia).
  destruct (one_pass_missing c many x d Hm num_strides_many) as (d' & E & F).
  assert (functor_uses (total [S many]) (mkfunctor [] [Var many])) as U.
  { split; [constructor; [unfold total; cbn [fold_right uses_below f_out]; lia|constructor]|constructor]. }
  pose proof (static_at c (mkfunctor [] [Var many]) [S many] x [Some d] U) as S.
  assert (run_doubles (mkfunctor [] [Var many]) x = Some [x many]) as ER by reflexivity. rewrite ER in S.
  cbn [Evaluate]. destruct (AutoDifferentiate _ _ _ _ _) as [| |r js]; try contradiction. destruct S as [-> [S1 S2]].
  specialize (S2 0 (Datatypes.S many) eq_refl). cbn [nth_error] in S2. destruct S2 as (e & E2 & G & _).
  destruct js as [|j [|? ?]]; try discriminate. injection E2 as ->. exists e, d'. split; [reflexivity|]. split; [|split; assumption].
  specialize (G 0 many). cbn [f_out length] in G. rewrite Nat.mul_0_l, Nat.add_0_l in G. rewrite G by lia.
  unfold offset, deriv. cbn [firstn fold_right f_out map nth jeval]. rewrite Nat.add_0_l. unfold jvar. cbn [jv]. rewrite Nat.eqb_refl. reflexivity.
Qed.
Print Assumptions dynamic_many_parameters_refuted.
