(* Theorems for C70: wrapped cost functions. *)
From Coq Require Import Reals List Arith Bool Lia Lra FunctionalExtensionality.
From Verif Require Import WrapModel WrapSpec WrapProofs WrapProofs2.
Import ListNotations.
Open Scope nat_scope.

(* cs: the conditioners, gs: what they compute; null where the conditioner is null *)
Definition conditioners_are (cs : list (option CostFunction)) (gs : list (option function)) : Prop :=
  Forall2 (fun c g => match c, g with None, None => True | Some c, Some g => implements1 c g | _, _ => False end) cs gs.

(* ConditionedCostFunction keeps the contract: residuals f_i(r_i), Jacobian f_i'(r_i) Dr_i, failure
   exactly when a part fails, and no other writes. *)
Theorem conditioned_evaluates w cs cf gs ok f D : implements w ok f D -> conditioners_are cs gs -> Conditioned w cs = Some cf ->
  num_residuals cf = num_residuals w /\ sizes cf = sizes w /\
  implements cf (conditioned_ok (num_residuals w) gs ok f) (conditioned_value gs f) (conditioned_slope gs f D).
Proof.
  intros HW HG HC. split; [|split; [|exact (conditioned_implements w cs cf gs ok f D HW HC HG)]]; destruct (conditioned_checks w cs cf HC) as [_ [_ ->]]; reflexivity.
Qed.
Print Assumptions conditioned_evaluates.

(* If the parts deliver derivatives then so does the whole. *)
Theorem conditioned_differentiates w cs cf gs ok f D : Conditioned w cs = Some cf -> differentiates w ok f D ->
  (forall g y, In (Some g) gs -> f_ok g y = true -> derivable_pt_lim (f_value g) y (f_slope g y)) ->
  differentiates cf (conditioned_ok (num_residuals w) gs ok f) (conditioned_value gs f) (conditioned_slope gs f D).
Proof.
  intros HC HD HG. destruct (conditioned_checks w cs cf HC) as [_ [_ ->]]. intros i x Hi E. cbn [num_residuals sizes] in *. unfold conditioned_ok in E. apply andb_true_iff in E. destruct E as [E1 E2]. rewrite forallb_forall in E2. specialize (E2 i ltac:(apply in_seq; lia)). specialize (HD i x Hi E1).
  destruct (conditioner_of gs i) as [g|] eqn:EG.
  - assert (In (Some g) gs) as IG.
    { unfold conditioner_of in EG. destruct (Nat.lt_ge_cases i (length gs)) as [L|L]; [rewrite <- EG; apply nth_In; exact L|rewrite nth_overflow in EG by exact L; discriminate]. }
    replace (conditioned_value gs f i) with (fun x => f_value g (f i x)) by (unfold conditioned_value; rewrite EG; reflexivity).
    replace (conditioned_slope gs f D i x) with (fun p => (D i x p * f_slope g (f i x))%R) by (unfold conditioned_slope; rewrite EG; reflexivity).
    apply chain1; [apply HG; assumption|exact HD].
  - replace (conditioned_value gs f i) with (f i) by (unfold conditioned_value; rewrite EG; reflexivity). replace (conditioned_slope gs f D i x) with (D i x) by (unfold conditioned_slope; rewrite EG; reflexivity). exact HD.
Qed.
Print Assumptions conditioned_differentiates.

(* NormalPrior: residuals A (x - b), Jacobian A, which is the derivative. *)
Theorem normal_prior nr nc br A b cf : NormalPrior nr nc br A b = Some cf ->
  let f := fun i x => suml (seq 0 nc) (fun k => (A i k * (x (0%nat, k) - b k))%R) in
  let D := fun (i : nat) (_ : nat * nat -> R) (p : nat * nat) => A i (snd p) in
  num_residuals cf = nr /\ sizes cf = [nc] /\ implements cf (fun _ => true) f D /\ differentiates cf (fun _ => true) f D.
Proof.
  intros H f D. pose proof (prior_implements nr nc br A b cf H) as I. unfold NormalPrior in H. destruct (_ && _) eqn:E; [|discriminate]. injection H as <-. apply andb_true_iff in E. destruct E as [_ E]. apply Nat.eqb_eq in E. subst br.
  split; [reflexivity|]. split; [reflexivity|]. split; [exact I|]. intros i x _ _. cbn [sizes]. apply gradient_linear. intro h. unfold coordinates. cbn [length seq flat_map nth]. rewrite app_nil_r, suml_map. unfold f, D. rewrite <- suml_plus. apply suml_ext. intros k _. cbn [snd]. ring.
Qed.
Print Assumptions normal_prior.

(* Called with Jets the functor returns false exactly when the cost function fails; otherwise the
   values are those of the cost function and the derivative parts its Jacobian applied to the
   derivative parts of the inputs. *)
Theorem functor_jets cf ok f D m sp inputs : implements cf ok f D ->
  let x := fun p => a_ (inputs (fst p) (snd p)) in
  match ToFunctorJets cf m sp inputs with
  | None => ok x = false
  | Some out => ok x = true /\ forall i, i < num_residuals cf -> a_ (out i) = f i x /\ forall k, v_ (out i) k = suml (coordinates (sizes cf)) (fun p => (D i x p * v_ (inputs (fst p) (snd p)) k)%R)
  end.
Proof. exact (functor_spec cf ok f D m sp inputs). Qed.
Print Assumptions functor_jets.

(* If input (b, c) carries the value and the gradient of u (b, c) at t, a function of N variables,
   then output i carries the value and the gradient of f_i(u) at t. *)
Theorem functor_chain cf ok f D m sp inputs out N (u : nat * nat -> (nat -> R) -> R) t : implements cf ok f D -> differentiates cf ok f D ->
  (forall b c, a_ (inputs b c) = u (b, c) t) ->
  (forall p, In p (coordinates (sizes cf)) -> gradient (seq 0 N) (u p) t (v_ (inputs (fst p) (snd p)))) ->
  ToFunctorJets cf m sp inputs = Some out ->
  forall i, i < num_residuals cf -> a_ (out i) = f i (fun p => u p t) /\ gradient (seq 0 N) (fun s => f i (fun p => u p s)) t (v_ (out i)).
Proof.
  intros H HD HA HV HO i Hi. pose proof (functor_spec cf ok f D m sp inputs H) as F. cbn zeta in F. rewrite HO in F. destruct F as [F1 F2]. destruct (F2 i Hi) as [F3 F4].
  assert ((fun p => a_ (inputs (fst p) (snd p))) = (fun p => u p t)) as EX by (apply functional_extensionality; intros [b c]; apply HA). rewrite EX in F1, F3, F4. split; [exact F3|].
  replace (v_ (out i)) with (fun k => suml (coordinates (sizes cf)) (fun p => (D i (fun p => u p t) p * v_ (inputs (fst p) (snd p)) k)%R)) by (apply functional_extensionality; intro k; symmetry; apply F4).
  apply (chain (coordinates (sizes cf)) (seq 0 N) (f i) u t (D i (fun p => u p t)) (fun p => v_ (inputs (fst p) (snd p)))); [apply HD; assumption|exact HV].
Qed.
Print Assumptions functor_chain.

(* Called with doubles the functor returns the same values and the same verdict. *)
Theorem functor_doubles cf ok f D m sp inputs m1 P r sp1 : implements cf ok f D -> placed cf P r None sp1 ->
  (forall b c, b < block_count cf -> c < block_size cf b -> m1 (P b + c) = a_ (inputs b c)) ->
  let '(success, m2) := ToFunctorDoubles cf m1 P r sp1 in
  (forall q, q < sp1 -> ~ inside r (num_residuals cf) q -> m2 q = m1 q) /\
  match ToFunctorJets cf m sp inputs with
  | None => success = false
  | Some out => success = true /\ forall i, i < num_residuals cf -> m2 (r + i) = a_ (out i)
  end.
Proof.
  intros H PL HX. pose proof (functor_spec cf ok f D m sp inputs H) as F. cbn zeta in F. unfold ToFunctorDoubles. pose proof (H m1 P r None sp1 (fun p => a_ (inputs (fst p) (snd p))) PL HX) as E. destruct (Evaluate cf m1 P r None sp1) as [success m2]. destruct E as [E1 [E2 E3]]. split.
  - intros q Hq NI. apply E2; [exact Hq|]. intros [O|[b [A [_ [[j [O _]] _]]]]]; [exact (NI O)|discriminate O].
  - destruct (ToFunctorJets cf m sp inputs) as [out|]; [|congruence]. destruct F as [F1 F2]. split; [congruence|]. intros i Hi. rewrite (proj1 (F2 i Hi)). apply E3; [congruence|exact Hi].
Qed.
Print Assumptions functor_doubles.

(* Destruction: an owner deletes every part exactly once, a non-owner none. *)
Theorem conditioned_ownership wrapped conditioners : ~ In (Some wrapped) conditioners ->
  NoDup (ConditionedDestroy true wrapped conditioners) /\
  (forall o, In o (ConditionedDestroy true wrapped conditioners) <-> o = wrapped \/ In (Some o) conditioners) /\
  ConditionedDestroy false wrapped conditioners = [].
Proof.
  intro H. cbn [ConditionedDestroy].
  assert (forall o, In o (nodup Nat.eq_dec (flat_map (fun c => match c with None => [] | Some p => [p] end) conditioners)) <-> In (Some o) conditioners) as M.
  { intro o. rewrite nodup_In, in_flat_map. split; [intros [[p|] [H1 H2]]; [destruct H2 as [<-|[]]; exact H1|contradiction]|intro HI; exists (Some o); split; [exact HI|left; reflexivity]]. }
  split; [|split; [|reflexivity]].
  - apply NoDup_Add with (a := wrapped) (l := nodup Nat.eq_dec (flat_map (fun c => match c with None => [] | Some p => [p] end) conditioners)).
    + pose proof (Add_app wrapped (nodup Nat.eq_dec (flat_map (fun c => match c with None => [] | Some p => [p] end) conditioners)) []) as A. rewrite app_nil_r in A. exact A.
    + split; [apply NoDup_nodup|]. rewrite M. exact H.
  - intro o. rewrite in_app_iff, M. cbn [In]. split; [intros [A|[A|[]]]; [right|left]; congruence|intros [A|A]; [right; left; congruence|left; exact A]].
Qed.
Print Assumptions conditioned_ownership.

(* ---------------------------------------------------------------- examples *)
(* a cost function of two blocks of one parameter: the product *)
Definition product : CostFunction := mkCostFunction 1 [1; 1] (fun m P r J _ =>
  let x := m (P 0) in let y := m (P 1) in
  let m1 := set m r (x * y)%R in
  match J with
  | None => (true, m1)
  | Some j => let m2 := match j 0 with None => m1 | Some a => set m1 a y end in
              (true, match j 1 with None => m2 | Some a => set m2 a x end)
  end).
Definition product_value (_ : nat) (x : nat * nat -> R) : R := (x (0, 0)%nat * x (1, 0)%nat)%R.
Definition product_slope (_ : nat) (x : nat * nat -> R) (p : nat * nat) : R := match fst p with 0 => x (1, 0)%nat | _ => x (0, 0)%nat end.
Lemma product_implements : implements product (fun _ => true) product_value product_slope.
Proof.
  intros m P r J sp x PL HX. pose proof (HX 0 0 ltac:(cbn; lia) ltac:(cbn; lia)) as X0. pose proof (HX 1 0 ltac:(cbn; lia) ltac:(cbn; lia)) as X1. rewrite Nat.add_0_r in X0, X1.
  cbn [Evaluate product]. rewrite X0, X1. destruct J as [j|].
  2:{ split; [reflexivity|]. split; [intros q Hq NO; apply set_other; intros ->; apply NO; left; unfold inside; cbn; lia|]. intros _. split; [|intros b A i c _ [j [E _]]; discriminate E]. intros i Hi. replace i with 0 by (cbn in Hi; lia). rewrite Nat.add_0_r, set_same. reflexivity. }
  assert (forall A, j 0 = Some A -> A <> r) as N0 by (intros A E ->; apply (p_rj _ _ _ _ _ PL 0 r ltac:(cbn; lia) (ex_intro _ j (conj eq_refl E)) r); unfold inside; cbn; lia).
  assert (forall A, j 1 = Some A -> A <> r) as N1 by (intros A E ->; apply (p_rj _ _ _ _ _ PL 1 r ltac:(cbn; lia) (ex_intro _ j (conj eq_refl E)) r); unfold inside; cbn; lia).
  assert (forall A A', j 0 = Some A -> j 1 = Some A' -> A <> A') as N2 by (intros A A' E E' <-; apply (p_jj _ _ _ _ _ PL 0 1 A A ltac:(cbn; lia) ltac:(cbn; lia) ltac:(lia) (ex_intro _ j (conj eq_refl E)) (ex_intro _ j (conj eq_refl E')) A); unfold inside; cbn; lia).
  split; [reflexivity|]. split.
  - intros q Hq NO. assert (q <> r) as Q by (intros ->; apply NO; left; unfold inside; cbn; lia).
    assert (forall b A, b < 2 -> j b = Some A -> q <> A) as QJ.
    { intros b A Hb E ->. apply NO. right. exists b, A. split; [exact Hb|]. split; [exists j; split; [reflexivity|exact E]|]. destruct b as [|[|b]]; [| |lia]; unfold inside; cbn; lia. }
    destruct (j 1) as [a1|] eqn:E1; [rewrite set_other by (apply (QJ 1); [lia|exact E1])|]; (destruct (j 0) as [a0|] eqn:E0; [rewrite set_other by (apply (QJ 0); [lia|exact E0])|]; apply set_other; exact Q).
  - intros _. split.
    + intros i Hi. replace i with 0 by (cbn in Hi; lia). rewrite Nat.add_0_r.
      destruct (j 1) as [a1|] eqn:E1; [rewrite set_other by (apply not_eq_sym; apply N1; reflexivity)|]; (destruct (j 0) as [a0|] eqn:E0; [rewrite set_other by (apply not_eq_sym; apply N0; reflexivity)|]; apply set_same).
    + intros b A i c Hb [j' [EJ E]] Hi Hc. injection EJ as <-. assert (c = 0) as -> by (destruct b as [|[|b]]; cbn in Hb, Hc; lia). replace i with 0 by (cbn in Hi; lia). rewrite Nat.mul_0_l, !Nat.add_0_r.
      destruct b as [|[|b]]; [| |cbn in Hb; lia]; unfold product_slope; cbn [fst].
      * rewrite E. destruct (j 1) as [a1|] eqn:E1; [rewrite set_other by (apply N2; [exact E|reflexivity])|]; apply set_same.
      * rewrite E. apply set_same.
Qed.
Lemma product_differentiates : differentiates product (fun _ => true) product_value product_slope.
Proof.
  intros i x Hi _ eps He. exists eps. split; [exact He|]. intros h Hh. unfold norm in *. cbn [sizes product] in *. unfold coordinates in *. cbn [length seq flat_map nth map app suml] in *. unfold product_value, product_slope. cbn [fst].
  match goal with |- (Rabs ?A <= _)%R => replace A with (h (0, 0)%nat * h (1, 0)%nat)%R by ring end. rewrite Rabs_mult. pose proof (Rabs_pos (h (0, 0)%nat)). pose proof (Rabs_pos (h (1, 0)%nat)). nra.
Qed.
(* a conditioner: 1 / y, which fails at zero *)
Definition inverse : CostFunction := mkCostFunction 1 [1] (fun m P r J _ =>
  let y := m (P 0) in
  if Req_EM_T y 0 then (false, m)
  else let m1 := set m r (/ y)%R in
       (true, match J with None => m1 | Some j => match j 0 with None => m1 | Some a => set m1 a (- / (y * y))%R end end)).
Definition inverse_function : function := mkfunction (fun y => if Req_EM_T y 0 then false else true) (fun y => (/ y)%R) (fun y => (- / (y * y))%R).
Lemma inverse_implements : implements1 inverse inverse_function.
Proof.
  intros m P r J sp x PL HX. pose proof (HX 0 0 ltac:(cbn; lia) ltac:(cbn; lia)) as X0. rewrite Nat.add_0_r in X0. cbn [Evaluate inverse inverse_function f_ok f_value f_slope]. rewrite X0. destruct (Req_EM_T (x (0, 0)%nat) 0) as [Z|Z]; [split; [reflexivity|]; split; [reflexivity|discriminate]|].
  split; [reflexivity|].
  assert (forall j A, J = Some j -> j 0 = Some A -> A <> r) as N0 by (intros j A EJ E ->; apply (p_rj _ _ _ _ _ PL 0 r ltac:(cbn; lia) (ex_intro _ j (conj EJ E)) r); unfold inside; cbn; lia).
  split.
  - intros q Hq NO. assert (q <> r) as Q by (intros ->; apply NO; left; unfold inside; cbn; lia).
    destruct J as [j|]; [|apply set_other; exact Q]. destruct (j 0) as [a|] eqn:E; [|apply set_other; exact Q]. rewrite set_other; [apply set_other; exact Q|]. intros ->. apply NO. right. exists 0, a. split; [cbn; lia|]. split; [exists j; auto|unfold inside; cbn; lia].
  - intros _. split.
    + intros i Hi. replace i with 0 by (cbn in Hi; lia). rewrite Nat.add_0_r. destruct J as [j|]; [|apply set_same]. destruct (j 0) as [a|] eqn:E; [|apply set_same]. rewrite set_other by (apply not_eq_sym; apply (N0 j); [reflexivity|exact E]). apply set_same.
    + intros b A i c Hb [j' [EJ E]] Hi Hc. subst J. assert (b = 0) as -> by (cbn in Hb; lia). assert (c = 0) as -> by (cbn in Hc; lia). replace i with 0 by (cbn in Hi; lia). rewrite E, Nat.mul_0_l, !Nat.add_0_r. apply set_same.
Qed.

(* The conditioned product meets the hypotheses; it succeeds where the product is not zero. *)
Example ex_conditioned : exists cf, Conditioned product [Some inverse] = Some cf /\ sizes cf = [1; 1] /\
  implements cf (conditioned_ok 1 [Some inverse_function] (fun _ => true) product_value) (conditioned_value [Some inverse_function] product_value) (conditioned_slope [Some inverse_function] product_value product_slope) /\
  differentiates cf (conditioned_ok 1 [Some inverse_function] (fun _ => true) product_value) (conditioned_value [Some inverse_function] product_value) (conditioned_slope [Some inverse_function] product_value product_slope).
Proof.
  destruct (Conditioned product [Some inverse]) as [cf|] eqn:E; [|discriminate E]. exists cf. split; [reflexivity|].
  destruct (conditioned_evaluates product [Some inverse] cf [Some inverse_function] _ _ _ product_implements ltac:(constructor; [exact inverse_implements|constructor]) E) as [_ [Z I]]. split; [exact Z|]. split; [exact I|].
  apply (conditioned_differentiates product [Some inverse] cf [Some inverse_function] _ _ _ E product_differentiates).
  intros g y [Hg|[]] Hy. injection Hg as <-. cbn [f_ok f_value f_slope inverse_function] in *. destruct (Req_EM_T y 0) as [H|H]; [discriminate|].
  pose proof (derivable_pt_lim_div (fct_cte 1) id y 0 1 (derivable_pt_lim_const 1 y) (derivable_pt_lim_id y) H) as L. unfold div_fct, fct_cte, id, Rsqr in L.
  replace (- / (y * y))%R with ((0 * y - 1 * 1) / (y * y))%R by (field; exact H). replace Rinv with (fun y => 1 / y)%R by (apply functional_extensionality; intro z; unfold Rdiv; ring). exact L.
Qed.
(* the functor of the product at the Jets (3; 1, 0) and (5; 0, 2) *)
Example ex_functor m sp : exists out, ToFunctorJets product m sp (fun b _ => match b with 0 => mkjet 3 (fun k => match k with 0 => 1 | _ => 0 end) | _ => mkjet 5 (fun k => match k with 1 => 2 | _ => 0 end) end)%R = Some out /\
  (a_ (out 0%nat) = 15 /\ v_ (out 0%nat) 0%nat = 5 /\ v_ (out 0%nat) 1%nat = 6)%R.
Proof.
  match goal with |- exists out, ToFunctorJets _ _ _ ?I = _ /\ _ => pose proof (functor_jets product _ _ _ m sp I product_implements) as H; cbn zeta in H; destruct (ToFunctorJets product m sp I) as [out|]; [|discriminate H] end.
  exists out. split; [reflexivity|]. destruct H as [_ H]. destruct (H 0 ltac:(cbn; lia)) as [H1 H2]. rewrite H1, (H2 0), (H2 1). cbn [sizes product]. unfold coordinates, product_value, product_slope. cbn [length seq flat_map nth map app suml fst snd a_ v_]. split; [ring|split; ring].
Qed.
Example ex_prior : exists cf, NormalPrior 2 3 3 (fun i k => INR (i + k)) (fun _ => 1%R) = Some cf. Proof. eexists. reflexivity. Qed.
Example ex_ownership : ConditionedDestroy true 7 [Some 1; None; Some 2; Some 1] = [2; 1; 7]. Proof. reflexivity. Qed.

(* Findings.  The proviso of conditioned_ownership is needed: a wrapped function that is also its
   own conditioner is deleted twice.  The constructor accepts such an argument. *)
Theorem conditioned_shared_refuted : ~ (forall wrapped conditioners, NoDup (ConditionedDestroy true wrapped conditioners)).
Proof. intro H. specialize (H 0 [Some 0]). inversion_clear H as [|? ? N _]. apply N. left. reflexivity. Qed.
Print Assumptions conditioned_shared_refuted.
Example ex_shared : Conditioned inverse [Some inverse] <> None. Proof. discriminate. Qed.
(* CostFunctionToFunctor<kNumResiduals, Ns...> does not compare kNumResiduals with the wrapped
   function, which may write more residuals than the caller has room for. *)
Theorem functor_residuals_refuted : ~ (forall k Ns cf, StaticChecks (Some k) Ns cf = true -> num_residuals cf = k).
Proof. intro H. specialize (H 1 [3] (mkCostFunction 2 [3] (NormalPriorEvaluate 2 3 (fun _ _ => 1%R) (fun _ => 0%R))) eq_refl). discriminate H. Qed.
Print Assumptions functor_residuals_refuted.
(* the parameter blocks are compared *)
Theorem functor_parameters k Ns cf : StaticChecks k Ns cf = true -> sizes cf = Ns.
Proof.
  unfold StaticChecks. intro H. apply andb_true_iff in H. destruct H as [H _]. apply andb_true_iff in H. destruct H as [H H2]. apply andb_true_iff in H. destruct H as [_ H1]. apply Nat.eqb_eq in H1. revert H1 H2. generalize (sizes cf) as s. revert Ns.
  induction Ns as [|a Ns IH]; intros [|b s] H1 H2; try discriminate; [reflexivity|]. cbn [combine forallb fst snd] in H2. apply andb_true_iff in H2. destruct H2 as [H2 H3]. apply Nat.eqb_eq in H2. f_equal; [congruence|]. apply IH; [cbn in H1; lia|exact H3].
Qed.
Print Assumptions functor_parameters.
