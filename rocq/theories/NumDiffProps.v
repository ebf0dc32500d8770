(* C54: numeric differentiation. *)
From Coq Require Import Reals List Arith ZArith Bool Lia Lra.
From Coquelicot Require Import Coquelicot.
From Verif Require Import NumDiffModel NumDiffSpec NumDiffProofs NumDiffProofs2 NumDiffProofs3.
Import ListNotations.
Open Scope R_scope.

Section Props.
Variables (m : Method) (o : Options) (f : Functor) (n : nat) (ja jb : nat -> nat -> R) (junk : nat -> R) (x : Point).

(* Evaluate that reports success has written f x and, for every block whose jacobian is
   asked for, the difference quotients; the others stay null. *)
Theorem numdiff_success js : sensible m o -> (length js <= length x)%nat -> status (DynamicEvaluate m o f n ja jb junk x (Some js)) = true ->
  exists r js', f x = Some r /\ out_residuals (DynamicEvaluate m o f n ja jb junk x (Some js)) = Some r /\
    out_jacobians (DynamicEvaluate m o f n ja jb junk x (Some js)) = Some js' /\ length js' = length js /\
    (forall b, nth_error js b = Some None -> nth_error js' b = Some None) /\
    (forall b jac, nth_error js b = Some (Some jac) -> exists jac', nth_error js' b = Some (Some jac') /\ jacobian_of m o f n r x b jac jac').
Proof.
  intros Ok Hl St. unfold DynamicEvaluate in *. destruct (f x) as [r|] eqn:Ef; [|discriminate].
  pose proof (blocks_spec m o f n r ja jb x Ok junk js 0 (mkState x [x]) Hl eq_refl) as B. destruct (Blocks _ _ _ _ _ _ _ _ _ _ _) as [[[|] js'] s']; [|discriminate].
  destruct B as [_ [B2 [B3 [B4 _]]]]. exists r, js'. split; [reflexivity|]. split; [reflexivity|]. split; [reflexivity|]. split; [exact B2|]. split; [exact B3|exact B4].
Qed.

(* Evaluate that reports failure had to evaluate f at a point where it fails; the other
   way round too, except for Ridders' method, which may stop before reaching the point. *)
Theorem numdiff_failure js : sensible m o -> (length js <= length x)%nat ->
  (status (DynamicEvaluate m o f n ja jb junk x (Some js)) = false ->
    f x = None \/ exists r b j, f x = Some r /\ wanted x js b j /\ column_fails m o f r x b j) /\
  (m <> RIDDERS -> f x = None \/ (exists r b j, f x = Some r /\ wanted x js b j /\ column_fails m o f r x b j) ->
    status (DynamicEvaluate m o f n ja jb junk x (Some js)) = false).
Proof.
  intros Ok Hl. split.
  - intro St. unfold DynamicEvaluate in *. destruct (f x) as [r|] eqn:Ef; [|left; reflexivity]. right.
    pose proof (blocks_spec m o f n r ja jb x Ok junk js 0 (mkState x [x]) Hl eq_refl) as B. destruct (Blocks _ _ _ _ _ _ _ _ _ _ _) as [[[|] js'] s']; [discriminate|].
    destruct B as [[k [j [B1 [B2 B3]]]] _]. exists r, k, j. split; [reflexivity|]. split; [split; assumption|exact B3].
  - intros Nm H. destruct (status (DynamicEvaluate m o f n ja jb junk x (Some js))) eqn:St; [exfalso|reflexivity].
    destruct (numdiff_success js Ok Hl St) as [r [js' [Ef [_ [_ [_ [_ A]]]]]]]. destruct H as [H|[r1 [b [j [E1 [[[jac W1] W2] C]]]]]]; [congruence|].
    rewrite Ef in E1. injection E1 as <-. destruct (A b jac W1) as [jac' [_ [J _]]]. destruct (J j (proj2 W2)) as [c [C1 _]]. exact (column_not_fails m o f n r x Ok b j c Nm C1 C).
Qed.

(* f is called at x first, and then only at points that differ from x in one number, of a
   block whose jacobian is asked for, by a step of that number: every change is undone
   before the next one.  Without jacobians f is called once. *)
Theorem numdiff_calls js : sensible m o -> (length js <= length x)%nat ->
  exists cs, out_calls (DynamicEvaluate m o f n ja jb junk x (Some js)) = x :: cs /\ forall p, In p cs -> exists b j, wanted x js b j /\ sampled m o x b j p.
Proof.
  intros Ok Hl. unfold DynamicEvaluate. destruct (f x) as [r|] eqn:Ef; [|exists []; split; [reflexivity|intros ? []]].
  pose proof (blocks_spec m o f n r ja jb x Ok junk js 0 (mkState x [x]) Hl eq_refl) as B. destruct (Blocks _ _ _ _ _ _ _ _ _ _ _) as [[[|] js'] s'].
  - destruct B as [_ [_ [_ [_ [cs [B1 B2]]]]]]. exists (rev cs). cbn [out_calls calls] in *. rewrite B1, rev_app_distr. split; [reflexivity|]. intros p Hp. apply in_rev in Hp. destruct (B2 p Hp) as [k [j [C1 [C2 C3]]]]. exists k, j. split; [split; assumption|exact C3].
  - destruct B as [_ [cs [B1 B2]]]. exists (rev cs). cbn [out_calls calls] in *. rewrite B1, rev_app_distr. split; [reflexivity|]. intros p Hp. apply in_rev in Hp. destruct (B2 p Hp) as [k [j [C1 [C2 C3]]]]. exists k, j. split; [split; assumption|exact C3].
Qed.
Theorem numdiff_residuals_only :
  let out := DynamicEvaluate m o f n ja jb junk x None in out_calls out = [x] /\ out_residuals out = f x /\ out_jacobians out = None /\ (status out = true <-> f x <> None).
Proof. unfold DynamicEvaluate. destruct (f x); cbn; (do 3 (split; [reflexivity|])); split; congruence. Qed.

(* NumericDiffCostFunction differs from DynamicNumericDiffCostFunction in the result only *)
Theorem numdiff_static_same jacobians :
  let st := StaticEvaluate m o f n ja jb junk x jacobians in let dy := DynamicEvaluate m o f n ja jb junk x jacobians in
  out_residuals st = out_residuals dy /\ out_jacobians st = out_jacobians dy /\ out_calls st = out_calls dy /\ (status dy = true -> status st = true) /\ (status st = true <-> f x <> None).
Proof.
  unfold StaticEvaluate, DynamicEvaluate. destruct (f x) as [r|]; [destruct jacobians as [js|]|]; [destruct (Blocks _ _ _ _ _ _ _ _ _ _ _) as [[ok js'] s']| |]; cbn; (do 4 (split; [auto; fail|])); split; congruence.
Qed.

(* an entry of the jacobian *)
Lemma numdiff_entry js b i j : sensible m o -> (length js <= length x)%nat -> status (DynamicEvaluate m o f n ja jb junk x (Some js)) = true -> wanted x js b j -> (i < n)%nat ->
  exists r c, f x = Some r /\ column m o f n r x b j c /\ entry (DynamicEvaluate m o f n ja jb junk x (Some js)) x b i j = Some (c i).
Proof.
  intros Ok Hl St [[jac W1] W2] Hi. destruct (numdiff_success js Ok Hl St) as [r [js' [Ef [_ [Ej [_ [_ A]]]]]]]. destruct (A b jac W1) as [jac' [E1 [J _]]]. destruct (J j (proj2 W2)) as [c [C1 C2]].
  exists r, c. split; [exact Ef|]. split; [exact C1|]. unfold entry. rewrite Ej, E1. f_equal. apply C2. exact Hi.
Qed.
End Props.
Print Assumptions numdiff_success.
Print Assumptions numdiff_failure.
Print Assumptions numdiff_calls.
Print Assumptions numdiff_residuals_only.
Print Assumptions numdiff_static_same.

(* Exact derivatives: forward differences of affine functions, central differences of
   quadratic functions, Ridders' method on polynomials of degree four (if two rows are
   computed and their difference is not infinite). *)
Theorem numdiff_forward_exact o f n ja jb junk x js b i j a0 a1 : (length js <= length x)%nat -> (i < n)%nat -> wanted x js b j ->
  along f x b j i (fun t => a0 + a1 * t) -> status (DynamicEvaluate FORWARD o f n ja jb junk x (Some js)) = true ->
  entry (DynamicEvaluate FORWARD o f n ja jb junk x (Some js)) x b i j = Some a1.
Proof.
  intros Hl Hi W A St. destruct (numdiff_entry FORWARD o f n ja jb junk x js b i j ltac:(discriminate) Hl St W Hi) as [r [c [Ef [[q [Q1 Q2]] ->]]]]. rewrite Q2.
  rewrite (forward_along f r x b j _ q i _ (proj2 W) A Ef Q1). f_equal. pose proof (step_positive FORWARD o (coordinate x b j)). field. lra.
Qed.
Theorem numdiff_central_exact o f n ja jb junk x js b i j a0 a1 a2 : (length js <= length x)%nat -> (i < n)%nat -> wanted x js b j ->
  along f x b j i (fun t => a0 + a1 * t + a2 * (t * t)) -> status (DynamicEvaluate CENTRAL o f n ja jb junk x (Some js)) = true ->
  entry (DynamicEvaluate CENTRAL o f n ja jb junk x (Some js)) x b i j = Some a1.
Proof.
  intros Hl Hi W A St. destruct (numdiff_entry CENTRAL o f n ja jb junk x js b i j ltac:(discriminate) Hl St W Hi) as [r [c [Ef [[q [Q1 Q2]] ->]]]]. rewrite Q2.
  rewrite (central_along f x b j _ q i _ A Q1). f_equal. pose proof (step_positive CENTRAL o (coordinate x b j)). field. lra.
Qed.
Theorem numdiff_ridders_exact o f n ja jb junk x js b i j a : (length js <= length x)%nat -> (i < n)%nat -> wanted x js b j ->
  (2 <= max_num_ridders_extrapolations o)%Z -> 1 < ridders_step_shrink_factor o -> ridders_epsilon o <= largest_double ->
  (length a <= 5)%nat -> along f x b j i (polynomial a) ->
  (forall d, (forall k, (k <= 1)%nat -> central f x b j (ridders_step o (step RIDDERS o (coordinate x b j)) k) = Some (d k)) -> estimate n (ridders_step_shrink_factor o) d 1 1 < largest_double) ->
  status (DynamicEvaluate RIDDERS o f n ja jb junk x (Some js)) = true ->
  entry (DynamicEvaluate RIDDERS o f n ja jb junk x (Some js)) x b i j = Some (nth 1 a 0).
Proof.
  intros Hl Hi W O1 O2 O3 Ha A Fin St. assert (sensible RIDDERS o) as Ok by (intros _; split; [lia|exact O2]). destruct (numdiff_entry RIDDERS o f n ja jb junk x js b i j Ok Hl St W Hi) as [r [c [Ef [C ->]]]]. f_equal.
  unfold column in C. pose proof (step_positive RIDDERS o (coordinate x b j)) as Hp. set (h := step RIDDERS o (coordinate x b j)) in *.
  destruct C as [d [last [k0 [i0 [err C]]]]]. cbv zeta in C. destruct C as [C1 [C2 [C3 [C4 [C5 [C6 [C7 C8]]]]]]].
  assert (forall i', (i' <= last)%nat -> d i' i = (polynomial a (ridders_step o h i') - polynomial a (- ridders_step o h i')) / (2 * ridders_step o h i')) as Hd.
  { intros i' Hi'. destruct (C2 i' Hi') as [q [Q1 Q2]]. rewrite Q2. apply (central_along f x b j _ q i _ A Q1). }
  assert (h <> 0) as Hh by lra. assert (ridders_step_shrink_factor o <> 0) as Hs by lra.
  rewrite C4. destruct k0 as [|k0].
  - exfalso. cbn in C5. destruct C5 as [-> ->].
    assert (1 <= last)%nat as L1 by (destruct C8 as [C8|[C8|[C8 _]]]; [lia|lra|lia]).
    assert (forall k, exists q, (k <= 1)%nat -> central f x b j (ridders_step o h k) = Some q /\ forall r, d k r = q r) as Ch.
    { intro k. destruct (Nat.le_gt_cases k 1) as [L|L]; [destruct (C2 k ltac:(lia)) as [q Q]; exists q; intros _; exact Q|exists (fun _ => 0); lia]. }
    set (d2 := fun k => match central f x b j (ridders_step o h k) with Some q => q | None => d k end).
    assert (forall k r, (k <= 1)%nat -> d2 k r = d k r) as E2 by (intros k r1 Hk; unfold d2; destruct (Ch k) as [q Q]; destruct (Q Hk) as [-> Q2]; symmetry; apply Q2).
    assert (estimate n (ridders_step_shrink_factor o) d 1 1 < largest_double) as F1.
    { rewrite (estimate_ext n _ d d2) by (intros; symmetry; apply E2; assumption). apply Fin. intros k Hk. unfold d2. destruct (Ch k) as [q Q]. destruct (Q Hk) as [-> _]. reflexivity. }
    assert (largest_double <= estimate n (ridders_step_shrink_factor o) d 1 1) as F2.
    { destruct (Nat.eq_dec last 1) as [->|]; [destruct C7 as [C7|C7]; [lra|apply C7; lia]|apply C6; lia]. }
    lra.
  - rewrite (tableau_exact (ridders_step_shrink_factor o) d i a (ridders_step o h) O2); [reflexivity|apply ridders_step_nonzero; assumption|apply ridders_step_next; assumption|lia|intros; apply Hd; lia|lia].
Qed.
Print Assumptions numdiff_forward_exact.
Print Assumptions numdiff_central_exact.
Print Assumptions numdiff_ridders_exact.

(* Column k of the table of Ridders' method is exact for polynomials of degree 2 k + 2. *)
Theorem numdiff_tableau_exact s d r a (h : nat -> R) k i : 1 < s -> (forall i, h i <> 0) -> (forall i, h (S i) = h i / s) -> (k <= i)%nat ->
  (forall i', (i' <= i)%nat -> d i' r = (polynomial a (h i') - polynomial a (- h i')) / (2 * h i')) -> (length a <= 2 * k + 3)%nat ->
  tableau s d k i r = nth 1 a 0.
Proof. intros Hs Hh Hn Hi Hd Ha. exact (tableau_exact s d r a h Hs Hh Hn k i Hi Hd Ha). Qed.
Print Assumptions numdiff_tableau_exact.

(* Accuracy on smooth functions: first order in the step for forward differences, second
   order for central differences. *)
Theorem numdiff_forward_accuracy o f n ja jb junk x js b i j g M : (length js <= length x)%nat -> (i < n)%nat -> wanted x js b j -> along f x b j i g ->
  (forall t k, (k <= 2)%nat -> ex_derive_n g k t) -> (forall t, 0 <= t <= step FORWARD o (coordinate x b j) -> Rabs (Derive_n g 2 t) <= M) ->
  status (DynamicEvaluate FORWARD o f n ja jb junk x (Some js)) = true ->
  exists v, entry (DynamicEvaluate FORWARD o f n ja jb junk x (Some js)) x b i j = Some v /\ Rabs (v - Derive g 0) <= M / 2 * step FORWARD o (coordinate x b j).
Proof.
  intros Hl Hi W A D HM St. destruct (numdiff_entry FORWARD o f n ja jb junk x js b i j ltac:(discriminate) Hl St W Hi) as [r [c [Ef [[q [Q1 Q2]] ->]]]]. exists (c i). split; [reflexivity|]. rewrite Q2.
  rewrite (forward_along f r x b j _ q i _ (proj2 W) A Ef Q1). apply forward_error; [apply step_positive|exact D|exact HM].
Qed.
Theorem numdiff_central_accuracy o f n ja jb junk x js b i j g M : (length js <= length x)%nat -> (i < n)%nat -> wanted x js b j -> along f x b j i g ->
  (forall t k, (k <= 3)%nat -> ex_derive_n g k t) -> (forall t, - step CENTRAL o (coordinate x b j) <= t <= step CENTRAL o (coordinate x b j) -> Rabs (Derive_n g 3 t) <= M) ->
  status (DynamicEvaluate CENTRAL o f n ja jb junk x (Some js)) = true ->
  exists v, entry (DynamicEvaluate CENTRAL o f n ja jb junk x (Some js)) x b i j = Some v /\ Rabs (v - Derive g 0) <= M / 6 * (step CENTRAL o (coordinate x b j) * step CENTRAL o (coordinate x b j)).
Proof.
  intros Hl Hi W A D HM St. destruct (numdiff_entry CENTRAL o f n ja jb junk x js b i j ltac:(discriminate) Hl St W Hi) as [r [c [Ef [[q [Q1 Q2]] ->]]]]. exists (c i). split; [reflexivity|]. rewrite Q2.
  rewrite (central_along f x b j _ q i _ A Q1). apply central_error; [apply step_positive|exact D|exact HM].
Qed.
Print Assumptions numdiff_forward_accuracy.
Print Assumptions numdiff_central_accuracy.

(* The claim that a true result of NumericDiffCostFunction::Evaluate means that the
   jacobians were computed is false: f is defined at x = 0 only, Evaluate returns true and
   the jacobian is what the memory held. *)
Theorem numdiff_static_refuted m : m <> RIDDERS -> exists f : Functor, forall o n ja jb junk jac,
  let out := StaticEvaluate m o f n ja jb junk [[0]] (Some [Some jac]) in status out = true /\ out_jacobians out = Some [Some jac] /\
  status (DynamicEvaluate m o f n ja jb junk [[0]] (Some [Some jac])) = false.
Proof.
  intro Nm. exists (fun p => if Req_EM_T (nth 0 (nth 0 p []) 0) 0 then Some (fun _ => 0) else None). intros o n ja jb junk jac.
  pose proof (step_positive m o 0) as P. rewrite <- step_size_step in P.
  unfold StaticEvaluate, DynamicEvaluate. cbn [nth]. destruct (Req_EM_T 0 0) as [_|N]; [|congruence].
  unfold Blocks, EvaluateJacobianForParameterBlock. cbn [parameters nth length Columns]. unfold EvaluateJacobianColumn, call, write. cbn [parameters nth set_nth calls].
  destruct m; [| |congruence]; cbn [nth]; match goal with |- context [Req_EM_T (0 + ?h) 0] => destruct (Req_EM_T (0 + h) 0); [exfalso; lra|] end; cbn; auto.
Qed.
Print Assumptions numdiff_static_refuted.

(* With no extrapolations Ridders' method reports success and returns uninitialised memory. *)
Theorem numdiff_ridders_none_refuted o f n ja jb junk v r jac i : (max_num_ridders_extrapolations o <= 0)%Z -> f [[v]] = Some r -> (i < n)%nat ->
  let out := DynamicEvaluate RIDDERS o f n ja jb junk [[v]] (Some [Some jac]) in
  status out = true /\ entry out [[v]] 0 i 0 = Some (junk i) /\ out_calls out = [[[v]]].
Proof.
  intros Hm Ef Hi. unfold DynamicEvaluate. rewrite Ef. unfold Blocks, EvaluateJacobianForParameterBlock. cbn [parameters nth length Columns]. unfold EvaluateRiddersJacobianColumn.
  replace (Z.to_nat (max_num_ridders_extrapolations o)) with 0%nat by lia. cbn [Ridders]. unfold entry. cbn [status out_jacobians nth_error out_calls calls rev app nth length].
  split; [reflexivity|]. split; [|reflexivity]. f_equal. rewrite Nat.add_0_r, Nat.mul_1_r, Nat.mod_1_r, Nat.div_1_r. destruct (Nat.ltb_spec i n); [reflexivity|lia].
Qed.
Print Assumptions numdiff_ridders_none_refuted.

(* ---------------- a concrete case ---------------- *)
(* two blocks, one residual x0 * y0 * y1^2; the jacobian of the second block is asked for *)
Definition example_f : Functor := fun p => match p with [[u]; [v; w]] => Some (fun _ => u * v * (w * w)) | _ => None end.
Example numdiff_instance ja jb junk jac :
  let x := [[3]; [1; 2]] in let js := [None; Some jac] in
  (forall m, sensible m default_options) /\ (length js <= length x)%nat /\ wanted x js 1 0 /\ wanted x js 1 1 /\
  status (DynamicEvaluate CENTRAL default_options example_f 1 ja jb junk x (Some js)) = true /\
  entry (DynamicEvaluate CENTRAL default_options example_f 1 ja jb junk x (Some js)) x 1 0 0 = Some 12 /\
  entry (DynamicEvaluate CENTRAL default_options example_f 1 ja jb junk x (Some js)) x 1 0 1 = Some 12 /\
  step CENTRAL default_options 2 = 2 / 1000000.
Proof.
  cbv zeta. assert (sensible CENTRAL default_options) as Ok by discriminate.
  assert (wanted [[3]; [1; 2]] [None; Some jac] 1 0) as W0 by (split; [exists jac; reflexivity|split; cbn; lia]).
  assert (wanted [[3]; [1; 2]] [None; Some jac] 1 1) as W1 by (split; [exists jac; reflexivity|split; cbn; lia]).
  assert (status (DynamicEvaluate CENTRAL default_options example_f 1 ja jb junk [[3]; [1; 2]] (Some [None; Some jac])) = true) as St.
  { destruct (status _) eqn:E; [reflexivity|]. exfalso. destruct (proj1 (numdiff_failure CENTRAL default_options example_f 1 ja jb junk [[3]; [1; 2]] [None; Some jac] Ok ltac:(cbn; lia)) E) as [F|[r [b [j [_ [[[jc W] [V1 V2]] C]]]]]]; [discriminate|].
    unfold column_fails, central in C. destruct b as [|[|b]]; [discriminate| |destruct b; discriminate]. destruct j as [|[|j]]; [discriminate|discriminate|cbn in V2; lia]. }
  split; [intros m _; split; [cbn; lia|cbn; lra]|]. split; [cbn; lia|]. split; [exact W0|]. split; [exact W1|]. split; [exact St|]. split; [|split].
  - apply (numdiff_central_exact default_options example_f 1 ja jb junk [[3]; [1; 2]] [None; Some jac] 1 0 0 12 12 0); [cbn; lia|lia|exact W0| |exact St].
    intro t. eexists. split; [reflexivity|]. cbn. ring.
  - apply (numdiff_central_exact default_options example_f 1 ja jb junk [[3]; [1; 2]] [None; Some jac] 1 0 1 12 12 3); [cbn; lia|lia|exact W1| |exact St].
    intro t. eexists. split; [reflexivity|]. cbn. ring.
  - unfold step, relative, smallest. cbn [relative_step_size default_options]. rewrite (Rabs_right 2) by lra. destruct (Rle_dec _ _) as [L|L]; [lra|]. exfalso. apply L.
    apply Rle_trans with (sqrt ((1 / 1000000) * (1 / 1000000))); [|rewrite sqrt_square by lra; lra]. apply sqrt_le_1_alt. cbn [pow]. lra.
Qed.
Print Assumptions numdiff_instance.

(* Ridders' method on (1 + t)^3: the table is exact from its second column on *)
Example ridders_instance ja jb junk jac : let f : Functor := fun p => match p with [[u]] => Some (fun _ => u * u * u) | _ => None end in
  status (DynamicEvaluate RIDDERS default_options f 1 ja jb junk [[1]] (Some [Some jac])) = true /\
  entry (DynamicEvaluate RIDDERS default_options f 1 ja jb junk [[1]] (Some [Some jac])) [[1]] 0 0 0 = Some 3.
Proof.
  cbv zeta. set (f := fun p => _). assert (sensible RIDDERS default_options) as Ok by (intros _; split; [cbn; lia|cbn; lra]).
  assert (wanted [[1]] [Some jac] 0 0) as W by (split; [exists jac; reflexivity|split; cbn; lia]).
  assert (status (DynamicEvaluate RIDDERS default_options f 1 ja jb junk [[1]] (Some [Some jac])) = true) as St.
  { destruct (status _) eqn:E; [reflexivity|]. exfalso. destruct (proj1 (numdiff_failure RIDDERS default_options f 1 ja jb junk [[1]] [Some jac] Ok ltac:(cbn; lia)) E) as [F|[r [b [j [_ [[[jc W1] [V1 V2]] C]]]]]]; [discriminate|].
    unfold column_fails, central in C. destruct C as [i [_ C]]. destruct b as [|b]; [|destruct b; discriminate]. destruct j as [|j]; [discriminate|cbn in V2; lia]. }
  split; [exact St|].
  apply (numdiff_ridders_exact default_options f 1 ja jb junk [[1]] [Some jac] 0 0 0 [1; 3; 3; 1]); [cbn; lia|lia|exact W|cbn; lia|cbn; lra| |cbn; lia| | |exact St].
  - assert (1 <= largest_double); [|cbn [ridders_epsilon default_options]; lra]. unfold largest_double. assert (1 <= 2 ^ 971) as A by (apply pow_R1_Rle; lra). replace (2 ^ 1024) with (2 ^ 971 * 2 ^ 53) by (rewrite <- pow_add; reflexivity). revert A. generalize (2 ^ 971). intros z A. cbn [pow]. lra.
  - intro t. eexists. split; [reflexivity|]. cbn. ring.
  - intros d Hd.
    assert (step RIDDERS default_options (coordinate [[1]] 0 0) = 1 / 100) as Es.
    { unfold step, relative, smallest, coordinate. cbn [ridders_relative_initial_step_size default_options nth]. rewrite (Rabs_right 1) by lra.
      assert (sqrt (/ 2 ^ 52) <= 1 / 100) as Q by (apply Rle_trans with (sqrt ((1 / 100) * (1 / 100))); [apply sqrt_le_1_alt; cbn [pow]; lra|rewrite sqrt_square by lra; lra]).
      destruct (Rle_dec (sqrt (/ 2 ^ 52)) (1 / 100)); [|contradiction]. destruct (Rle_dec _ _); lra. }
    rewrite Es in Hd. assert (forall k, ridders_step default_options (1 / 100) k = 32 / 100 / 2 ^ k) as Er by (intro k; unfold ridders_step; cbn [ridders_step_shrink_factor max_num_ridders_extrapolations default_options]; replace (Z.to_nat (10 / 2)) with 5%nat by reflexivity; replace (2 ^ 5) with 32 by (cbn; ring); lra).
    assert (forall k, (k <= 1)%nat -> forall r, d k r = 3 + (32 / 100 / 2 ^ k) ^ 2) as Ed.
    { intros k Hk r. specialize (Hd k Hk). rewrite Er in Hd. unfold central, f in Hd. cbn [moved moved1 nth firstn skipn app] in Hd. injection Hd as Hd. rewrite <- Hd. cbn [pow]. field. apply pow_nonzero. lra. }
    unfold estimate. cbn [tableau minus]. unfold euclid. cbn [seq map fold_right]. rewrite !Ed by lia. cbn [ridders_step_shrink_factor default_options].
    replace (largest_double) with (largest_double + 0) by ring. apply Rle_lt_trans with 1.
    + apply Rmax_lub; (apply Rle_trans with (sqrt 1); [apply sqrt_le_1_alt|rewrite sqrt_1; lra]); replace (1 - 1)%nat with 0%nat by reflexivity; cbn [pow].
      * match goal with |- ?a * (?a * 1) + 0 <= 1 => replace a with (- (256 / 10000)) by field end. lra.
      * match goal with |- ?a * (?a * 1) + 0 <= 1 => replace a with (- (1024 / 10000)) by field end. lra.
    + unfold largest_double. assert (1 <= 2 ^ 971) as A by (apply pow_R1_Rle; lra). replace (2 ^ 1024) with (2 ^ 971 * 2 ^ 53) by (rewrite <- pow_add; reflexivity). revert A. generalize (2 ^ 971). intros z A. cbn [pow]. lra.
Qed.
Print Assumptions ridders_instance.
