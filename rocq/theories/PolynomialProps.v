(** C37, C38: polynomials used by the line searches and the subspace dogleg. *)
Require Import Reals List Lra Lia Psatz ZArith.
From Coquelicot Require Import Coquelicot.
From Verif Require Import PolynomialModel PolynomialSpec PolynomialProofs PolynomialProofs2 PolynomialProofs3.
Import ListNotations.
Open Scope R_scope.

(** EvaluatePolynomial computes the sum of the powers. *)
Theorem evaluate_is_power_sum : forall p x, eval p x = power_sum p x.
Proof. exact horner. Qed.
Print Assumptions evaluate_is_power_sum.

(** DifferentiatePolynomial is the derivative. *)
Theorem differentiate_is_derivative : forall p x, is_derive (eval p) x (eval (differentiate p) x).
Proof. exact eval_derive. Qed.
Print Assumptions differentiate_is_derivative.

(** C38: the roots returned with imaginary part 0 are exactly the real roots, for a
    polynomial of any degree (leading zeros allowed) that is not zero everywhere.  Up to
    degree 2 this depends on no solver; above it is relative to an exact
    eigenvalue solver and covers the companion matrix and its balancing. *)
Theorem roots_exact : forall exponent fuel eig p l x,
  ((length p <= 3)%nat \/ eigensolver_ok eig) ->
  (exists y, eval p y <> 0) ->
  find_polynomial_roots exponent fuel eig p = Some l ->
  (In (Some x, Some 0) l <-> eval p x = 0).
Proof.
  intros ex f eig p l x He (y & Hy) Hf. rewrite horner in *.
  destruct He as [L|He].
  - rewrite find_roots_no_eig in Hf by auto. eapply find_roots_exact; eauto. apply no_eig_ok.
  - eapply find_roots_exact; eauto.
Qed.
Print Assumptions roots_exact.

(** FindPolynomialRoots can only fail on the empty polynomial or in the eigenvalue solver. *)
Theorem roots_total : forall exponent fuel eig p, p <> [] -> (length p <= 3)%nat ->
  exists l, find_polynomial_roots exponent fuel eig p = Some l.
Proof. exact find_roots_small. Qed.
Print Assumptions roots_total.

(** C38: a quadratic with real roots, other than a x^2, factors over the two returned. *)
Theorem quadratic_real : forall a b c, a <> 0 -> 0 <= b * b - 4 * a * c -> (b <> 0 \/ c <> 0) ->
  exists r1 r2, quadratic_roots a b c = [ (Some r1, Some 0); (Some r2, Some 0) ] /\
    forall x, eval [a; b; c] x = a * (x - r1) * (x - r2).
Proof.
  intros a b c Ha HD Hn. destruct (quadratic_real_pair a b c Ha HD Hn) as (r1 & r2 & E & H).
  exists r1, r2. split; auto. intros x. rewrite horner, rsq. apply H.
Qed.
Print Assumptions quadratic_real.

(** C38: a complex pair re + i im, re - i im: the factorization over the complex
    numbers, whose product (x - re - i im) (x - re + i im) is (x - re)^2 + im^2. *)
Theorem quadratic_complex : forall a b c, a <> 0 -> b * b - 4 * a * c < 0 ->
  exists re im, quadratic_roots a b c = [ (Some re, Some im); (Some re, Some (- im)) ] /\ im <> 0 /\
    forall x, eval [a; b; c] x = a * ((x - re) ^ 2 + im ^ 2).
Proof.
  intros a b c Ha HD. destruct (quadratic_complex_pair a b c Ha HD) as (re & im & E & Hi & H).
  exists re, im. split; [auto|split; [auto|]]. intros x. rewrite horner, rsq. apply H.
Qed.
Print Assumptions quadratic_complex.

(** C38, the case that fails: for a x^2 the second root is the quotient 0 / 0. *)
Theorem quadratic_double_root_refuted :
  exists a b c, a <> 0 /\ 0 <= b * b - 4 * a * c /\
    quadratic_roots a b c = [ (Some 0, Some 0); (None, Some 0) ].
Proof. exists 1, 0, 0. split; [lra|split; [lra|]]. apply quadratic_double_zero. lra. Qed.
Print Assumptions quadratic_double_root_refuted.

Example roots_case : exists l,
  find_polynomial_roots (fun _ _ => 0%Z) 0 (fun _ _ => None) [0; 1; -3; 2] = Some l /\
  In (Some 1, Some 0) l /\ In (Some 2, Some 0) l.
Proof.
  assert (E : find_polynomial_roots (fun _ _ => 0%Z) 0 (fun _ _ => None) [0; 1; -3; 2] = Some (quadratic_roots 1 (-3) 2)).
  { unfold find_polynomial_roots. cbn [remove_leading_zeros].
    destruct (Req_EM_T 0 0) as [_|N]; [|lra]. destruct (Req_EM_T 1 0); [lra|]. reflexivity. }
  exists (quadratic_roots 1 (-3) 2). split; [exact E|].
  split; apply quadratic_complete; lra.
Qed.

(** C37: MinimizePolynomial returns a point of the interval with its value, never worse
    than the ends, the middle and any returned critical point; whatever the
    eigenvalue solver does. *)
Theorem minimize_sound : forall exponent fuel eig p a b, a <= b ->
  let r := minimize_polynomial exponent fuel eig p a b in
  a <= fst r <= b /\ snd r = eval p (fst r) /\
  snd r <= eval p a /\ snd r <= eval p b /\ snd r <= eval p ((a + b) / 2) /\
  forall l x i, (3 <= length p)%nat -> find_polynomial_roots exponent fuel eig (differentiate p) = Some l ->
    In (Some x, i) l -> a <= x <= b -> snd r <= eval p x.
Proof.
  intros ex f eig p a b Hab r. destruct (minimize_basic ex f eig p a b Hab) as ([A B] & C).
  split; [auto|split; auto].
Qed.
Print Assumptions minimize_sound.

(** C37: up to degree 3 (every polynomial the line searches build from two samples) it is
    a global minimum on the interval, with no assumption. *)
Theorem minimize_cubic_global : forall exponent fuel eig p a b, a <= b -> (length p <= 4)%nat ->
  let r := minimize_polynomial exponent fuel eig p a b in
  minimum_on (eval p) a b (fst r) /\ snd r = eval p (fst r).
Proof. exact minimize_global_small. Qed.
Print Assumptions minimize_cubic_global.

(** C37: for any degree, relative to an exact eigenvalue solver that succeeds. *)
Theorem minimize_global : forall exponent fuel eig p a b, a <= b -> eigensolver_ok eig ->
  ((3 <= length p)%nat -> find_polynomial_roots exponent fuel eig (differentiate p) <> None) ->
  let r := minimize_polynomial exponent fuel eig p a b in
  minimum_on (eval p) a b (fst r) /\ snd r = eval p (fst r).
Proof. exact minimize_global_gen. Qed.
Print Assumptions minimize_global.

(** C37: through samples at different points (a value wherever there is a gradient) there is exactly
    one polynomial with as many coefficients as constraints ... *)
Theorem interpolation_exists_unique : forall l, hermite l ->
  exists p, (length p = num_constraints l /\ (forall s, In s l -> matches p s)) /\
    forall q, length q = num_constraints l -> (forall s, In s l -> matches q s) -> q = p.
Proof.
  intros l Hl. destruct (hermite_exists l Hl) as (p & w & Lp & _ & Hm & _).
  exists p. split.
  - split; auto. intros s Hs. apply meets_matches. auto.
  - intros q Lq Hq. apply (hermite_same l); auto. intros s Hs. apply meets_matches. auto.
Qed.
Print Assumptions interpolation_exists_unique.

(** ... and FindInterpolatingPolynomial returns it. *)
Theorem interpolation_sound : forall solve l, hermite l ->
  solver_ok solve (equations (num_constraints l) l) ->
  length (interpolating_polynomial solve l) = num_constraints l /\
  forall s, In s l -> matches (interpolating_polynomial solve l) s.
Proof.
  intros solve l Hl Hs. destruct (hermite_exists l Hl) as (p & w & Lp & _ & Hm & _).
  destruct (interpolation_if_exists solve l p Hs Lp Hm) as [A B].
  split; auto. intros s Hin. apply meets_matches. auto.
Qed.
Print Assumptions interpolation_sound.

(** If the samples were taken from a polynomial with no more coefficients than samples, it is
    recovered. *)
Theorem interpolation_reproduces : forall solve l p, hermite l ->
  solver_ok solve (equations (num_constraints l) l) ->
  length p = num_constraints l -> (forall s, In s l -> matches p s) ->
  interpolating_polynomial solve l = p.
Proof.
  intros solve l p Hl Hs Lp Hm. destruct (interpolation_sound solve l Hl Hs) as [A B].
  apply (hermite_same l); auto; intros s Hin; apply meets_matches; auto.
Qed.
Print Assumptions interpolation_reproduces.

(** C37: MinimizeInterpolatingPolynomial with at most four constraints: the global minimum on
    the interval of the polynomial through the samples, so no sample in the interval is lower. *)
Theorem minimize_interpolating_global : forall exponent fuel eig solve l a b, a <= b -> hermite l ->
  (num_constraints l <= 4)%nat -> solver_ok solve (equations (num_constraints l) l) ->
  let p := interpolating_polynomial solve l in
  let r := minimize_interpolating exponent fuel eig solve l a b in
  (forall s, In s l -> matches p s) /\
  minimum_on (eval p) a b (fst r) /\ snd r = eval p (fst r) /\
  forall s v, In s l -> s_value s = Some v -> a <= s_x s <= b -> snd r <= v.
Proof.
  intros ex f eig solve l a b Hab Hl Hn Hs p r.
  destruct (interpolation_sound solve l Hl Hs) as [A B]. fold p in A, B.
  split; [exact B|].
  destruct (minimize_cubic_global ex f eig p a b Hab) as [[C1 C2] D]; [lia|].
  destruct (try_samples_spec p a b l (minimize_polynomial ex f eig p a b)) as ((E1 & E2) & F & G).
  { split; auto. }
  change (try_samples p a b l (minimize_polynomial ex f eig p a b)) with r in *.
  split; [|split; [auto|]].
  - split; [auto|]. intros y Hy. rewrite <- E2. specialize (C2 y Hy). rewrite <- D in C2. lra.
  - intros s v Hin Hv Hx. destruct (B s Hin) as [M _]. rewrite <- (M v Hv). apply G; auto.
Qed.
Print Assumptions minimize_interpolating_global.

(** Any number of constraints and any solvers: the result is in the interval and no sample
    there is lower. *)
Theorem minimize_interpolating_sound : forall exponent fuel eig solve l a b, a <= b ->
  let p := interpolating_polynomial solve l in
  let r := minimize_interpolating exponent fuel eig solve l a b in
  a <= fst r <= b /\ snd r = eval p (fst r) /\ snd r <= eval p a /\ snd r <= eval p b /\
  forall s, In s l -> a <= s_x s <= b -> snd r <= eval p (s_x s).
Proof.
  intros ex f eig solve l a b Hab p r.
  destruct (minimize_sound ex f eig p a b Hab) as (A & B & C & D & _).
  destruct (try_samples_spec p a b l (minimize_polynomial ex f eig p a b)) as ((E1 & E2) & F & G).
  { split; auto. }
  change (try_samples p a b l (minimize_polynomial ex f eig p a b)) with r in *.
  split; [auto|split; [auto|split; [lra|split; [lra|auto]]]].
Qed.
Print Assumptions minimize_interpolating_sound.

(** A line search step: samples of x^3 - 3 x with gradients at 0 and 2; the minimizer on
    [0, 2] has value -2, below both samples. *)
Definition two_samples := [ mkSample 0 (Some 0) (Some (-3)); mkSample 2 (Some 2) (Some 9) ].
Example interpolate_case : forall exponent fuel eig,
  let solve := fun _ => [1; 0; -3; 0] in
  hermite two_samples /\ solver_ok solve (equations (num_constraints two_samples) two_samples) /\
  num_constraints two_samples = 4%nat /\
  snd (minimize_interpolating exponent fuel eig solve two_samples 0 2) = -2.
Proof.
  intros ex f eig solve.
  assert (Hh : hermite two_samples).
  { split.
    - cbn. constructor; [intros [K|[]]; lra|constructor; [intros []|constructor]].
    - intros s [<-|[<-|[]]] _; discriminate. }
  assert (Hs : solver_ok solve (equations (num_constraints two_samples) two_samples)).
  { intros p _. split; [reflexivity|]. cbn. intros e He.
    repeat (destruct He as [<-|He]; [cbn; ring|]). destruct He. }
  split; [exact Hh|split; [exact Hs|split; [reflexivity|]]].
  destruct (minimize_interpolating_global ex f eig solve two_samples 0 2) as (_ & [M1 M2] & E & _);
    [lra|auto|cbn; lia|auto|].
  set (r := minimize_interpolating ex f eig solve two_samples 0 2) in *. clearbody r.
  change (interpolating_polynomial solve two_samples) with [1; 0; -3; 0] in *.
  specialize (M2 1 ltac:(lra)). rewrite <- E in M2. rewrite horner in *. cbn in M2, E.
  assert (0 <= (fst r - 1) ^ 2 * (fst r + 2)).
  { apply Rmult_le_pos; [apply pow2_ge_0|lra]. }
  cbn in H. nra.
Qed.

(** Degree 4 needs the eigenvalue solver: x^4 - 2 x^2, whose derivative 4 x^3 - 4 x has
    the roots -1, 0, 1. *)
Definition quartic_eig (n : nat) (m : mat) : option (list root) :=
  if Nat.eqb n 3 then
    if Req_EM_T (m 0%nat 0%nat) 0 then if Req_EM_T (m 1%nat 0%nat) 1 then if Req_EM_T (m 2%nat 0%nat) 0 then
    if Req_EM_T (m 0%nat 1%nat) 0 then if Req_EM_T (m 1%nat 1%nat) 0 then if Req_EM_T (m 2%nat 1%nat) 1 then
    if Req_EM_T (m 0%nat 2%nat) 0 then if Req_EM_T (m 1%nat 2%nat) 1 then if Req_EM_T (m 2%nat 2%nat) 0 then
    Some [ (Some (-1), Some 0); (Some 0, Some 0); (Some 1, Some 0) ]
    else None else None else None else None else None else None else None else None else None
  else None.
Lemma quartic_eig_ok : eigensolver_ok quartic_eig.
Proof.
  intros n m l x. unfold quartic_eig.
  destruct (Nat.eqb_spec n 3) as [->|]; [|discriminate].
  do 9 (match goal with |- context [Req_EM_T ?a ?b] => destruct (Req_EM_T a b) as [?E|]; [|discriminate] end).
  intros H. injection H as <-. split.
  - intros [K|[K|[K|[]]]]; injection K as <-; [exists (fun i => (-1) ^ i)|exists (fun i => 0 ^ i)|exists (fun i => 1 ^ i)];
      (split; [exists 0%nat; split; [lia|cbn; lra]|]);
      intros j Hj; destruct j as [|[|[|j]]]; try lia; cbn [sum_of]; rewrite ?E, ?E0, ?E1, ?E2, ?E3, ?E4, ?E5, ?E6, ?E7; cbn; ring.
  - intros (v & (i & Hi & Hv) & Hsum).
    assert (S0 := Hsum 0%nat ltac:(lia)). assert (S1 := Hsum 1%nat ltac:(lia)). assert (S2 := Hsum 2%nat ltac:(lia)).
    cbn [sum_of] in S0, S1, S2. rewrite E, E0, E1 in S0. rewrite E2, E3, E4 in S1. rewrite E5, E6, E7 in S2.
    assert (V1 : v 1%nat = x * v 0%nat) by lra. assert (V2 : v 2%nat = x * v 1%nat) by lra.
    assert (V3 : v 1%nat = x * v 2%nat) by lra.
    assert (Hv0 : v 0%nat <> 0).
    { intros K. rewrite K in V1. assert (K1 : v 1%nat = 0) by lra. rewrite K1 in V2.
      apply Hv. destruct i as [|[|[|i]]]; try lia; lra. }
    assert (Hx : v 0%nat * (x * ((x - 1) * (x + 1))) = 0).
    { rewrite V2, V1 in V3. replace (v 0%nat * (x * ((x - 1) * (x + 1)))) with (x * (x * (x * v 0%nat)) - x * v 0%nat) by ring. lra. }
    destruct (Rmult_integral _ _ Hx) as [K|K]; [contradiction|].
    destruct (Rmult_integral _ _ K) as [K'|K']; [right; left; do 2 f_equal; lra|].
    destruct (Rmult_integral _ _ K') as [K''|K'']; [right; right; left|left]; do 2 f_equal; lra.
Qed.
Example quartic_case :
  let p := [1; 0; -2; 0; 0] in
  find_polynomial_roots (fun _ _ => 0%Z) 1 quartic_eig (differentiate p) <> None /\
  snd (minimize_polynomial (fun _ _ => 0%Z) 1 quartic_eig p (-3) 2) = -1.
Proof.
  intros p.
  assert (F : find_polynomial_roots (fun _ _ => 0%Z) 1 quartic_eig (differentiate p) <> None).
  { unfold find_polynomial_roots, p. cbn [differentiate diff_loop].
    set (c3 := INR (length [0; -2; 0; 0]) * 1). set (c2 := INR (length [-2; 0; 0]) * 0).
    set (c1 := INR (length [0; 0]) * -2). set (c0 := INR (length [0]) * 0).
    assert (c3 = 4) by (unfold c3; cbn; ring). assert (c2 = 0) by (unfold c2; cbn; ring).
    assert (c1 = -4) by (unfold c1; cbn; ring). assert (c0 = 0) by (unfold c0; cbn; ring). clearbody c3 c2 c1 c0. subst.
    cbn [remove_leading_zeros]. destruct (Req_EM_T 4 0); [lra|].
    unfold companion_roots. cbn [nth map length]. change (4 - 1)%nat with 3%nat.
    set (q := [4 / 4; 0 / 4; -4 / 4; 0 / 4]).
    assert (B : forall i j, (i < 3)%nat -> (j < 3)%nat -> balance (fun _ _ => 0%Z) 1 3 (companion_matrix q) i j = companion_matrix q i j).
    { intros i j Hi Hj. unfold balance. destruct (Nat.eqb_spec i j); auto.
      assert (NS : forall k s, balance_step (fun _ _ => 0%Z) 3 k s = s).
      { intros k [m ch]. unfold balance_step. destruct (Req_EM_T _ _); auto. }
      cbn [balance_loop balance_pass]. rewrite !NS. destruct (Nat.eqb_spec i j); [contradiction|auto]. }
    unfold quartic_eig. rewrite !B by lia. cbn [Nat.eqb].
    unfold companion_matrix, q. cbn.
    repeat match goal with |- context [Req_EM_T ?a ?b] => destruct (Req_EM_T a b) as [?E|?N]; [|exfalso; lra] end.
    discriminate. }
  split; [exact F|].
  destruct (minimize_global (fun _ _ => 0%Z) 1 quartic_eig p (-3) 2) as [[M1 M2] E]; [lra|apply quartic_eig_ok|auto|].
  set (r := minimize_polynomial (fun _ _ => 0%Z) 1 quartic_eig p (-3) 2) in *. clearbody r.
  specialize (M2 1 ltac:(lra)). rewrite <- E in M2. unfold p in *. rewrite horner in *. cbn in M2, E.
  assert (0 <= (fst r * fst r - 1) ^ 2) by apply pow2_ge_0. cbn in H. nra.
Qed.
