(* C47: Jets compute exact derivatives. *)

From Coq Require Import Reals List ZArith Bool Lra Lia.
From Coquelicot Require Import Coquelicot.
From Verif Require Import JetModel JetSpec JetProofs JetProofs2 JetProofs3 JetProofs4.
Import ListNotations.
Local Open Scope R_scope.

(* The parameters are seeded with Jet(x_i, i).  If every operation on the executed
   path is applied where it is differentiable, the result is the value of the real
   function and its partial derivatives, which together are the total derivative. *)
Theorem jets_compute_exact_derivatives :
  forall (cpp20 : bool) (N : nat) (e : expr) (x : nat -> R) (env : nat -> jet),
    uses_below N e -> regular e x ->
    (forall i, (i < N)%nat -> env i = jvar (Some (x i)) i) ->
    ja (jeval cpp20 env e) = Some (val e x) /\
    exists g,
      gradient_at N (val e) x g /\
      forall k, (k < N)%nat ->
        jv (jeval cpp20 env e) k = Some (g k) /\ partial_at (val e) x k (g k).
Proof.
  intros cpp20 N e x env U Rg Henv. destruct (program_exact N e x U Rg) as (G & HG & HJ).
  destruct (HJ cpp20 env (fun i k => if Nat.eqb k i then 1 else 0)) as [A B].
  { intros i Hi. rewrite (Henv i Hi). unfold jvar. cbn [ja jv]. split; [reflexivity|].
    intro k. destruct (Nat.eqb k i); reflexivity. }
  split; [exact A|]. exists G. split; [exact HG|]. intros k Hk. split.
  - rewrite B. f_equal. rewrite (dot_ext N G G _ (fun i => if Nat.eqb i k then 1 else 0)).
    + apply dot_unit_r. exact Hk.
    + reflexivity.
    + intros i _. rewrite Nat.eqb_sym. reflexivity.
  - apply (gradient_partial N); assumption.
Qed.
Print Assumptions jets_compute_exact_derivatives.

(* Whatever the infinitesimal parts of the inputs are: the k-th component of the
   result is the rate of change along any curve that moves the inputs with the
   k-th components of theirs (chain rule). *)
Theorem jets_chain_rule :
  forall (cpp20 : bool) (N : nat) (e : expr) (x : nat -> R) (env : nat -> jet)
         (s : nat -> nat -> R) (curve : R -> nat -> R) (t : R) (k : nat),
    uses_below N e -> regular e x ->
    (forall i, (i < N)%nat ->
       ja (env i) = Some (x i) /\ (forall k, jv (env i) k = Some (s i k)) /\
       curve t i = x i /\ is_derive (fun u => curve u i) t (s i k)) ->
    exists l, jv (jeval cpp20 env e) k = Some l /\ is_derive (fun u => val e (curve u)) t l.
Proof.
  intros cpp20 N e x env s curve t k U Rg H. destruct (program_exact N e x U Rg) as (G & HG & HJ).
  destruct (HJ cpp20 env s) as [A B].
  { intros i Hi. destruct (H i Hi) as (H1 & H2 & _). split; assumption. }
  exists (dot N G (fun i => s i k)). split; [apply B|]. apply HG. intros i Hi.
  destruct (H i Hi) as (_ & _ & H3 & H4). split; assumption.
Qed.
Print Assumptions jets_chain_rule.

(* a program that uses most kinds of operations, at a regular point *)
Definition sample : expr :=
  If CLt (Var 0) (Bin BMul (Var 1) (Var 1))
     (Bin BAdd (Bin BAtan2 (Var 0) (Un UNeg (Var 1)))
               (Bin BDiv (Un USin (Bin BPow (Var 1) (Var 0)))
                         (Bin BHypot (Var 0) (Var 1))))
     (Un USqrt (Var 0)).
Example sample_regular : uses_below 2 sample /\ regular sample (fun i => if Nat.eqb i 0 then 1 else 2).
Proof.
  assert (N1 : (1 : R) <> 2 * 2) by lra.
  split; [cbn; repeat split; lia|].
  cbn [sample regular val uval bval tval udom bdom tdom Nat.eqb].
  split; [exact I|]. split; [tauto|]. split; [exact N1|].
  destruct (holds_dec CLt 1 (2 * 2)) as [Q|Q]; [|cbn in Q; exfalso; lra].
  split; [split; [exact I|split; [tauto|left; lra]]|].
  split; [|left; exact I]. split; [split; [split; [exact I|split; [exact I|left; lra]]|left; exact I]|].
  split; [split; [exact I|split; [exact I|left; lra]]|].
  left. intro E. assert (S : 0 < sqrt (1 ^ 2 + 2 ^ 2)) by (apply sqrt_lt_R0; lra). lra.
Qed.
Example product_rule_case :
  (* d/dx (x sin x) at 2 *)
  jv (jeval true (fun i => jvar (Some 2) i) (Bin BMul (Var 0) (Un USin (Var 0)))) 0
  = Some (2 * cos 2 + sin 2).
Proof.
  cbn [jeval jbin jun]. junfold. unfold jvar, n1, nz. cbn [jv Nat.eqb]. f_equal. ring.
Qed.

(* ---------------- ties and NaN in fmax and fmin ---------------- *)

(* Equal scalar parts: the average, in either order of the arguments, and in C++17
   as in C++20. *)
Theorem fmax_fmin_tie :
  forall (cpp20 : bool) (a : R) (v w : nat -> R),
    let x := mkjet (Some a) (fun k => Some (v k)) in
    let y := mkjet (Some a) (fun k => Some (w k)) in
    ja (jfmax cpp20 x y) = Some a /\ ja (jfmin cpp20 x y) = Some a /\
    forall k,
      jv (jfmax cpp20 x y) k = Some ((v k + w k) / 2) /\
      jv (jfmin cpp20 x y) k = Some ((v k + w k) / 2).
Proof.
  intros cpp20 a v w x y.
  assert (E : forall z, (if Rlt_dec a a then true else z) = z) by (intro; destruct (Rlt_dec a a); [lra|reflexivity]).
  assert (M : jfmax cpp20 x y = javerage cpp20 x y).
  { unfold jfmax, x, y, jisnan, jislessgreater, jcmp, ncmp. cbn [ja nisnan orb].
    destruct (Rlt_dec a a); [lra|]. reflexivity. }
  assert (M' : jfmin cpp20 x y = javerage cpp20 x y).
  { unfold jfmin, x, y, jisnan, jislessgreater, jcmp, ncmp. cbn [ja nisnan orb].
    destruct (Rlt_dec a a); [lra|]. reflexivity. }
  rewrite M, M'. unfold javerage, x, y. destruct cpp20; junfold;
    (split; [f_equal; field|split; [f_equal; field|intro k; split; f_equal; field]]).
Qed.
Print Assumptions fmax_fmin_tie.

(* NaN is missing data *)
Theorem fmax_fmin_nan :
  forall (cpp20 : bool) (x y : jet),
    (ja x = None -> jfmax cpp20 x y = y /\ jfmin cpp20 x y = y) /\
    (ja x <> None -> ja y = None -> jfmax cpp20 x y = x /\ jfmin cpp20 x y = x).
Proof.
  intros cpp20 x y. split.
  - intro H. unfold jfmax, jfmin, jisnan. rewrite H. cbn [nisnan orb]. split; reflexivity.
  - intros H H'. unfold jfmax, jfmin, jisnan, jcmp. rewrite H'. destruct (ja x) as [a|]; [|contradiction].
    cbn [nisnan orb ncmp]. split; reflexivity.
Qed.
Print Assumptions fmax_fmin_nan.
Example fmax_nan_case : jfmax false (mkjet None vz) (jvar (Some 3) 0) = jvar (Some 3) 0.
Proof. apply (proj1 (fmax_fmin_nan false _ _)). reflexivity. Qed.

(* ---------------- pow with a negative base and a varying exponent ---------------- *)

(* The value is right, and exactly the derivatives that do not exist are NaN:
   those in whose direction the exponent varies. *)
Theorem pow_negative_base :
  forall (a : R) (z : Z) (v w : nat -> R) (k : nat),
    a < 0 ->
    let r := jpow (mkjet (Some a) (fun i => Some (v i))) (mkjet (Some (IZR z)) (fun i => Some (w i))) in
    ja r = Some (powerRZ a z) /\
    (w k <> 0 -> jv r k = None) /\
    (w k = 0 -> exists l, jv r k = Some (l * v k) /\ is_derive (fun t => powerRZ t z) a l).
Proof.
  intros a z v w k Ha r.
  assert (E : r = mkjet (npow (Some a) (Some (IZR z)))
                (nan_where (fun i => Some (w i))
                  (vscale (nmul (Some (IZR z)) (npow (Some a) (nsub (Some (IZR z)) n1))) (fun i => Some (v i))))).
  { unfold r, jpow, niszero, ncmp, nz, nfloor, lift1. cbn [ja jv]. rewrite int_part_IZR.
    destruct (Req_EM_T a 0); [lra|]. destruct (Rlt_dec a 0); [|lra].
    destruct (Req_EM_T (IZR z) (IZR z)); [reflexivity|lra]. }
  rewrite E. cbn [ja jv]. unfold nan_where, niszero, ncmp, nz.
  split; [apply npow_int; left; lra|]. split.
  - intro Hw. destruct (Req_EM_T (w k) 0); [contradiction|reflexivity].
  - intro Hw. destruct (Req_EM_T (w k) 0); [|contradiction].
    exists (IZR z * powerRZ a (z - 1)). split; [|apply is_derive_powerRZ; left; lra].
    unfold vscale, nsub, n1. cbn [lift2]. rewrite <- minus_IZR, npow_int by (left; lra). reflexivity.
Qed.
Print Assumptions pow_negative_base.

(* The same for a constant negative base: a derivative is NaN exactly when the
   exponent varies in its direction, else zero. *)
Theorem pow_constant_negative_base :
  forall (a : R) (z : Z) (w : nat -> R) (k : nat),
    a < 0 ->
    let r := jspow (Some a) (mkjet (Some (IZR z)) (fun i => Some (w i))) in
    ja r = Some (powerRZ a z) /\
    (w k <> 0 -> jv r k = None) /\ (w k = 0 -> jv r k = Some 0).
Proof.
  intros a z w k Ha r.
  assert (E : r = mkjet (npow (Some a) (Some (IZR z))) (nan_where (fun i => Some (w i)) vz)).
  { unfold r, jspow, niszero, ncmp, nz, nfloor, lift1. cbn [ja jv]. rewrite int_part_IZR.
    destruct (Req_EM_T a 0); [lra|]. destruct (Rlt_dec a 0); [|lra].
    destruct (Req_EM_T (IZR z) (IZR z)); [reflexivity|lra]. }
  rewrite E. cbn [ja jv]. unfold nan_where, niszero, ncmp, nz.
  split; [apply npow_int; left; lra|]. split; intro Hw; destruct (Req_EM_T (w k) 0);
    try contradiction; reflexivity.
Qed.
Print Assumptions pow_constant_negative_base.
Example pow_constant_negative_base_case :
  ja (jspow (Some (-2)) (mkjet (Some 3) (fun i => Some (INR i)))) = Some (-8) /\
  jv (jspow (Some (-2)) (mkjet (Some 3) (fun i => Some (INR i)))) 1 = None.
Proof.
  destruct (pow_constant_negative_base (-2) 3 INR 1 ltac:(lra)) as (A & B & _).
  split; [rewrite A; f_equal; simpl; ring|apply B; simpl; lra].
Qed.

(* fdim with a NaN argument is NaN *)
Theorem fdim_nan :
  forall x y : jet, ja x = None \/ ja y = None -> ja (jfdim x y) = None.
Proof.
  intros x y H. unfold jfdim, jisnan.
  destruct H as [H|H]; rewrite H; cbn [nisnan]; [|rewrite orb_true_r]; reflexivity.
Qed.
Print Assumptions fdim_nan.

(* ---------------- what fails ---------------- *)

(* pow(x, 0.0) is 1 for every x, with derivative 0; at x = 0 the Jet is NaN (0 times
   pow(0, -1)). *)
Theorem pow_zero_exponent_refuted :
  (forall x, real_pow x 0 = 1) /\
  jv (jpows (jvar (Some 0) 0) (Some 0)) 0 = None /\
  jv (jpow (jvar (Some 0) 0) (jconst (Some 0))) 0 = None.
Proof.
  split.
  - intro x. unfold real_pow. destruct (Rlt_dec 0 x); [rewrite Rmult_0_l; apply exp_0|].
    destruct (Req_EM_T x 0); [destruct (Req_EM_T 0 0); [reflexivity|lra]|].
    replace 0 with (IZR 0) by reflexivity. rewrite int_part_IZR. reflexivity.
  - assert (P : npow (Some 0) (nsub (Some 0) n1) = None).
    { unfold npow, nsub, n1. cbn [lift2]. destruct (Rlt_dec 0 0); [lra|].
      destruct (Req_EM_T 0 0); [|lra]. destruct (Rlt_dec 0 (0 - 1)); [lra|].
      destruct (Req_EM_T (0 - 1) 0); [lra|]. reflexivity. }
    split.
    + unfold jpows, jvar, vscale. cbn [ja jv]. rewrite P. reflexivity.
    + assert (E : jpow (jvar (Some 0) 0) (jconst (Some 0))
                  = mkjet (npow (Some 0) (Some 0))
                      (vadd (vscale (nmul (Some 0) (npow (Some 0) (nsub (Some 0) n1))) (jv (jvar (Some 0) 0)))
                            (vscale (nmul (npow (Some 0) (Some 0)) (nlog (Some 0))) vz))).
      { unfold jpow, jvar, jconst, niszero, ncmp, nz, n1. cbn [ja jv].
        destruct (Req_EM_T 0 0); [|lra]. destruct (Rle_dec 1 0); [lra|]. destruct (Rlt_dec 0 0); [lra|].
        reflexivity. }
      rewrite E. cbn [jv]. unfold vadd, vscale. rewrite P. reflexivity.
Qed.
Print Assumptions pow_zero_exponent_refuted.

(* A branch taken at a tie: this program returns x for every x, but at 0 the Jet
   has derivative 0. *)
Theorem branch_at_tie_refuted :
  let e := If CEq (Var 0) (Const 0) (Const 0) (Var 0) in
  (forall x, val e x = x 0%nat) /\
  jv (jeval true (fun i => jvar (Some 0) i) e) 0 = Some 0 /\
  forall x, partial_at (val e) x 0 1.
Proof.
  intro e.
  assert (V : forall x, val e x = x 0%nat).
  { intro x. unfold e. cbn [val holds_dec]. destruct (Req_EM_T (x 0%nat) 0) as [E|E]; [now rewrite E|reflexivity]. }
  split; [exact V|]. split.
  - unfold e. cbn [jeval]. unfold jcmp, jvar, jconst, ncmp. cbn [ja jv].
    destruct (Req_EM_T 0 0); [reflexivity|lra].
  - intro x. unfold partial_at. apply (is_derive_ext (fun t => t)).
    + intro t. rewrite V. reflexivity.
    + apply (is_derive_id (K:=R_AbsRing)).
Qed.
Print Assumptions branch_at_tie_refuted.

(* ---------------- what the library functions of the model are ---------------- *)

(* atan2 is the angle of the point (x, y), cbrt the real cube root *)
Theorem atan2_cbrt_meaning :
  (forall y x, ~ (x = 0 /\ y = 0) ->
     - PI < ratan2 y x <= PI /\
     x = sqrt (x ^ 2 + y ^ 2) * cos (ratan2 y x) /\ y = sqrt (x ^ 2 + y ^ 2) * sin (ratan2 y x)) /\
  (forall x, rcbrt x ^ 3 = x).
Proof.
  split; [|exact rcbrt_cube]. intros y x H. split; [apply ratan2_bounds|].
  assert (A : forall p q, 0 < p -> sqrt (p ^ 2 + q ^ 2) = p * sqrt (1 + (q / p)²)).
  { intros p q Hp. replace (p ^ 2 + q ^ 2) with (p² * (1 + (q / p)²)) by (unfold Rsqr; field; lra).
    rewrite sqrt_mult_alt by apply Rle_0_sqr. rewrite sqrt_Rsqr by lra. reflexivity. }
  assert (P : forall q, 0 < sqrt (1 + q²)).
  { intro q. apply sqrt_lt_R0. generalize (Rle_0_sqr q). lra. }
  destruct (Rtotal_order y 0) as [C|[C|C]].
  - rewrite ratan2_down by exact C.
    replace (x ^ 2 + y ^ 2) with ((- y) ^ 2 + x ^ 2) by ring. rewrite A by lra.
    replace ((x / - y)²) with ((x / y)²) by (unfold Rsqr; field; lra).
    replace (- (PI / 2) - atan (x / y)) with (- (PI / 2 + atan (x / y))) by ring.
    rewrite cos_neg, sin_neg. rewrite <- cos_sin.
    replace (cos (PI / 2 + atan (x / y))) with (- sin (atan (x / y))) by (rewrite sin_cos; ring).
    rewrite cos_atan, sin_atan. generalize (P (x / y)). intro Q. split; field; lra.
  - subst y. assert (X : x <> 0) by (intro; apply H; auto). unfold ratan2.
    replace (x ^ 2 + 0 ^ 2) with (x²) by (unfold Rsqr; ring). rewrite sqrt_Rsqr_abs.
    replace (0 / x) with 0 by (field; exact X). rewrite atan_0.
    destruct (Rlt_dec 0 x); [|destruct (Rlt_dec x 0); [|lra]].
    + rewrite cos_0, sin_0, Rabs_right by lra. lra.
    + destruct (Rle_dec 0 0); [|lra]. rewrite Rplus_0_l, cos_PI, sin_PI, Rabs_left by lra. lra.
  - rewrite ratan2_up by exact C. rewrite cos_shift, sin_shift.
    replace (x ^ 2 + y ^ 2) with (y ^ 2 + x ^ 2) by ring. rewrite A by lra.
    rewrite cos_atan, sin_atan. generalize (P (x / y)). intro Q. split; field; lra.
Qed.
Print Assumptions atan2_cbrt_meaning.
