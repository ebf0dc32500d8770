(* Each operation on Jets is exact. *)

From Coq Require Import Reals List ZArith Bool Lra Lia.
From Coquelicot Require Import Coquelicot.
From Verif Require Import JetModel JetSpec JetProofs.
Import ListNotations.
Local Open Scope R_scope.

Ltac junfold :=
  cbv beta iota zeta delta [jun jbin jtri jpos jneg jadd jadds jsadd jsub jsubs jssub jmul jmuls jsmul jdiv
    jsdiv jdivs jabs jcopysign jlog jlog10 jlog1p jexp jexpm1 jsqrt jcos jacos jsin jasin jtan jatan
    jsinh jcosh jtanh jfloor jceil jcbrt jexp2 jlog2 jhypot jhypot3 jfma jmidpoint jerf jerfc jlerp
    jatan2 jnorm jpows jconst jet_default ja jv vz vadd vsub vopp vscale vmul
    lift1 lift2 nopp nadd nsub nmul ndiv nz n1 nabs ncopysign nlog nlog10 nlog2 nlog1p nexp nexpm1
    nexp2 nsqrt ncos nsin ntan nacos nasin natan nsinh ncosh ntanh nfloor nceil ncbrt nhypot nhypot3
    nfma nerf nerfc natan2 nmidpoint nlerp].

(* decide the comparisons that the hypotheses determine *)
Ltac decide_all :=
  repeat match goal with
  | |- context [Rlt_dec ?a ?b] => destruct (Rlt_dec a b); try lra
  | |- context [Rle_dec ?a ?b] => destruct (Rle_dec a b); try lra
  | |- context [Req_EM_T ?a ?b] => destruct (Req_EM_T a b); try lra
  end.

Definition uexact (o : un) (a c : R) : Prop :=
  is_derive (uval o) a c /\
  forall v w, (forall k, v k = Some (w k)) ->
    ja (jun o (mkjet (Some a) v)) = Some (uval o a) /\
    forall k, jv (jun o (mkjet (Some a) v)) k = Some (c * w k).

(* ---------------- powers ---------------- *)

Lemma real_pow_int (t : R) (z : Z) : t <> 0 \/ (0 <= z)%Z -> real_pow t (IZR z) = powerRZ t z.
Proof.
  intro H. unfold real_pow. destruct (Rlt_dec 0 t) as [P|P].
  - rewrite powerRZ_Rpower by exact P. reflexivity.
  - destruct (Req_EM_T t 0) as [E|E].
    + subst t. destruct H as [H|H]; [lra|]. destruct (Req_EM_T (IZR z) 0) as [E0|E0].
      * apply eq_IZR in E0. subst z. reflexivity.
      * assert (z <> 0)%Z by (intro; subst; lra). destruct z as [|p|p]; try lia.
        simpl. rewrite pow_i; [reflexivity|lia].
    + rewrite int_part_IZR. reflexivity.
Qed.

Lemma npow_int (t : R) (z : Z) :
  t <> 0 \/ (0 <= z)%Z -> npow (Some t) (Some (IZR z)) = Some (powerRZ t z).
Proof.
  intro H. rewrite <- real_pow_int by exact H. unfold npow, real_pow, Rpower.
  destruct (Rlt_dec 0 t); [reflexivity|]. destruct (Req_EM_T t 0) as [E|E].
  - subst. destruct H as [H|H]; [lra|]. apply IZR_le in H.
    destruct (Rlt_dec 0 (IZR z)); destruct (Req_EM_T (IZR z) 0); try reflexivity; lra.
  - rewrite int_part_IZR. destruct (Req_EM_T (IZR z) (IZR z)); [reflexivity|lra].
Qed.

Lemma npow_pos (t s : R) : 0 < t -> npow (Some t) (Some s) = Some (real_pow t s).
Proof. intro H. unfold npow, real_pow, Rpower. destruct (Rlt_dec 0 t); [reflexivity|lra]. Qed.

Lemma is_derive_pow_pos (x s : R) : 0 < x -> is_derive (fun t => real_pow t s) x (s * real_pow x (s - 1)).
Proof.
  intro H. apply (is_derive_ext_loc (fun t => exp (s * ln t))).
  { generalize (locally_lt 0 x H). apply filter_imp. intros t Ht. unfold real_pow.
    destruct (Rlt_dec 0 t); [reflexivity|lra]. }
  eapply is_derive_eq; [auto_derive; [exact H|reflexivity]|].
  unfold real_pow. destruct (Rlt_dec 0 x); [|lra].
  replace ((s - 1) * ln x) with (s * ln x + - ln x) by ring.
  rewrite exp_plus, exp_Ropp, exp_ln by exact H. field. lra.
Qed.

Lemma is_derive_pow_int (x : R) (z : Z) :
  x <> 0 \/ (1 <= z)%Z -> is_derive (fun t => real_pow t (IZR z)) x (IZR z * powerRZ x (z - 1)).
Proof.
  intro H. apply (is_derive_ext_loc (fun t => powerRZ t z)).
  - destruct (Z_le_gt_dec 0 z) as [Hz|Hz].
    + apply filter_forall. intro t. symmetry. apply real_pow_int. right. exact Hz.
    + destruct H as [H|H]; [|lia]. generalize (locally_neq 0 x H). apply filter_imp.
      intros t Ht. symmetry. apply real_pow_int. left. exact Ht.
  - apply is_derive_powerRZ. exact H.
Qed.

Lemma is_derive_pow_exponent (s x : R) : 0 < s -> is_derive (real_pow s) x (ln s * real_pow s x).
Proof.
  intro H. apply (is_derive_ext (fun t => exp (t * ln s))).
  { intro t. unfold real_pow. destruct (Rlt_dec 0 s); [reflexivity|lra]. }
  eapply is_derive_eq; [auto_derive; [exact I|reflexivity]|].
  unfold real_pow. destruct (Rlt_dec 0 s); [|lra]. ring.
Qed.

Lemma pows_exact (x s : R) : udom (UPowS s) x -> exists c, uexact (UPowS s) x c.
Proof.
  cbn [udom]. intros [H|H].
  - exists (s * real_pow x (s - 1)). split; [apply is_derive_pow_pos; exact H|].
    intros v w Hv. cbn [jun uval]. unfold jpows. cbn [ja jv]. split; [apply npow_pos; exact H|].
    intro k. unfold vscale. rewrite Hv. unfold nsub, n1. cbn [lift2].
    rewrite npow_pos by exact H. reflexivity.
  - assert (exists z, s = IZR z /\ (x <> 0 \/ (1 <= z)%Z)) as (z & -> & Hz).
    { destruct H as [[H [z E]]|(H & [z E] & H1)]; exists z; split; auto; [left; lra|].
      right. apply le_IZR. lra. }
    exists (IZR z * powerRZ x (z - 1)). split; [apply is_derive_pow_int; exact Hz|].
    intros v w Hv. cbn [jun uval]. unfold jpows. cbn [ja jv].
    assert (Hz' : x <> 0 \/ (0 <= z)%Z) by (destruct Hz; [left|right]; auto; lia).
    split; [rewrite real_pow_int by exact Hz'; apply npow_int; exact Hz'|].
    intro k. unfold vscale. rewrite Hv. unfold nsub, n1. cbn [lift2].
    rewrite <- minus_IZR. rewrite npow_int; [reflexivity|].
    destruct Hz; [left|right]; auto; lia.
Qed.

Lemma spow_exact (x s : R) : udom (USPow s) x -> exists c, uexact (USPow s) x c.
Proof.
  cbn [udom]. intros [H|[-> H]].
  - exists (ln s * real_pow s x). split; [apply is_derive_pow_exponent; exact H|].
    intros v w Hv. cbn [jun uval].
    assert (E : jspow (Some s) (mkjet (Some x) v)
                = mkjet (npow (Some s) (Some x)) (vscale (nmul (nlog (Some s)) (npow (Some s) (Some x))) v)).
    { unfold jspow, niszero, ncmp, nz. cbn [ja jv].
      destruct (Req_EM_T s 0); [lra|]. destruct (Rlt_dec s 0); [lra|]. reflexivity. }
    rewrite E. cbn [ja jv]. split; [apply npow_pos; exact H|]. intro k. unfold vscale. rewrite Hv.
    rewrite npow_pos by exact H. unfold nlog. destruct (Rlt_dec 0 s); [reflexivity|lra].
  - exists 0. split.
    + apply (is_derive_const0 _ 0). generalize (locally_lt 0 x H). apply filter_imp. intros t Ht.
      cbn [uval]. unfold real_pow. destruct (Rlt_dec 0 0); [lra|].
      destruct (Req_EM_T 0 0); [|lra]. destruct (Req_EM_T t 0); [lra|reflexivity].
    + intros v w Hv. cbn [jun uval].
      assert (E : jspow (Some 0) (mkjet (Some x) v) = jconst nz).
      { unfold jspow, niszero, ncmp, nz. cbn [ja jv].
        destruct (Req_EM_T 0 0); [|lra]. destruct (Rlt_dec 0 x); [reflexivity|lra]. }
      rewrite E. unfold jconst. cbn [ja jv]. split.
      * unfold real_pow. destruct (Rlt_dec 0 0); [lra|]. destruct (Req_EM_T 0 0); [|lra].
        destruct (Req_EM_T x 0); [lra|reflexivity].
      * intro k. unfold vz, nz. f_equal. ring.
Qed.

(* ---------------- functions of one argument ---------------- *)

Ltac jet_part Hv := intros v w Hv; split; [|intro k]; junfold; rewrite ?Hv; decide_all; f_equal.

Lemma ln_pos (x : R) : 1 < x -> 0 < ln x.
Proof. intro H. rewrite <- ln_1. apply ln_increasing; lra. Qed.

Theorem un_exact (o : un) (a : R) : udom o a -> exists c, uexact o a c.
Proof.
  intro D. destruct o; cbn [udom] in D.
  - exists 1. split; [apply (is_derive_id (K:=R_AbsRing))|]. jet_part Hv. ring.
  - exists (-1). split; [unfold uval; auto_derive; [exact I|ring]|]. jet_part Hv. ring.
  - (* abs *)
    exists (sign a). split.
    + eapply is_derive_eq; [apply (is_derive_Rabs (fun t => t)); [apply (is_derive_id (K:=R_AbsRing))|exact D]|].
      unfold one; simpl. ring.
    + jet_part Hv; rewrite Rabs_R1.
      * rewrite sign_eq_m1 by lra. ring.
      * rewrite sign_eq_1 by lra. ring.
  - exists (/ a). split; [apply is_derive_ln; exact D|]. jet_part Hv. field. lra.
  - (* log10 *)
    assert (L : 0 < ln 10) by (apply ln_pos; lra).
    exists (/ (a * ln 10)). split; [unfold uval; auto_derive; [lra|field; lra]|].
    intros v w Hv; split; [|intro k]; junfold; rewrite ?Hv.
    + decide_all. reflexivity.
    + destruct (Rlt_dec 0 10); [|lra]. destruct (Req_EM_T (a * ln 10) 0) as [E|E].
      * exfalso. nra.
      * f_equal. field. lra.
  - (* log1p *)
    exists (/ (1 + a)). split; [unfold uval; auto_derive; [lra|field; lra]|]. jet_part Hv. field. lra.
  - exists (exp a). split; [apply is_derive_exp|]. jet_part Hv.
  - exists (exp a). split; [unfold uval; auto_derive; [exact I|ring]|]. jet_part Hv. ring.
  - (* sqrt *)
    assert (P : 0 < sqrt a) by (apply sqrt_lt_R0; exact D).
    exists (/ (2 * sqrt a)). split; [unfold uval; auto_derive; [lra|field; lra]|].
    jet_part Hv. field. lra.
  - exists (- sin a). split; [unfold uval; auto_derive; [exact I|ring]|]. jet_part Hv.
  - (* acos *)
    assert (P : 0 < sqrt (1 - a * a)) by (apply sqrt_lt_R0; nra).
    exists (- / sqrt (1 - a * a)). split; [apply is_derive_acos; exact D|].
    intros v w Hv; split; [|intro k]; junfold; rewrite ?Hv.
    + decide_all. reflexivity.
    + destruct (Rle_dec 0 (1 - a * a)); [|exfalso; nra].
      destruct (Req_EM_T (sqrt (1 - a * a)) 0); [lra|]. f_equal. field. lra.
  - exists (cos a). split; [unfold uval; auto_derive; [exact I|ring]|]. jet_part Hv.
  - (* asin *)
    assert (P : 0 < sqrt (1 - a * a)) by (apply sqrt_lt_R0; nra).
    exists (/ sqrt (1 - a * a)). split; [apply is_derive_asin; exact D|].
    intros v w Hv; split; [|intro k]; junfold; rewrite ?Hv.
    + decide_all. reflexivity.
    + destruct (Rle_dec 0 (1 - a * a)); [|exfalso; nra].
      destruct (Req_EM_T (sqrt (1 - a * a)) 0); [lra|]. f_equal. field. lra.
  - (* tan *)
    exists (tan a ^ 2 + 1). split; [apply is_derive_tan; exact D|].
    jet_part Hv. unfold tan. field. lra.
  - (* atan *)
    exists (/ (1 + a * a)). split; [eapply is_derive_eq; [apply is_derive_atan|reflexivity]|].
    intros v w Hv; split; [|intro k]; junfold; rewrite ?Hv; [reflexivity|].
    destruct (Req_EM_T (1 + a * a) 0); [exfalso; nra|]. f_equal. field. lra.
  - exists (cosh a). split; [apply is_derive_sinh|]. jet_part Hv.
  - exists (sinh a). split; [apply is_derive_cosh|]. jet_part Hv.
  - exists (1 - tanh a * tanh a). split; [apply is_derive_tanh|]. jet_part Hv.
  - (* floor *)
    exists 0. split.
    + apply (is_derive_const0 _ (IZR (Int_part a))). generalize (int_part_locally a D). apply filter_imp.
      intros t E. cbn [uval]. now rewrite E.
    + jet_part Hv. ring.
  - (* ceil *)
    exists 0. split.
    + assert (D' : ~ integer (- a)).
      { intros [z E]. apply D. exists (- z)%Z. rewrite opp_IZR. lra. }
      apply (is_derive_const0 _ (- IZR (Int_part (- a)))). cbn [uval].
      generalize (locally_through Ropp a (-1) _ ltac:(auto_derive; [exact I|ring]) (int_part_locally _ D')).
      apply filter_imp. intros t E. now rewrite E.
    + jet_part Hv. ring.
  - (* cbrt *)
    assert (S : 0 < a * a) by nra.
    assert (P : 0 < rcbrt (a * a)).
    { unfold rcbrt. destruct (Rlt_dec 0 (a * a)); [apply exp_pos|lra]. }
    exists (1 / (3 * rcbrt (a * a))). split; [apply is_derive_rcbrt; exact D|].
    jet_part Hv. field. lra.
  - (* exp2 *)
    exists (exp (a * ln 2) * ln 2). split; [unfold uval; auto_derive; [exact I|ring]|].
    jet_part Hv. ring.
  - (* log2 *)
    assert (L : 0 < ln 2) by (apply ln_pos; lra).
    exists (/ (a * ln 2)). split; [unfold uval; auto_derive; [lra|field; lra]|].
    intros v w Hv; split; [|intro k]; junfold; rewrite ?Hv.
    + decide_all. reflexivity.
    + destruct (Rlt_dec 0 2); [|lra]. destruct (Req_EM_T (a * ln 2) 0) as [E|E].
      * exfalso. nra.
      * f_equal. field. lra.
  - (* erf *)
    exists (2 / sqrt PI * exp (- a ^ 2)). split; [apply is_derive_erf|].
    assert (P : 0 < atan 1) by (rewrite atan_1; generalize PI_RGT_0; lra).
    assert (Q : 0 < sqrt (atan 1)) by (apply sqrt_lt_R0; exact P).
    intros v w Hv; split; [|intro k]; junfold; rewrite ?Hv; [f_equal; apply rerf_erf|].
    destruct (Rle_dec 0 (atan 1)); [|lra]. destruct (Req_EM_T (sqrt (atan 1)) 0); [lra|].
    f_equal. rewrite sqrt_atan1. replace (- a * a) with (- a ^ 2) by ring. ring.
  - (* erfc *)
    exists (- (2 / sqrt PI * exp (- a ^ 2))). split.
    + eapply is_derive_eq.
      * apply (is_derive_minus (K:=R_AbsRing) (V:=R_NormedModule) (fun _ => 1) erf).
        -- apply (is_derive_const (K:=R_AbsRing) (V:=R_NormedModule)).
        -- apply is_derive_erf.
      * unfold minus, zero, plus, opp; simpl. ring.
    + assert (P : 0 < atan 1) by (rewrite atan_1; generalize PI_RGT_0; lra).
      assert (Q : 0 < sqrt (atan 1)) by (apply sqrt_lt_R0; exact P).
      intros v w Hv; split; [|intro k]; junfold; rewrite ?Hv; [cbn [uval]; now rewrite rerf_erf|].
      destruct (Rle_dec 0 (atan 1)); [|lra]. destruct (Req_EM_T (sqrt (atan 1)) 0); [lra|].
      f_equal. rewrite sqrt_atan1. replace (- a * a) with (- a ^ 2) by ring. ring.
  - exists (2 * a). split; [unfold uval; auto_derive; [exact I|ring]|]. jet_part Hv. cbn [uval]. ring.
  - exists 1. split; [unfold uval; auto_derive; [exact I|ring]|]. jet_part Hv. ring.
  - exists 1. split; [unfold uval; auto_derive; [exact I|ring]|]. jet_part Hv; cbn [uval]; ring.
  - exists 1. split; [unfold uval; auto_derive; [exact I|ring]|]. jet_part Hv. ring.
  - exists (-1). split; [unfold uval; auto_derive; [exact I|ring]|]. jet_part Hv. ring.
  - exists s. split; [unfold uval; auto_derive; [exact I|ring]|]. jet_part Hv. ring.
  - exists s. split; [unfold uval; auto_derive; [exact I|ring]|]. jet_part Hv; cbn [uval]; ring.
  - exists (/ s). split; [unfold uval; auto_derive; [exact I|field; exact D]|].
    jet_part Hv; cbn [uval]; field; exact D.
  - exists (- s / (a * a)). split; [unfold uval; auto_derive; [exact D|field; exact D]|].
    intros v w Hv; split; [|intro k]; junfold; rewrite ?Hv.
    + decide_all. reflexivity.
    + destruct (Req_EM_T (a * a) 0); [exfalso; nra|]. f_equal. field. exact D.
  - exact (pows_exact a s D).
  - exact (spow_exact a s D).
Qed.
