(* Operations of two and three arguments, and whole programs. *)

From Coq Require Import Reals List ZArith Bool Lra Lia.
From Coquelicot Require Import Coquelicot.
From Verif Require Import JetModel JetSpec JetProofs JetProofs2.
Import ListNotations.
Local Open Scope R_scope.

Ltac eqR := match goal with |- ?x = ?y => change (@eq R x y) end.

Definition bexact (o : bin) (a b c1 c2 : R) : Prop :=
  (forall (f g : R -> R) (t df dg : R),
     f t = a -> g t = b -> is_derive f t df -> is_derive g t dg ->
     is_derive (fun s => bval o (f s) (g s)) t (c1 * df + c2 * dg)) /\
  forall cpp20 v w v' w', (forall k, v k = Some (w k)) -> (forall k, v' k = Some (w' k)) ->
    ja (jbin cpp20 o (mkjet (Some a) v) (mkjet (Some b) v')) = Some (bval o a b) /\
    forall k, jv (jbin cpp20 o (mkjet (Some a) v) (mkjet (Some b) v')) k = Some (c1 * w k + c2 * w' k).

Definition texact (o : tri) (a b c c1 c2 c3 : R) : Prop :=
  (forall (f g h : R -> R) (t df dg dh : R),
     f t = a -> g t = b -> h t = c -> is_derive f t df -> is_derive g t dg -> is_derive h t dh ->
     is_derive (fun s => tval o (f s) (g s) (h s)) t (c1 * df + c2 * dg + c3 * dh)) /\
  forall v w v' w' v'' w'',
    (forall k, v k = Some (w k)) -> (forall k, v' k = Some (w' k)) -> (forall k, v'' k = Some (w'' k)) ->
    ja (jtri o (mkjet (Some a) v) (mkjet (Some b) v') (mkjet (Some c) v'')) = Some (tval o a b c) /\
    forall k, jv (jtri o (mkjet (Some a) v) (mkjet (Some b) v') (mkjet (Some c) v'')) k
              = Some (c1 * w k + c2 * w' k + c3 * w'' k).

(* auto_derive with the derivatives of f and g known *)
Ltac exs := repeat match goal with
  | |- _ /\ _ => split
  | H : is_derive ?f ?t ?l |- ex_derive ?g ?t => exists l; exact H
  | |- True => exact I
  end.
Lemma Derive_known (f : R -> R) (t l : R) : is_derive f t l -> Derive (fun s => f s) t = l.
Proof. intro H. apply is_derive_unique. exact H. Qed.

(* near t, f is different from g in the same way *)
Lemma locally_gap (f g : R -> R) (t df dg : R) :
  is_derive f t df -> is_derive g t dg -> f t < g t -> locally t (fun s => f s < g s).
Proof.
  intros Hf Hg H.
  assert (Hd : is_derive (fun s => g s - f s) t (dg - df)).
  { apply (is_derive_minus (K:=R_AbsRing) (V:=R_NormedModule) g f t dg df Hg Hf). }
  assert (P : 0 < g t - f t) by lra.
  generalize (locally_through _ _ _ _ Hd (locally_lt 0 _ P)). apply filter_imp. intros s E. lra.
Qed.

(* ---------------- atan2 ---------------- *)

Lemma ratan2_up (y x : R) : 0 < y -> ratan2 y x = PI / 2 - atan (x / y).
Proof.
  intro Hy. unfold ratan2. destruct (Rlt_dec 0 x) as [P|P].
  - replace (y / x) with (/ (x / y)) by (field; lra). apply atan_inv.
    apply Rdiv_lt_0_compat; lra.
  - destruct (Rlt_dec x 0) as [Q|Q].
    + destruct (Rle_dec 0 y); [|lra].
      replace (y / x) with (- (/ ((- x) / y))) by (field; lra).
      rewrite atan_opp, atan_inv by (apply Rdiv_lt_0_compat; lra).
      replace (- x / y) with (- (x / y)) by (field; lra). rewrite atan_opp. lra.
    + destruct (Rlt_dec 0 y); [|lra]. assert (x = 0) by lra. subst x.
      replace (0 / y) with 0 by (field; lra). rewrite atan_0. lra.
Qed.
Lemma ratan2_down (y x : R) : y < 0 -> ratan2 y x = - (PI / 2) - atan (x / y).
Proof.
  intro Hy. unfold ratan2. destruct (Rlt_dec 0 x) as [P|P].
  - replace (y / x) with (- (/ (x / (- y)))) by (field; lra).
    rewrite atan_opp, atan_inv by (apply Rdiv_lt_0_compat; lra).
    replace (x / - y) with (- (x / y)) by (field; lra). rewrite atan_opp. lra.
  - destruct (Rlt_dec x 0) as [Q|Q].
    + destruct (Rle_dec 0 y); [lra|].
      replace (y / x) with (/ (x / y)) by (field; lra).
      assert (S : 0 < x / y).
      { replace (x / y) with ((- x) / (- y)) by (field; lra). apply Rdiv_lt_0_compat; lra. }
      rewrite atan_inv by exact S. lra.
    + destruct (Rlt_dec 0 y); [lra|]. destruct (Rlt_dec y 0); [|lra].
      assert (x = 0) by lra. subst x. replace (0 / y) with 0 by (field; lra). rewrite atan_0. lra.
Qed.

Lemma ratan2_derive (f g : R -> R) (t df dg : R) :
  ~ (f t = 0 /\ g t <= 0) -> is_derive f t df -> is_derive g t dg ->
  is_derive (fun s => ratan2 (f s) (g s)) t ((g t * df - f t * dg) / (g t * g t + f t * f t)).
Proof.
  intros D Hf Hg. destruct (Rtotal_order (f t) 0) as [C|[C|C]].
  - apply (is_derive_ext_loc (fun s => - (PI / 2) - atan (g s / f s))).
    + generalize (locally_through _ _ _ _ Hf (locally_gt 0 _ C)). apply filter_imp.
      intros s E. symmetry. apply ratan2_down, E.
    + assert (f t <> 0) by lra. assert (0 < g t * g t + f t * f t) by nra.
      eapply is_derive_eq; [auto_derive; [exs; assumption|reflexivity]|].
      rewrite (Derive_known _ _ _ Hf), (Derive_known _ _ _ Hg). field. split; nra.
  - assert (P : 0 < g t) by (apply Rnot_le_lt; intro; apply D; split; auto).
    apply (is_derive_ext_loc (fun s => atan (f s / g s))).
    + generalize (locally_through _ _ _ _ Hg (locally_lt 0 _ P)). apply filter_imp.
      intros s E. unfold ratan2. destruct (Rlt_dec 0 (g s)); [reflexivity|lra].
    + assert (0 < g t * g t + f t * f t) by nra.
      eapply is_derive_eq; [auto_derive; [exs; lra|reflexivity]|].
      rewrite (Derive_known _ _ _ Hf), (Derive_known _ _ _ Hg). field. split; nra.
  - apply (is_derive_ext_loc (fun s => PI / 2 - atan (g s / f s))).
    + generalize (locally_through _ _ _ _ Hf (locally_lt 0 _ C)). apply filter_imp.
      intros s E. symmetry. apply ratan2_up, E.
    + assert (f t <> 0) by lra. assert (0 < g t * g t + f t * f t) by nra.
      eapply is_derive_eq; [auto_derive; [exs; assumption|reflexivity]|].
      rewrite (Derive_known _ _ _ Hf), (Derive_known _ _ _ Hg). field. split; nra.
Qed.

(* the angle: x = r cos, y = r sin *)
Lemma ratan2_bounds (y x : R) : - PI < ratan2 y x <= PI.
Proof.
  generalize PI_RGT_0. intro P. unfold ratan2. generalize (atan_bound (y / x)). intro B.
  destruct (Rlt_dec 0 x); [lra|]. destruct (Rlt_dec x 0).
  - destruct (Rle_dec 0 y) as [Y|Y].
    + split; [lra|]. assert (Q : y / x <= 0).
      { replace (y / x) with (- (y * / (- x))) by (field; lra).
        assert (0 < / - x) by (apply Rinv_0_lt_compat; lra). nra. }
      destruct Q as [Q|Q].
      * assert (A : atan (y / x) < atan 0) by (apply atan_increasing; exact Q). rewrite atan_0 in A. lra.
      * rewrite Q, atan_0. lra.
    + split; [|lra]. assert (Q : 0 < y / x).
      { replace (y / x) with ((- y) / (- x)) by (field; lra). apply Rdiv_lt_0_compat; lra. }
      assert (A : atan 0 < atan (y / x)) by (apply atan_increasing; exact Q). rewrite atan_0 in A. lra.
  - destruct (Rlt_dec 0 y); [lra|]. destruct (Rlt_dec y 0); lra.
Qed.

(* ---------------- two arguments ---------------- *)

Lemma pow_derive (f g : R -> R) (t df dg : R) :
  0 < f t -> is_derive f t df -> is_derive g t dg ->
  is_derive (fun s => real_pow (f s) (g s)) t
            (g t * real_pow (f t) (g t - 1) * df + real_pow (f t) (g t) * ln (f t) * dg).
Proof.
  intros P Hf Hg. apply (is_derive_ext_loc (fun s => exp (g s * ln (f s)))).
  - generalize (locally_through _ _ _ _ Hf (locally_lt 0 _ P)). apply filter_imp.
    intros s E. unfold real_pow. destruct (Rlt_dec 0 (f s)); [reflexivity|lra].
  - eapply is_derive_eq; [auto_derive; [exs; assumption|reflexivity]|].
    rewrite (Derive_known _ _ _ Hf), (Derive_known _ _ _ Hg).
    unfold real_pow. destruct (Rlt_dec 0 (f t)); [|lra].
    replace ((g t - 1) * ln (f t)) with (g t * ln (f t) + - ln (f t)) by ring.
    rewrite exp_plus, exp_Ropp, exp_ln by exact P. field. lra.
Qed.

Lemma gap_cases (a b : R) : a <> b -> a < b \/ b < a.
Proof. intro H. destruct (Rtotal_order a b) as [|[|]]; [left|contradiction|right]; assumption. Qed.

Ltac bjet := intros cpp20 v w v' w' Hv Hv'; split; [|intro k]; junfold; rewrite ?Hv, ?Hv'.

Lemma jfmax_lt cpp20 (a b : R) v v' :
  a < b -> jfmax cpp20 (mkjet (Some a) v) (mkjet (Some b) v') = mkjet (Some b) v'.
Proof.
  intro H. unfold jfmax, jislessgreater, jcmp, jisnan, ncmp, nisnan. cbn [ja].
  destruct (Rlt_dec a b); [reflexivity|lra].
Qed.
Lemma jfmax_gt cpp20 (a b : R) v v' :
  b < a -> jfmax cpp20 (mkjet (Some a) v) (mkjet (Some b) v') = mkjet (Some a) v.
Proof.
  intro H. unfold jfmax, jislessgreater, jcmp, jisnan, ncmp, nisnan. cbn [ja].
  destruct (Rlt_dec a b); [lra|]. destruct (Rlt_dec b a); [reflexivity|lra].
Qed.
Lemma jfmin_lt cpp20 (a b : R) v v' :
  a < b -> jfmin cpp20 (mkjet (Some a) v) (mkjet (Some b) v') = mkjet (Some a) v.
Proof.
  intro H. unfold jfmin, jislessgreater, jcmp, jisnan, ncmp, nisnan. cbn [ja].
  destruct (Rlt_dec a b); [|lra]. destruct (Rlt_dec b a); [lra|reflexivity].
Qed.
Lemma jfmin_gt cpp20 (a b : R) v v' :
  b < a -> jfmin cpp20 (mkjet (Some a) v) (mkjet (Some b) v') = mkjet (Some b) v'.
Proof.
  intro H. unfold jfmin, jislessgreater, jcmp, jisnan, ncmp, nisnan. cbn [ja].
  destruct (Rlt_dec a b); [lra|]. destruct (Rlt_dec b a); [reflexivity|lra].
Qed.

Theorem bin_exact (o : bin) (a b : R) : bdom o a b -> exists c1 c2, bexact o a b c1 c2.
Proof.
  intro D. destruct o; cbn [bdom] in D.
  - (* + *)
    exists 1, 1. split.
    + intros f g t df dg Ef Eg Hf Hg. unfold bval.
      eapply is_derive_eq; [auto_derive; [exs|reflexivity]|].
      rewrite (Derive_known _ _ _ Hf), (Derive_known _ _ _ Hg). ring.
    + bjet; f_equal; ring.
  - (* - *)
    exists 1, (-1). split.
    + intros f g t df dg Ef Eg Hf Hg. unfold bval.
      eapply is_derive_eq; [auto_derive; [exs|reflexivity]|].
      rewrite (Derive_known _ _ _ Hf), (Derive_known _ _ _ Hg). ring.
    + bjet; f_equal; ring.
  - (* * *)
    exists b, a. split.
    + intros f g t df dg Ef Eg Hf Hg. unfold bval.
      eapply is_derive_eq; [auto_derive; [exs|reflexivity]|].
      rewrite (Derive_known _ _ _ Hf), (Derive_known _ _ _ Hg), Ef, Eg. ring.
    + bjet; f_equal; ring.
  - (* / *)
    exists (/ b), (- a / (b * b)). split.
    + intros f g t df dg Ef Eg Hf Hg. unfold bval.
      eapply is_derive_eq; [auto_derive; [exs; rewrite Eg; exact D|reflexivity]|].
      rewrite (Derive_known _ _ _ Hf), (Derive_known _ _ _ Hg), Ef, Eg. field. exact D.
    + bjet; destruct (Req_EM_T b 0); try contradiction; f_equal; cbn [bval]; field; exact D.
  - (* hypot *)
    assert (S : 0 < a * a + b * b).
    { destruct (Req_dec a 0); destruct (Req_dec b 0); [exfalso; auto| | |]; nra. }
    assert (P : 0 < sqrt (a * a + b * b)) by (apply sqrt_lt_R0; exact S).
    assert (E : a ^ 2 + b ^ 2 = a * a + b * b) by ring.
    exists (a / sqrt (a * a + b * b)), (b / sqrt (a * a + b * b)). split.
    + intros f g t df dg Ef Eg Hf Hg. unfold bval.
      assert (Q : 0 < f t * (f t * 1) + g t * (g t * 1)) by (rewrite Ef, Eg; lra).
      eapply is_derive_eq; [auto_derive; [exs; exact Q|reflexivity]|].
      rewrite (Derive_known _ _ _ Hf), (Derive_known _ _ _ Hg), Ef, Eg.
      replace (a * (a * 1) + b * (b * 1)) with (a * a + b * b) by ring. field. lra.
    + bjet.
      * cbn [bval]. rewrite E. reflexivity.
      * destruct (Req_EM_T (sqrt (a * a + b * b)) 0); [lra|]. reflexivity.
  - (* fmax *)
    destruct (gap_cases a b D) as [C|C].
    + exists 0, 1. split.
      * intros f g t df dg Ef Eg Hf Hg.
        apply (is_derive_ext_loc g).
        -- rewrite <- Ef, <- Eg in C. generalize (locally_gap f g t df dg Hf Hg C). apply filter_imp.
           intros s Hs. cbn [bval]. rewrite Rmax_right; [reflexivity|lra].
        -- apply (is_derive_eq _ _ _ _ Hg). ring.
      * intros cpp20 v w v' w' Hv Hv'. cbn [jbin bval]. rewrite jfmax_lt by exact C. cbn [ja jv].
        split; [rewrite Rmax_right; [reflexivity|lra]|]. intro k. rewrite Hv'. f_equal. ring.
    + exists 1, 0. split.
      * intros f g t df dg Ef Eg Hf Hg.
        apply (is_derive_ext_loc f).
        -- rewrite <- Ef, <- Eg in C. generalize (locally_gap g f t dg df Hg Hf C). apply filter_imp.
           intros s Hs. cbn [bval]. rewrite Rmax_left; [reflexivity|lra].
        -- apply (is_derive_eq _ _ _ _ Hf). ring.
      * intros cpp20 v w v' w' Hv Hv'. cbn [jbin bval]. rewrite jfmax_gt by exact C. cbn [ja jv].
        split; [rewrite Rmax_left; [reflexivity|lra]|]. intro k. rewrite Hv. f_equal. ring.
  - (* fmin *)
    destruct (gap_cases a b D) as [C|C].
    + exists 1, 0. split.
      * intros f g t df dg Ef Eg Hf Hg.
        apply (is_derive_ext_loc f).
        -- rewrite <- Ef, <- Eg in C. generalize (locally_gap f g t df dg Hf Hg C). apply filter_imp.
           intros s Hs. cbn [bval]. rewrite Rmin_left; [reflexivity|lra].
        -- apply (is_derive_eq _ _ _ _ Hf). ring.
      * intros cpp20 v w v' w' Hv Hv'. cbn [jbin bval]. rewrite jfmin_lt by exact C. cbn [ja jv].
        split; [rewrite Rmin_left; [reflexivity|lra]|]. intro k. rewrite Hv. f_equal. ring.
    + exists 0, 1. split.
      * intros f g t df dg Ef Eg Hf Hg.
        apply (is_derive_ext_loc g).
        -- rewrite <- Ef, <- Eg in C. generalize (locally_gap g f t dg df Hg Hf C). apply filter_imp.
           intros s Hs. cbn [bval]. rewrite Rmin_right; [reflexivity|lra].
        -- apply (is_derive_eq _ _ _ _ Hg). ring.
      * intros cpp20 v w v' w' Hv Hv'. cbn [jbin bval]. rewrite jfmin_gt by exact C. cbn [ja jv].
        split; [rewrite Rmin_right; [reflexivity|lra]|]. intro k. rewrite Hv'. f_equal. ring.
  - (* fdim *)
    destruct (gap_cases a b D) as [C|C].
    + exists 0, 0. split.
      * intros f g t df dg Ef Eg Hf Hg. eapply is_derive_eq; [apply (is_derive_const0 _ 0)|ring].
        rewrite <- Ef, <- Eg in C. generalize (locally_gap f g t df dg Hf Hg C). apply filter_imp.
        intros s Hs. cbn [bval]. apply Rmax_right. lra.
      * intros cpp20 v w v' w' Hv Hv'. cbn [jbin bval].
        assert (E : jfdim (mkjet (Some a) v) (mkjet (Some b) v') = jet_default).
        { unfold jfdim, jisnan, jcmp, ncmp, nisnan. cbn [ja orb]. destruct (Rlt_dec b a); [lra|reflexivity]. }
        rewrite E. unfold jet_default. cbn [ja jv]. split; [rewrite Rmax_right; [reflexivity|lra]|].
        intro k. unfold vz, nz. f_equal. ring.
    + exists 1, (-1). split.
      * intros f g t df dg Ef Eg Hf Hg. apply (is_derive_ext_loc (fun s => f s - g s)).
        -- rewrite <- Ef, <- Eg in C. generalize (locally_gap g f t dg df Hg Hf C). apply filter_imp.
           intros s Hs. cbn [bval]. rewrite Rmax_left; [reflexivity|lra].
        -- eapply is_derive_eq; [auto_derive; [exs|reflexivity]|].
           rewrite (Derive_known _ _ _ Hf), (Derive_known _ _ _ Hg). ring.
      * intros cpp20 v w v' w' Hv Hv'. cbn [jbin bval].
        assert (E : jfdim (mkjet (Some a) v) (mkjet (Some b) v') = jsub (mkjet (Some a) v) (mkjet (Some b) v')).
        { unfold jfdim, jisnan, jcmp, ncmp, nisnan. cbn [ja orb]. destruct (Rlt_dec b a); [reflexivity|lra]. }
        rewrite E. split; [|intro k]; junfold; rewrite ?Hv, ?Hv'; f_equal; [|ring].
        rewrite Rmax_left; lra.
  - (* copysign *)
    destruct D as [Da Db]. pose (sb := if Rlt_dec b 0 then -1 else 1).
    exists (sign a * sb), 0. split.
    + intros f g t df dg Ef Eg Hf Hg.
      apply (is_derive_ext_loc (fun s => sb * Rabs (f s))).
      * unfold sb. destruct (Rlt_dec b 0) as [B|B].
        -- rewrite <- Eg in B. generalize (locally_through _ _ _ _ Hg (locally_gt 0 _ B)). apply filter_imp.
           intros s Hs. cbn [bval]. eqR. destruct (Rlt_dec (g s) 0); [ring|lra].
        -- assert (B' : 0 < g t) by (rewrite Eg; lra).
           generalize (locally_through _ _ _ _ Hg (locally_lt 0 _ B')). apply filter_imp.
           intros s Hs. cbn [bval]. eqR. destruct (Rlt_dec (g s) 0); [lra|ring].
      * eapply is_derive_eq.
        { apply (is_derive_scal (fun s => Rabs (f s)) t sb).
          apply is_derive_Rabs; [exact Hf|rewrite Ef; exact Da]. }
        rewrite Ef. ring.
    + intros cpp20 v w v' w' Hv Hv'.
      assert (Z : niszero (Some b) = false).
      { unfold niszero, ncmp, nz. destruct (Req_EM_T b 0); [contradiction|reflexivity]. }
      cbn [jbin]. unfold jcopysign. cbn [ja jv]. rewrite Z. split; [|intro k]; junfold; rewrite ?Hv, ?Hv'.
      * reflexivity.
      * f_equal. rewrite Rabs_R1. unfold sb.
        destruct (Rlt_dec a 0); [rewrite sign_eq_m1 by lra|rewrite sign_eq_1 by lra];
          destruct (Rlt_dec b 0); ring.
  - (* atan2 *)
    assert (S : 0 < b * b + a * a).
    { destruct (Req_dec a 0); [|nra]. destruct (Req_dec b 0); [|nra]. exfalso. apply D. lra. }
    exists (b / (b * b + a * a)), (- a / (b * b + a * a)). split.
    + intros f g t df dg Ef Eg Hf Hg. cbn [bval]. eapply is_derive_eq.
      * apply ratan2_derive; [rewrite Ef, Eg; exact D|exact Hf|exact Hg].
      * rewrite Ef, Eg. field. lra.
    + bjet; [reflexivity|]. destruct (Req_EM_T (b * b + a * a) 0); [lra|]. f_equal. field. lra.
  - (* pow *)
    exists (b * real_pow a (b - 1)), (real_pow a b * ln a). split.
    + intros f g t df dg Ef Eg Hf Hg. cbn [bval]. eapply is_derive_eq.
      * apply pow_derive; [rewrite Ef; exact D|exact Hf|exact Hg].
      * rewrite Ef, Eg. ring.
    + intros cpp20 v w v' w' Hv Hv'. cbn [jbin bval].
      assert (E : jpow (mkjet (Some a) v) (mkjet (Some b) v')
                  = mkjet (npow (Some a) (Some b))
                      (vadd (vscale (nmul (Some b) (npow (Some a) (nsub (Some b) n1))) v)
                            (vscale (nmul (npow (Some a) (Some b)) (nlog (Some a))) v'))).
      { unfold jpow, niszero, ncmp, nz. cbn [ja jv]. destruct (Req_EM_T a 0); [lra|].
        destruct (Rlt_dec a 0); [lra|]. reflexivity. }
      rewrite E. cbn [ja jv]. split; [apply npow_pos; exact D|]. intro k. unfold vadd, vscale.
      rewrite Hv, Hv'. unfold nsub, n1. cbn [lift2]. rewrite !npow_pos by exact D.
      unfold nlog. destruct (Rlt_dec 0 a); [|lra]. reflexivity.
  - (* midpoint *)
    exists (/ 2), (/ 2). split.
    + intros f g t df dg Ef Eg Hf Hg. unfold bval.
      eapply is_derive_eq; [auto_derive; [exs|reflexivity]|].
      rewrite (Derive_known _ _ _ Hf), (Derive_known _ _ _ Hg). field.
    + bjet; f_equal; cbn [bval]; field.
Qed.

(* ---------------- three arguments ---------------- *)

Ltac tjet := intros v w v' w' v'' w'' Hv Hv' Hv''; split; [|intro k]; junfold; rewrite ?Hv, ?Hv', ?Hv''.

Theorem tri_exact (o : tri) (a b c : R) : tdom o a b c -> exists c1 c2 c3, texact o a b c c1 c2 c3.
Proof.
  intro D. destruct o; cbn [tdom] in D.
  - assert (S : 0 < a * a + b * b + c * c).
    { destruct (Req_dec a 0); [destruct (Req_dec b 0); [destruct (Req_dec c 0); [exfalso; auto|]|]|]; nra. }
    set (r := sqrt (a * a + b * b + c * c)).
    assert (P : 0 < r) by (apply sqrt_lt_R0; exact S).
    assert (E : a ^ 2 + b ^ 2 + c ^ 2 = a * a + b * b + c * c) by ring.
    exists (a / r), (b / r), (c / r). split.
    + intros f g h t df dg dh Ef Eg Eh Hf Hg Hh. unfold tval.
      assert (Q : 0 < f t * (f t * 1) + g t * (g t * 1) + h t * (h t * 1)) by (rewrite Ef, Eg, Eh; lra).
      eapply is_derive_eq; [auto_derive; [exs; exact Q|reflexivity]|].
      rewrite (Derive_known _ _ _ Hf), (Derive_known _ _ _ Hg), (Derive_known _ _ _ Hh), Ef, Eg, Eh.
      replace (a * (a * 1) + b * (b * 1) + c * (c * 1)) with (a * a + b * b + c * c) by ring.
      fold r. field. lra.
    + tjet.
      * cbn [tval]. rewrite E. reflexivity.
      * fold r. destruct (Req_EM_T r 0); [lra|]. reflexivity.
  - exists b, a, 1. split.
    + intros f g h t df dg dh Ef Eg Eh Hf Hg Hh. unfold tval.
      eapply is_derive_eq; [auto_derive; [exs|reflexivity]|].
      rewrite (Derive_known _ _ _ Hf), (Derive_known _ _ _ Hg), (Derive_known _ _ _ Hh), Ef, Eg. ring.
    + tjet; f_equal; ring.
  - exists (1 - c), c, (b - a). split.
    + intros f g h t df dg dh Ef Eg Eh Hf Hg Hh. unfold tval.
      eapply is_derive_eq; [auto_derive; [exs|reflexivity]|].
      rewrite (Derive_known _ _ _ Hf), (Derive_known _ _ _ Hg), (Derive_known _ _ _ Hh), Ef, Eg, Eh. ring.
    + tjet; f_equal; ring.
Qed.
