(* Whole programs over Jets are differentiated exactly. *)

From Coq Require Import Reals List ZArith Bool Lra Lia.
From Coquelicot Require Import Coquelicot.
From Verif Require Import JetModel JetSpec JetProofs JetProofs2 JetProofs3.
Import ListNotations.
Local Open Scope R_scope.

(* ---------------- dot ---------------- *)

Lemma dot_ext N g g' d d' :
  (forall i, (i < N)%nat -> g i = g' i) -> (forall i, (i < N)%nat -> d i = d' i) ->
  dot N g d = dot N g' d'.
Proof.
  induction N as [|n IH]; intros H1 H2; [reflexivity|]. cbn [dot].
  rewrite IH by (intros; first [apply H1|apply H2]; lia). rewrite H1, H2 by lia. reflexivity.
Qed.
Lemma dot_scal N c g d : dot N (fun i => c * g i) d = c * dot N g d.
Proof. induction N as [|n IH]; cbn [dot]; [ring|]. rewrite IH. ring. Qed.
Lemma dot_plus N g h d : dot N (fun i => g i + h i) d = dot N g d + dot N h d.
Proof. induction N as [|n IH]; cbn [dot]; [ring|]. rewrite IH. ring. Qed.
Lemma dot_zero N d : dot N (fun _ => 0) d = 0.
Proof. induction N as [|n IH]; cbn [dot]; [ring|]. rewrite IH. ring. Qed.
Lemma dot_unit N k d : (k < N)%nat -> dot N (fun i => if Nat.eqb i k then 1 else 0) d = d k.
Proof.
  induction N as [|n IH]; intro H; [lia|]. cbn [dot]. destruct (Nat.eqb n k) eqn:E.
  - apply Nat.eqb_eq in E. subst k.
    replace (dot n (fun i => if Nat.eqb i n then 1 else 0) d) with (dot n (fun _ => 0) d).
    + rewrite dot_zero. ring.
    + apply dot_ext; [|reflexivity]. intros i Hi. assert (Nat.eqb i n = false) as -> by (apply Nat.eqb_neq; lia).
      reflexivity.
  - apply Nat.eqb_neq in E. rewrite IH by lia. ring.
Qed.
Lemma dot_comm N g d : dot N g d = dot N d g.
Proof. induction N as [|n IH]; cbn [dot]; [ring|]. rewrite IH. ring. Qed.
Lemma dot_unit_r N k g : (k < N)%nat -> dot N g (fun i => if Nat.eqb i k then 1 else 0) = g k.
Proof. intro H. rewrite dot_comm. apply dot_unit, H. Qed.

(* ---------------- values ---------------- *)

Lemma val_ext N e x y :
  uses_below N e -> (forall i, (i < N)%nat -> x i = y i) -> val e x = val e y.
Proof.
  intros U H. induction e as [i|r|o e IH|o e1 IH1 e2 IH2|o e1 IH1 e2 IH2 e3 IH3|c a IHa b IHb e1 IH1 e2 IH2];
    cbn [uses_below val] in *.
  - apply H, U.
  - reflexivity.
  - rewrite IH by exact U. reflexivity.
  - rewrite IH1, IH2 by tauto. reflexivity.
  - rewrite IH1, IH2, IH3 by tauto. reflexivity.
  - rewrite IHa, IHb, IH1, IH2 by tauto. reflexivity.
Qed.

Lemma var_free_val e x y : var_free e -> val e x = val e y.
Proof.
  intro U. induction e as [i|r|o e IH|o e1 IH1 e2 IH2|o e1 IH1 e2 IH2 e3 IH3|c a IHa b IHb e1 IH1 e2 IH2];
    cbn [var_free val] in *.
  - destruct U.
  - reflexivity.
  - rewrite IH by exact U. reflexivity.
  - rewrite IH1, IH2 by tauto. reflexivity.
  - rewrite IH1, IH2, IH3 by tauto. reflexivity.
  - rewrite IHa, IHb, IH1, IH2 by tauto. reflexivity.
Qed.

Definition jets_ok (N : nat) (e : expr) (x G : nat -> R) : Prop :=
  forall cpp20 env (s : nat -> nat -> R),
    (forall i, (i < N)%nat -> ja (env i) = Some (x i) /\ forall k, jv (env i) k = Some (s i k)) ->
    ja (jeval cpp20 env e) = Some (val e x) /\
    forall k, jv (jeval cpp20 env e) k = Some (dot N G (fun i => s i k)).

(* the derivative of a program without parameters is zero in every direction *)
Lemma var_free_gradient N e x G d :
  var_free e -> gradient_at N (val e) x G -> dot N G d = 0.
Proof.
  intros F H.
  assert (A : is_derive (fun s => val e (fun i => x i + s * d i)) 0 (dot N G d)).
  { apply (H (fun s i => x i + s * d i) 0 d). intros i _. split; [ring|].
    auto_derive; [exact I|ring]. }
  assert (B : is_derive (fun s => val e (fun i => x i + s * d i)) 0 0).
  { apply (is_derive_const0 _ (val e x)). apply filter_forall. intro s. apply var_free_val, F. }
  rewrite <- (is_derive_unique _ _ _ A). apply is_derive_unique. exact B.
Qed.

Lemma jet_eta f : f = mkjet (ja f) (jv f).
Proof. destruct f; reflexivity. Qed.

(* comparing different numbers: the result is the same nearby *)
Lemma holds_locally c (f g : R -> R) (t df dg : R) :
  is_derive f t df -> is_derive g t dg -> f t <> g t ->
  locally t (fun s => holds c (f s) (g s) <-> holds c (f t) (g t)).
Proof.
  intros Hf Hg H. destruct (gap_cases _ _ H) as [C|C].
  - generalize (locally_gap f g t df dg Hf Hg C). apply filter_imp. intros s Hs.
    destruct c; cbn [holds]; lra.
  - generalize (locally_gap g f t dg df Hg Hf C). apply filter_imp. intros s Hs.
    destruct c; cbn [holds]; lra.
Qed.

Lemma ncmp_holds c (a b : R) : ncmp c (Some a) (Some b) = if holds_dec c a b then true else false.
Proof.
  destruct c; cbn [ncmp]; destruct (holds_dec _ a b) as [Q|Q]; cbn [holds] in Q;
    repeat match goal with
    | |- context [Rlt_dec ?u ?w] => destruct (Rlt_dec u w); try reflexivity; try lra
    | |- context [Rle_dec ?u ?w] => destruct (Rle_dec u w); try reflexivity; try lra
    | |- context [Req_EM_T ?u ?w] => destruct (Req_EM_T u w); try reflexivity; try lra; try contradiction
    end.
Qed.

(* ---------------- powers with a constant exponent ---------------- *)

Lemma jspow_negative (s b : R) v :
  s < 0 -> integer b -> (forall k, v k = Some 0) ->
  ja (jspow (Some s) (mkjet (Some b) v)) = Some (real_pow s b) /\
  forall k, jv (jspow (Some s) (mkjet (Some b) v)) k = Some 0.
Proof.
  intros Hs [z ->] Hv.
  assert (E : jspow (Some s) (mkjet (Some (IZR z)) v)
              = mkjet (npow (Some s) (Some (IZR z))) (nan_where v vz)).
  { unfold jspow, niszero, ncmp, nz, nfloor, lift1. cbn [ja jv]. rewrite int_part_IZR.
    destruct (Req_EM_T s 0); [lra|]. destruct (Rlt_dec s 0); [|lra].
    destruct (Req_EM_T (IZR z) (IZR z)); [reflexivity|lra]. }
  rewrite E. cbn [ja jv]. split.
  - rewrite npow_int, real_pow_int by (left; lra). reflexivity.
  - intro k. unfold nan_where. rewrite Hv. unfold niszero, ncmp, nz.
    destruct (Req_EM_T 0 0); [reflexivity|lra].
Qed.

Lemma jpow_integer (a b : R) v v' w :
  integer b -> a < 0 \/ (a = 0 /\ 1 <= b) ->
  (forall k, v k = Some (w k)) -> (forall k, v' k = Some 0) ->
  exists c, is_derive (fun t => real_pow t b) a c /\
  ja (jpow (mkjet (Some a) v) (mkjet (Some b) v')) = Some (real_pow a b) /\
  forall k, jv (jpow (mkjet (Some a) v) (mkjet (Some b) v')) k = Some (c * w k).
Proof.
  intros [z ->] Ha Hv Hv'.
  assert (Hz : a <> 0 \/ (1 <= z)%Z) by (destruct Ha as [Ha|[Ha Hb]]; [left; lra|right; apply le_IZR; lra]).
  exists (IZR z * powerRZ a (z - 1)). split; [apply is_derive_pow_int; exact Hz|].
  destruct Ha as [Ha|[-> Hb]].
  - assert (E : jpow (mkjet (Some a) v) (mkjet (Some (IZR z)) v')
                = mkjet (npow (Some a) (Some (IZR z)))
                        (nan_where v' (vscale (nmul (Some (IZR z)) (npow (Some a) (nsub (Some (IZR z)) n1))) v))).
    { unfold jpow, niszero, ncmp, nz, nfloor, lift1. cbn [ja jv]. rewrite int_part_IZR.
      destruct (Req_EM_T a 0); [lra|]. destruct (Rlt_dec a 0); [|lra].
      destruct (Req_EM_T (IZR z) (IZR z)); [reflexivity|lra]. }
    rewrite E. cbn [ja jv]. split; [rewrite npow_int, real_pow_int by (left; lra); reflexivity|].
    intro k. unfold nan_where. rewrite Hv'. unfold niszero at 1, ncmp at 1, nz.
    destruct (Req_EM_T 0 0); [|lra]. unfold vscale. rewrite Hv. unfold nsub, n1. cbn [lift2].
    rewrite <- minus_IZR, npow_int by (left; lra). reflexivity.
  - assert (Hz1 : (1 <= z)%Z) by (apply le_IZR; lra).
    rewrite real_pow_int by (right; lia).
    destruct (Rlt_dec 1 (IZR z)) as [B|B].
    + assert (E : jpow (mkjet (Some 0) v) (mkjet (Some (IZR z)) v') = jconst nz).
      { unfold jpow, niszero, ncmp, nz, n1. cbn [ja jv]. destruct (Req_EM_T 0 0); [|lra].
        destruct (Rle_dec 1 (IZR z)); [|lra]. destruct (Rlt_dec 1 (IZR z)); [reflexivity|lra]. }
      assert (Hz2 : (1 < z)%Z) by (apply lt_IZR; lra).
      assert (Z : forall m, (0 < m)%Z -> powerRZ 0 m = 0).
      { intros m Hm. destruct m as [|p|p]; try lia. simpl. apply pow_i. lia. }
      rewrite E. unfold jconst. cbn [ja jv]. split.
      * rewrite Z by lia. reflexivity.
      * intro k. rewrite Z by lia. unfold vz, nz. f_equal. ring.
    + assert (z = 1%Z).
      { assert (A : (z <= 1)%Z) by (apply le_IZR; lra). lia. }
      subst z.
      assert (E : jpow (mkjet (Some 0) v) (mkjet (Some 1) v') = mkjet (Some 0) v).
      { unfold jpow, niszero, ncmp, nz, n1. cbn [ja jv]. destruct (Req_EM_T 0 0); [|lra].
        destruct (Rle_dec 1 1); [|lra]. destruct (Rlt_dec 1 1); [lra|reflexivity]. }
      rewrite E. cbn [ja jv]. split; [simpl; f_equal; ring|]. intro k. rewrite Hv. f_equal. simpl. ring.
Qed.

(* ---------------- programs ---------------- *)

Theorem program_exact N e x :
  uses_below N e -> regular e x -> exists G, gradient_at N (val e) x G /\ jets_ok N e x G.
Proof.
  induction e as [i|r|o e IH|o e1 IH1 e2 IH2|o e1 IH1 e2 IH2 e3 IH3|c a IHa b IHb e1 IH1 e2 IH2];
    cbn [uses_below regular]; intros U Rg.
  - (* a parameter *)
    exists (fun j => if Nat.eqb j i then 1 else 0). split.
    + intros curve t d H. rewrite dot_unit by exact U. apply (H i U).
    + intros cpp20 env s H. cbn [jeval val]. destruct (H i U) as [A B]. split; [exact A|].
      intro k. rewrite B, dot_unit by exact U. reflexivity.
  - (* a constant *)
    exists (fun _ => 0). split.
    + intros curve t d H. rewrite dot_zero. apply (is_derive_const0 _ r). apply filter_forall. intro u. reflexivity.
    + intros cpp20 env s H. cbn [jeval val]. unfold jconst. cbn [ja jv]. split; [reflexivity|].
      intro k. rewrite dot_zero. reflexivity.
  - (* one argument *)
    destruct Rg as [Re Rd]. destruct (IH U Re) as (G & HG & HJ).
    destruct Rd as [D|D].
    + destruct (un_exact o (val e x) D) as (c & Hd & Hj).
      exists (fun i => c * G i). split.
      * intros curve t d H. rewrite dot_scal. cbn [val].
        assert (E : val e (curve t) = val e x) by (apply (val_ext N); [exact U|]; intros i Hi; apply H, Hi).
        apply (is_derive_chain (uval o) (fun s => val e (curve s))); [rewrite E; exact Hd|].
        apply HG. exact H.
      * intros cpp20 env s H. destruct (HJ cpp20 env s H) as [A B]. cbn [jeval val].
        rewrite (jet_eta (jeval cpp20 env e)), A.
        destruct (Hj (jv (jeval cpp20 env e)) (fun k => dot N G (fun i => s i k)) B) as [C1 C2].
        split; [exact C1|]. intro k. rewrite C2, dot_scal. reflexivity.
    + destruct o; try contradiction. destruct D as (Ds & F & Di).
      exists (fun _ => 0). split.
      * intros curve t d H. rewrite dot_zero. apply (is_derive_const0 _ (uval (USPow s) (val e x))).
        apply filter_forall. intro u. cbn [val]. rewrite (var_free_val e (curve u) x F). reflexivity.
      * intros cpp20 env s' H. destruct (HJ cpp20 env s' H) as [A B]. cbn [jeval val jun uval].
        rewrite (jet_eta (jeval cpp20 env e)), A.
        assert (B' : forall k, jv (jeval cpp20 env e) k = Some 0).
        { intro k. rewrite B. f_equal. apply (var_free_gradient N e x G); assumption. }
        destruct (jspow_negative s (val e x) _ Ds Di B') as [C1 C2]. split; [exact C1|].
        intro k. rewrite C2, dot_zero. reflexivity.
  - (* two arguments *)
    destruct U as [U1 U2]. destruct Rg as (R1 & R2 & Rd).
    destruct (IH1 U1 R1) as (G1 & HG1 & HJ1). destruct (IH2 U2 R2) as (G2 & HG2 & HJ2).
    destruct Rd as [D|D].
    + destruct (bin_exact o (val e1 x) (val e2 x) D) as (c1 & c2 & Hd & Hj).
      exists (fun i => c1 * G1 i + c2 * G2 i). split.
      * intros curve t d H. rewrite (dot_plus N (fun i => c1 * G1 i)), !dot_scal. cbn [val].
        assert (E1 : val e1 (curve t) = val e1 x) by (apply (val_ext N); [exact U1|]; intros i Hi; apply H, Hi).
        assert (E2 : val e2 (curve t) = val e2 x) by (apply (val_ext N); [exact U2|]; intros i Hi; apply H, Hi).
        apply (Hd (fun s => val e1 (curve s)) (fun s => val e2 (curve s)) t _ _ E1 E2); [apply HG1|apply HG2]; exact H.
      * intros cpp20 env s H. destruct (HJ1 cpp20 env s H) as [A1 B1]. destruct (HJ2 cpp20 env s H) as [A2 B2].
        cbn [jeval val]. rewrite (jet_eta (jeval cpp20 env e1)), A1, (jet_eta (jeval cpp20 env e2)), A2.
        destruct (Hj cpp20 _ _ _ _ B1 B2) as [C1 C2].
        split; [exact C1|]. intro k. rewrite C2, (dot_plus N (fun i => c1 * G1 i)), !dot_scal. reflexivity.
    + destruct o; try contradiction. destruct D as (F & Di & Da).
      assert (Z : forall d, dot N G2 d = 0) by (intro d; apply (var_free_gradient N e2 x G2); assumption).
      (* the constant does not depend on the Jets *)
      destruct (jpow_integer (val e1 x) (val e2 x) (fun _ => Some 1) (fun _ => Some 0) (fun _ => 1) Di Da
                  ltac:(reflexivity) ltac:(reflexivity)) as (c & Hd & _).
      exists (fun i => c * G1 i). split.
      * intros curve t d H. rewrite dot_scal. cbn [val bval].
        assert (E1 : val e1 (curve t) = val e1 x) by (apply (val_ext N); [exact U1|]; intros i Hi; apply H, Hi).
        apply (is_derive_ext (fun s => real_pow (val e1 (curve s)) (val e2 x))).
        { intro s. rewrite (var_free_val e2 (curve s) x F). reflexivity. }
        apply (is_derive_chain (fun u => real_pow u (val e2 x)) (fun s => val e1 (curve s))).
        -- rewrite E1. exact Hd.
        -- apply HG1. exact H.
      * intros cpp20 env s H. destruct (HJ1 cpp20 env s H) as [A1 B1]. destruct (HJ2 cpp20 env s H) as [A2 B2].
        cbn [jeval val jbin bval]. rewrite (jet_eta (jeval cpp20 env e1)), A1, (jet_eta (jeval cpp20 env e2)), A2.
        assert (B2' : forall k, jv (jeval cpp20 env e2) k = Some 0) by (intro k; rewrite B2, Z; reflexivity).
        destruct (jpow_integer (val e1 x) (val e2 x) _ _ _ Di Da B1 B2') as (c' & Hd' & C1 & C2).
        assert (c' = c).
        { rewrite <- (is_derive_unique _ _ _ Hd). symmetry. apply is_derive_unique. exact Hd'. }
        subst c'. split; [exact C1|]. intro k. rewrite C2, dot_scal. reflexivity.
  - (* three arguments *)
    destruct U as (U1 & U2 & U3). destruct Rg as (R1 & R2 & R3 & D).
    destruct (IH1 U1 R1) as (G1 & HG1 & HJ1). destruct (IH2 U2 R2) as (G2 & HG2 & HJ2).
    destruct (IH3 U3 R3) as (G3 & HG3 & HJ3).
    destruct (tri_exact o (val e1 x) (val e2 x) (val e3 x) D) as (c1 & c2 & c3 & Hd & Hj).
    exists (fun i => (c1 * G1 i + c2 * G2 i) + c3 * G3 i).
    assert (ED : forall d, dot N (fun i => (c1 * G1 i + c2 * G2 i) + c3 * G3 i) d
                 = c1 * dot N G1 d + c2 * dot N G2 d + c3 * dot N G3 d).
    { intro d. rewrite (dot_plus N (fun i => c1 * G1 i + c2 * G2 i)), (dot_plus N (fun i => c1 * G1 i)), !dot_scal.
      reflexivity. }
    split.
    + intros curve t d H. rewrite ED. cbn [val].
      assert (E1 : val e1 (curve t) = val e1 x) by (apply (val_ext N); [exact U1|]; intros i Hi; apply H, Hi).
      assert (E2 : val e2 (curve t) = val e2 x) by (apply (val_ext N); [exact U2|]; intros i Hi; apply H, Hi).
      assert (E3 : val e3 (curve t) = val e3 x) by (apply (val_ext N); [exact U3|]; intros i Hi; apply H, Hi).
      apply (Hd (fun s => val e1 (curve s)) (fun s => val e2 (curve s)) (fun s => val e3 (curve s))
               t _ _ _ E1 E2 E3); [apply HG1|apply HG2|apply HG3]; exact H.
    + intros cpp20 env s H. destruct (HJ1 cpp20 env s H) as [A1 B1].
      destruct (HJ2 cpp20 env s H) as [A2 B2]. destruct (HJ3 cpp20 env s H) as [A3 B3].
      cbn [jeval val]. rewrite (jet_eta (jeval cpp20 env e1)), A1, (jet_eta (jeval cpp20 env e2)), A2,
        (jet_eta (jeval cpp20 env e3)), A3.
      destruct (Hj _ _ _ _ _ _ B1 B2 B3) as [C1 C2].
      split; [exact C1|]. intro k. rewrite C2, ED. reflexivity.
  - (* a branch *)
    destruct U as (Ua & Ub & U1 & U2). destruct Rg as (Ra & Rb & Ne & Rc).
    destruct (IHa Ua Ra) as (Ga & HGa & HJa). destruct (IHb Ub Rb) as (Gb & HGb & HJb).
    destruct (holds_dec c (val a x) (val b x)) as [Q|Q].
    + destruct (IH1 U1 Rc) as (G & HG & HJ). exists G. split.
      * intros curve t d H. apply (is_derive_ext_loc (fun s => val e1 (curve s))); [|apply HG; exact H].
        assert (Ea : val a (curve t) = val a x) by (apply (val_ext N); [exact Ua|]; intros i Hi; apply H, Hi).
        assert (Eb : val b (curve t) = val b x) by (apply (val_ext N); [exact Ub|]; intros i Hi; apply H, Hi).
        assert (Ne' : val a (curve t) <> val b (curve t)) by (rewrite Ea, Eb; exact Ne).
        generalize (holds_locally c (fun s => val a (curve s)) (fun s => val b (curve s)) t _ _ (HGa curve t d H) (HGb curve t d H) Ne').
        apply filter_imp. intros s Hs. cbv beta in Hs. rewrite Ea, Eb in Hs. cbn [val].
        destruct (holds_dec c (val a (curve s)) (val b (curve s))) as [W|W]; [reflexivity|]. tauto.
      * intros cpp20 env s H. destruct (HJa cpp20 env s H) as [A _]. destruct (HJb cpp20 env s H) as [B _].
        cbn [jeval val]. unfold jcmp. rewrite A, B, ncmp_holds.
        destruct (holds_dec c (val a x) (val b x)); [|contradiction]. apply HJ. exact H.
    + destruct (IH2 U2 Rc) as (G & HG & HJ). exists G. split.
      * intros curve t d H. apply (is_derive_ext_loc (fun s => val e2 (curve s))); [|apply HG; exact H].
        assert (Ea : val a (curve t) = val a x) by (apply (val_ext N); [exact Ua|]; intros i Hi; apply H, Hi).
        assert (Eb : val b (curve t) = val b x) by (apply (val_ext N); [exact Ub|]; intros i Hi; apply H, Hi).
        assert (Ne' : val a (curve t) <> val b (curve t)) by (rewrite Ea, Eb; exact Ne).
        generalize (holds_locally c (fun s => val a (curve s)) (fun s => val b (curve s)) t _ _ (HGa curve t d H) (HGb curve t d H) Ne').
        apply filter_imp. intros s Hs. cbv beta in Hs. rewrite Ea, Eb in Hs. cbn [val].
        destruct (holds_dec c (val a (curve s)) (val b (curve s))) as [W|W]; [tauto|reflexivity].
      * intros cpp20 env s H. destruct (HJa cpp20 env s H) as [A _]. destruct (HJb cpp20 env s H) as [B _].
        cbn [jeval val]. unfold jcmp. rewrite A, B, ncmp_holds.
        destruct (holds_dec c (val a x) (val b x)); [contradiction|]. apply HJ. exact H.
Qed.

(* total derivative gives the partial derivatives *)
Lemma gradient_partial N f x G k :
  (k < N)%nat -> gradient_at N f x G -> partial_at f x k (G k).
Proof.
  intros Hk H. unfold partial_at.
  apply (is_derive_eq _ _ _ _ (H (fun t => replace_arg x k t) (x k) (fun i => if Nat.eqb i k then 1 else 0)
    ltac:(intros i Hi; unfold replace_arg; destruct (Nat.eqb i k) eqn:E;
          [apply Nat.eqb_eq in E; subst i; split; [reflexivity|apply (is_derive_id (K:=R_AbsRing))]
          |split; [reflexivity|apply (is_derive_const (K:=R_AbsRing) (V:=R_NormedModule))]]))).
  apply dot_unit_r. exact Hk.
Qed.
