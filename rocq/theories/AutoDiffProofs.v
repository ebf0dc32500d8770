From Coq Require Import Reals List ZArith Bool Lia Lra.
From Verif Require Import JetModel JetSpec AutoDiffModel AutoDiffSpec JetProofs2.
Import ListNotations.
Local Open Scope R_scope.

(* ---------------- the value of a Jet computation ---------------- *)

Ltac destr_dec :=
  repeat match goal with
  | |- context [Rlt_dec ?a ?b] => destruct (Rlt_dec a b)
  | |- context [Rle_dec ?a ?b] => destruct (Rle_dec a b)
  | |- context [Req_EM_T ?a ?b] => destruct (Req_EM_T a b)
  end.

Lemma nmul_inv (a b : num) : nmul a (ndiv n1 b) = ndiv a b.
Proof.
  destruct a as [a|]; destruct b as [b|]; cbn; try reflexivity; destruct (Req_EM_T b 0); cbn; try reflexivity.
  f_equal. field. assumption.
Qed.

Lemma jun_value o f : ja (jun o f) = nun o (ja f).
Proof.
  destruct o; cbn [jun nun]; try reflexivity.
  - unfold jsadd. cbn [ja]. destruct (ja f); cbn; [f_equal; ring|reflexivity].
  - unfold jsmul. cbn [ja]. destruct (ja f); cbn; [f_equal; ring|reflexivity].
  - unfold jdivs. cbn [ja]. apply nmul_inv.
  - unfold jspow. destruct (niszero (Some s) && ncmp CGt (ja f) nz) eqn:E.
    + apply andb_true_iff in E. destruct E as [E1 E2]. unfold niszero in E1. cbn in E1.
      destruct (ja f) as [b|]; cbn in E2; [|discriminate]. cbn.
      destruct (Req_EM_T s 0); [|discriminate]. subst. destruct (Rlt_dec 0 b); [|discriminate].
      destr_dec; try lra; reflexivity.
    + clear E. destruct (_ && _); reflexivity.
Qed.

Lemma jbin_value c o f g : ja (jbin c o f g) = nbin o (ja f) (ja g).
Proof.
  destruct o; cbn [jbin nbin]; try reflexivity.
  - unfold jdiv. cbn [ja]. apply nmul_inv.
  - unfold jfmax, jisnan, jislessgreater, jcmp, nfmax, javerage. destruct (ja f) as [a|] eqn:Fa; destruct (ja g) as [b|] eqn:Ga; cbn [nisnan orb].
    + cbn [ncmp]. unfold Rmax. destr_dec; cbn [orb ja]; try lra; try (rewrite Fa); try (rewrite Ga); try (f_equal; lra).
      assert (a = b) as AB by lra. rewrite <- AB in *. clear AB. destruct c; unfold jmuls, jadd, jmidpoint; cbn [ja]; rewrite Fa, Ga; cbn; f_equal; field.
    + cbn. exact Fa.
    + exact Ga.
    + exact Ga.
  - unfold jfmin, jisnan, jislessgreater, jcmp, nfmin, javerage. destruct (ja f) as [a|] eqn:Fa; destruct (ja g) as [b|] eqn:Ga; cbn [nisnan orb].
    + cbn [ncmp]. unfold Rmin. destr_dec; cbn [orb ja]; try lra; try (rewrite Fa); try (rewrite Ga); try (f_equal; lra).
      assert (a = b) as AB by lra. rewrite <- AB in *. clear AB. destruct c; unfold jmuls, jadd, jmidpoint; cbn [ja]; rewrite Fa, Ga; cbn; f_equal; field.
    + cbn. exact Fa.
    + exact Ga.
    + exact Ga.
  - unfold jfdim, jisnan, jcmp, nfdim. destruct (ja f) as [a|] eqn:Fa; destruct (ja g) as [b|] eqn:Ga; cbn [nisnan orb ncmp lift2]; try reflexivity.
    unfold Rmax. destr_dec; unfold jsub; cbn [ja]; rewrite ?Fa, ?Ga; cbn; unfold nz; f_equal; try lra.
  - unfold jpow. destruct (niszero (ja f) && ncmp CGe (ja g) n1) eqn:E.
    + apply andb_true_iff in E. destruct E as [E1 E2]. unfold niszero in E1.
      destruct (ja f) as [a|] eqn:Fa; cbn in E1; [|discriminate].
      destruct (ja g) as [b|] eqn:Ga; cbn in E2; [|discriminate].
      destruct (Req_EM_T a 0); [|discriminate]. subst. destruct (Rle_dec 1 b); [|discriminate]. cbn [ncmp n1].
      unfold npow. destr_dec; try lra; cbn; [reflexivity|exact Fa].
    + clear E. destruct (_ && _); reflexivity.
Qed.

Lemma jtri_value o f g h : ja (jtri o f g h) = ntri o (ja f) (ja g) (ja h).
Proof. destruct o; reflexivity. Qed.

Lemma jeval_value c env e : ja (jeval c env e) = neval (fun i => ja (env i)) e.
Proof.
  induction e as [i|r|o e IH|o e1 IH1 e2 IH2|o e1 IH1 e2 IH2 e3 IH3|k a IHa b IHb e1 IH1 e2 IH2]; cbn [jeval neval].
  - reflexivity.
  - reflexivity.
  - rewrite jun_value, IH. reflexivity.
  - rewrite jbin_value, IH1, IH2. reflexivity.
  - rewrite jtri_value, IH1, IH2, IH3. reflexivity.
  - unfold jcmp. rewrite IHa, IHb. destruct (ncmp _ _ _); assumption.
Qed.

Lemma neval_ext N e x y : uses_below N e -> (forall i, (i < N)%nat -> x i = y i) -> neval x e = neval y e.
Proof.
  intros U H. induction e; cbn [uses_below] in U; cbn [neval].
  - apply H, U.
  - reflexivity.
  - rewrite IHe by exact U. reflexivity.
  - destruct U. rewrite IHe1, IHe2 by assumption. reflexivity.
  - destruct U as (?&?&?). rewrite IHe1, IHe2, IHe3 by assumption. reflexivity.
  - destruct U as (?&?&?&?). rewrite IHe1, IHe2, IHe3, IHe4 by assumption. reflexivity.
Qed.

(* ---------------- the components do not interact ---------------- *)

Definition agree (k k' : nat) (f g : jet) : Prop := ja f = ja g /\ jv f k = jv g k'.

Ltac vunf := unfold vadd, vsub, vopp, vscale, vmul, vz, nan_where in *.

Lemma jun_agree o k k' f g : agree k k' f g -> agree k k' (jun o f) (jun o g).
Proof.
  intros [A V]. split; [rewrite !jun_value, A; reflexivity|].
  destruct o; cbn [jun];
    unfold jpos, jneg, jabs, jlog, jlog10, jlog1p, jexp, jexpm1, jsqrt, jcos, jacos, jsin, jasin, jtan, jatan,
      jsinh, jcosh, jtanh, jfloor, jceil, jcbrt, jexp2, jlog2, jerf, jerfc, jnorm, jadds, jsadd, jsubs, jssub,
      jmuls, jsmul, jdivs, jsdiv, jpows, jconst; cbn [jv]; vunf; rewrite ?A, ?V; try reflexivity.
  unfold jspow. rewrite A. destruct (_ && _); [reflexivity|]. destruct (_ && _); cbn [jv]; vunf; rewrite ?V; reflexivity.
Qed.

Lemma jbin_agree c o k k' f g f' g' :
  agree k k' f f' -> agree k k' g g' -> agree k k' (jbin c o f g) (jbin c o f' g').
Proof.
  intros [A V] [B W]. split; [rewrite !jbin_value, A, B; reflexivity|].
  destruct o; cbn [jbin];
    unfold jadd, jsub, jmul, jdiv, jhypot, jcopysign, jatan2, jmidpoint; cbn [jv]; vunf; rewrite ?A, ?V, ?B, ?W; try reflexivity.
  - unfold jfmax, jisnan, jislessgreater, jcmp, javerage. rewrite A, B.
    destruct (_ || _); [destruct (_ || _); assumption|]. destruct c; unfold jmidpoint, jmuls, jadd; cbn [jv]; vunf; rewrite ?V, ?W; reflexivity.
  - unfold jfmin, jisnan, jislessgreater, jcmp, javerage. rewrite A, B.
    destruct (_ || _); [destruct (_ || _); assumption|]. destruct c; unfold jmidpoint, jmuls, jadd; cbn [jv]; vunf; rewrite ?V, ?W; reflexivity.
  - unfold jfdim, jisnan, jcmp, jconst, jsub, jet_default. rewrite A, B. destruct (_ || _); [reflexivity|]. destruct (ncmp _ _ _); cbn [jv]; vunf; rewrite ?V, ?W; reflexivity.
  - unfold jpow, jconst. rewrite A, B. destruct (_ && _); [destruct (ncmp _ _ _); [reflexivity|assumption]|].
    destruct (_ && _); cbn [jv]; vunf; rewrite ?V, ?W; reflexivity.
Qed.

Lemma jtri_agree o k k' f g h f' g' h' :
  agree k k' f f' -> agree k k' g g' -> agree k k' h h' -> agree k k' (jtri o f g h) (jtri o f' g' h').
Proof.
  intros [A V] [B W] [C X]. split; [rewrite !jtri_value, A, B, C; reflexivity|].
  destruct o; cbn [jtri]; unfold jhypot3, jfma, jlerp; cbn [jv]; vunf; rewrite ?A, ?V, ?B, ?W, ?C, ?X; reflexivity.
Qed.

Lemma jeval_agree c N e env env' k k' :
  uses_below N e -> (forall i, (i < N)%nat -> agree k k' (env i) (env' i)) ->
  agree k k' (jeval c env e) (jeval c env' e).
Proof.
  intros U H. induction e; cbn [uses_below] in U; cbn [jeval].
  - apply H, U.
  - split; reflexivity.
  - apply jun_agree, IHe, U.
  - destruct U. apply jbin_agree; auto.
  - destruct U as (?&?&?). apply jtri_agree; auto.
  - destruct U as (U1&U2&U3&U4). unfold jcmp.
    rewrite (proj1 (IHe1 U1)), (proj1 (IHe2 U2)). destruct (ncmp _ _ _); auto.
Qed.

(* ---------------- the functor ---------------- *)

Lemma forallb_ext_in {A} (p q : A -> bool) l : (forall a, In a l -> p a = q a) -> forallb p l = forallb q l.
Proof.
  induction l as [|a l IH]; intros H; [reflexivity|]. cbn. rewrite (H a) by (left; reflexivity).
  rewrite IH; [reflexivity|]. intros; apply H; right; assumption.
Qed.

(* run over Jets whose values are x: the result is that of the functor over doubles *)
Lemma run_jets_doubles c N f env x :
  functor_uses N f -> (forall i, (i < N)%nat -> ja (env i) = x i) ->
  run_jets c f env = match run_doubles f x with
                     | None => None | Some _ => Some (map (jeval c env) (f_out f))
                     end /\
  (forall r, run_doubles f x = Some r -> map ja (map (jeval c env) (f_out f)) = r).
Proof.
  intros [U1 U2] H.
  assert (forallb (fun g => match g with (c0, a, b) => jcmp c0 (jeval c env a) (jeval c env b) end) (f_guards f) =
          forallb (fun g => match g with (c0, a, b) => ncmp c0 (neval x a) (neval x b) end) (f_guards f)) as E.
  { apply forallb_ext_in. intros [[c0 a] b] I. rewrite Forall_forall in U2. destruct (U2 _ I) as [Ua Ub].
    unfold jcmp. rewrite !jeval_value. rewrite (neval_ext N a _ x Ua H), (neval_ext N b _ x Ub H). reflexivity. }
  unfold run_jets, run_doubles. rewrite E. clear E. split.
  - destruct (forallb _ _); reflexivity.
  - destruct (forallb _ _); [|discriminate]. intros r Hr. injection Hr as <-. rewrite map_map.
    apply map_ext_in. intros e I. rewrite jeval_value. apply (neval_ext N).
    + rewrite Forall_forall in U1. apply U1, I.
    + exact H.
Qed.
