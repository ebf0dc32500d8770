(* C84: histories of calls. *)
From Coq Require Import List Arith ZArith Bool Lia Permutation Sorted.
From Verif Require Import SpcModel SpcSpec SpcProofs.
Import ListNotations.
Open Scope nat_scope.

Section Suite.
Context {F V B : Type}.
Variables (lib : Cholmod F V B) (symbolic : F -> Pattern -> Prop) (factors : F -> Pattern -> V -> Prop) (solves : Pattern -> V -> B -> B -> Prop).
Hypothesis H : cholmod_contract lib symbolic factors solves.
Lemma block_ordering_ok t A rb cb st : well_formed A -> contiguous 0 rb -> contiguous 0 cb -> total rb = nrow A -> total cb = ncol A ->
  exists r st', BlockOrdering lib A t rb cb st = Done (r, st') /\ match r with None => True | Some s => Permutation s (seq 0 (nrow A)) end.
Proof.
  intros W CR CC T1 T2. unfold BlockOrdering. destruct t; [exists (Some (seq 0 (nrow A))), st; auto| |].
  all: destruct (block_matrix_ok A rb cb (stype A) W CR CC T2) as [br [bc [E _]]]; rewrite E; cbn [bind fst snd]; match goal with |- context [ordering lib ?T ?P] => destruct (ordering lib T P) as [[o|] st'] eqn:EO end; [|exists None, st'; auto].
  all: apply (c_ordering _ _ _ _ H) in EO; cbn [nrow] in EO; rewrite (scalar_ok rb o CR EO); cbn [bind]; exists (Some (by_blocks rb o)), st'; split; [reflexivity|]; rewrite <- T1; apply by_blocks_perm; auto.
Qed.
Variables (P : Pattern) (rb cb : list Block) (t : OrderingType).
Hypothesis W : well_formed P.
(* rb, cb are the row and column blocks of the matrix, whose transpose has pattern P *)
Hypothesis BL : rb = [] \/ cb = [] \/ (contiguous 0 rb /\ contiguous 0 cb /\ total cb = nrow P /\ total rb = ncol P).
Definition good (s : SsState F) (cur : option V) : Prop :=
  match factor s with None => cur = None | Some f => symbolic f P /\ match cur with Some v => factors f P v | None => status s <> 0%Z end end.
Lemma analyze_ok (A : Crs V) st : TransposeView A = P -> row_blocks A = rb -> col_blocks A = cb -> exists r st' m,
  (if (match t with NATURAL => true | _ => false end) || (is_empty (col_blocks A) || is_empty (row_blocks A)) then Done (AnalyzeCholesky lib (TransposeView A) t) else BlockAnalyzeCholesky lib (TransposeView A) t (col_blocks A) (row_blocks A) st) = Done (r, st', m)
  /\ match r with None => True | Some f => symbolic f P end.
Proof.
  intros E1 E2 E3. rewrite E1, E2, E3. destruct (_ || _) eqn:D.
  - unfold AnalyzeCholesky. destruct (analyze lib t P) as [f st'] eqn:E. destruct (Z.eqb_spec st' 0) as [->|N]; [exists (Some f), 0%Z, false|exists None, st', true]; split; auto. exact (c_analyze _ _ _ _ H _ _ _ E).
  - apply orb_false_iff in D. destruct D as [_ D]. apply orb_false_iff in D. destruct D as [D1 D2]. destruct BL as [X|[X|[C1 [C2 [T1 T2]]]]]; [exfalso; rewrite X in D2; discriminate D2|exfalso; rewrite X in D1; discriminate D1|].
    unfold BlockAnalyzeCholesky. destruct (block_ordering_ok t P cb rb st W C2 C1 T1 T2) as [r [st' [E X]]]. rewrite E. cbn [bind]. destruct r as [o|]; [|exists None, st', false; auto]. unfold AnalyzeCholeskyWithGivenOrdering. pose proof (Permutation_length X) as L. rewrite seq_length in L. rewrite L, Nat.eqb_refl.
    destruct (analyze_p lib P o) as [f st''] eqn:EA. destruct (Z.eqb_spec st'' 0) as [->|N]; [exists (Some f), 0%Z, false|exists None, st'', true]; split; auto. exact (c_analyze_p _ _ _ _ H _ _ _ X EA).
Qed.
Lemma factorize_ok A s cur : good s cur -> TransposeView A = P -> row_blocks A = rb -> col_blocks A = cb -> exists s' term m, SsFactorize lib t (Some A) s = Done (s', term, m) /\ good s' (match term with SUCCESS => Some (values A) | _ => None end).
Proof.
  intros G E1 E2 E3. unfold SsFactorize.
  assert (X : exists r st m, (match factor s with
            | Some f => Done (Some f, status s, false)
            | None =>
                if (match t with NATURAL => true | _ => false end) || (is_empty (col_blocks A) || is_empty (row_blocks A))
                then Done (AnalyzeCholesky lib (TransposeView A) t)
                else BlockAnalyzeCholesky lib (TransposeView A) t (col_blocks A) (row_blocks A) (status s)
            end) = Done (r, st, m) /\ match r with None => True | Some f => symbolic f P end).
  { unfold good in G. destruct (factor s) as [f|]; [exists (Some f), (status s), false; split; [reflexivity|tauto]|]. apply analyze_ok; auto. }
  destruct X as [r [st [m [-> S]]]]. cbn [bind]. destruct r as [f|]; [|exists (mkSs None st), FATAL_ERROR, m; split; reflexivity]. rewrite E1. destruct (factorize lib P (values A) f) as [[f' ok] st'] eqn:EF. destruct (c_factorize _ _ _ _ H _ _ _ _ _ _ S EF) as [Q1 [Q2 Q3]].
  destruct (Cholesky ok st') as [term m'] eqn:EC. exists (mkSs (Some f') st'), term, (m || m'). split; [reflexivity|]. unfold good. cbn [factor status]. split; [auto|]. unfold Cholesky in EC. destruct (Z.eqb_spec st' 1); [injection EC as <- _; lia|]. destruct (Z.eqb_spec st' 2); [injection EC as <- _; lia|]. destruct (Z.eqb_spec st' 0); [|injection EC as <- _; auto]. destruct ok; injection EC as <- _; auto.
Qed.
Lemma suite_calls l : forall s cur, structured rb cb TransposeView P l -> good s cur -> exists a, SsCalls lib t l s = Done a /\ honest (solves P) cur l a.
Proof.
  induction l as [|c l IH]; intros s cur ST G; [exists []; split; [reflexivity|exact Logic.I]|]. assert (ST' : structured rb cb TransposeView P l) by (intros A I; apply ST; now right). destruct c as [[A|]|b]; cbn [SsCalls].
  - destruct (ST A (or_introl eq_refl)) as [E1 [E2 E3]]. destruct (factorize_ok A s cur G E1 E2 E3) as [s' [term [m [-> G']]]]. cbn [bind]. destruct (IH s' _ ST' G') as [a [-> Q]]. cbn [bind]. eexists. split; [reflexivity|]. cbn [honest]. exact Q.
  - cbn [SsFactorize bind]. destruct (IH s cur ST' G) as [a [-> Q]]. cbn [bind]. eexists. split; [reflexivity|]. cbn [honest]. auto.
  - destruct (SsSolve lib b s) as [[[s' term] x] m] eqn:E.
    assert (X : good s' cur /\ (term = SUCCESS -> exists v y, cur = Some v /\ x = Some y /\ solves P v b y)).
    { unfold SsSolve in E. unfold good in *. destruct (factor s) as [f|] eqn:EF; [|injection E as <- <- <- <-; rewrite EF; split; [auto|discriminate]]. destruct G as [G1 G2]. destruct (Z.eqb_spec (status s) 0) as [Z0|Z0].
      - destruct cur as [v|]; [|congruence]. destruct (solve lib f b) as [[y|] st] eqn:ES; injection E as <- <- <- <-; cbn [factor]; (split; [auto|]); [|discriminate]. intros _. exists v, y. split; [reflexivity|]. split; [reflexivity|]. exact (c_solve _ _ _ _ H _ _ _ _ _ _ G2 ES).
      - injection E as <- <- <- <-. rewrite EF. split; [auto|discriminate]. }
    destruct X as [G' SO]. destruct (IH s' cur ST' G') as [a [-> Q]]. cbn [bind]. eexists. split; [reflexivity|]. cbn [honest]. auto.
Qed.
End Suite.

Section EigenWrapper.
Context {E V B : Type}.
Variables (lib : Eigen E V B) (symbolic : E -> Pattern -> Prop) (factors : E -> Pattern -> V -> Prop) (solves : Pattern -> V -> B -> B -> Prop).
Hypothesis H : eigen_contract lib symbolic factors solves.
Variables (P : Pattern) (rb cb : list Block).
Definition e_good (s : EsState E) (cur : option V) : Prop := if analyzed s then symbolic (solver s) P /\ match cur with Some v => info lib (solver s) = true /\ factors (solver s) P v | None => info lib (solver s) = false end else cur = None.
Lemma e_factorize_ok A s cur : e_good s cur -> storage_type A = LOWER_TRIANGULAR -> square_view A = P -> exists s' term m, EsFactorize lib A s = Done (s', term, m) /\ e_good s' (match term with SUCCESS => Some (values A) | _ => None end) /\ (analyzed s' = false -> term = FATAL_ERROR) /\ (analyzed s = true -> analyzed s' = true) /\ (term = SUCCESS \/ m = true).
Proof.
  intros G S VW. unfold EsFactorize. rewrite S. cbn zeta. fold (square_view A). rewrite VW.
  assert (X : forall e, symbolic e P -> exists s' term m, (let (e', ok) := eigen_factorize lib P (values A) e in Done (mkEs true e', if ok then SUCCESS else FAILURE, negb ok)) = Done (s', term, m) /\ e_good s' (match term with SUCCESS => Some (values A) | _ => None end) /\ analyzed s' = true /\ (term = SUCCESS \/ m = true)).
  { intros e Y. destruct (eigen_factorize lib P (values A) e) as [e' ok] eqn:EF. destruct (e_factorize _ _ _ _ H _ _ _ _ _ Y EF) as [Q1 [Q2 Q3]]. eexists _, _, _. split; [reflexivity|]. unfold e_good. cbn [analyzed solver]. destruct ok; auto 6. }
  unfold e_good in G. destruct (analyzed s) eqn:AN.
  - destruct G as [G1 _]. destruct (X _ G1) as [s' [term [m [Q1 [Q2 [Q3 Q4]]]]]]. exists s', term, m. split; [exact Q1|]. split; [auto|]. split; [congruence|]. auto.
  - destruct (analyzePattern lib P (solver s)) as [e ok] eqn:EA. destruct ok.
    + destruct (X _ (e_analyze _ _ _ _ H _ _ _ EA)) as [s' [term [m [Q1 [Q2 [Q3 Q4]]]]]]. exists s', term, m. split; [exact Q1|]. split; [auto|]. split; [congruence|]. auto.
    + eexists _, _, _. split; [reflexivity|]. unfold e_good. cbn [analyzed]. split; [auto|]. split; [auto|]. split; [discriminate|auto].
Qed.
Lemma eigen_calls l : forall s cur, given P l -> e_good s cur -> (analyzed s = true -> exists a, EsCalls lib l s = Done a) /\ forall a, EsCalls lib l s = Done a -> honest (solves P) cur l a /\ (forall t m, In (Factorized t m) a -> t = SUCCESS \/ m = true) /\ (forall t x m, In (Solved t x m) a -> t = SUCCESS \/ m = true).
Proof.
  induction l as [|c l IH]; intros s cur ST G; [split; [intros _; exists []; reflexivity|]; intros a X; injection X as <-; split; [exact Logic.I|]; split; intros; contradiction|]. assert (ST' : given P l) by (intros A I; apply ST; now right). destruct c as [x|b]; cbn [EsCalls].
  - destruct (ST x (or_introl eq_refl)) as [A [-> [SA VA]]]. destruct (e_factorize_ok A s cur G SA VA) as [s' [term [m [-> [G' [_ [AN MM]]]]]]]. cbn [bind]. destruct (IH s' _ ST' G') as [I1 I2]. split.
    + intros Y. destruct (I1 (AN Y)) as [a ->]. eexists. reflexivity.
    + intros a Y. destruct (EsCalls lib l s') as [a'| |]; try discriminate. cbn [bind] in Y. injection Y as <-. destruct (I2 a' eq_refl) as [Q1 [Q2 Q3]]. split; [exact Q1|]. split; [intros t0 m0 [Y|Y]; [injection Y as <- <-; auto|eauto]|intros t0 x0 m0 [Y|Y]; [discriminate|eauto]].
  - destruct (IH s cur ST' G) as [I1 I2]. unfold EsSolve. destruct (analyzed s) eqn:AN; [|split; [discriminate|]; intros a Y; discriminate]. cbn zeta. unfold e_good in G. rewrite AN in G. destruct G as [G1 G2]. split.
    + intros _. destruct (I1 eq_refl) as [a ->]. destruct (info lib (solver s)); eexists; reflexivity.
    + intros a Y. destruct (EsCalls lib l s) as [a'| |]; [|destruct (info lib (solver s)); discriminate|destruct (info lib (solver s)); discriminate]. destruct (I2 a' eq_refl) as [Q1 [Q2 Q3]]. destruct (info lib (solver s)) eqn:IF; cbn [bind] in Y; injection Y as <-; cbn [honest].
      * destruct cur as [v|]; [|congruence]. split; [split; [|exact Q1]|]. { intros _. exists v, (eigen_solve lib (solver s) b). split; [reflexivity|]. split; [reflexivity|]. apply (e_solve _ _ _ _ H). tauto. } split; [intros t0 m0 [Y|Y]; [discriminate|eauto]|intros t0 x0 m0 [Y|Y]; [injection Y as <- <- <-; auto|eauto]].
      * split; [split; [discriminate|exact Q1]|]. split; [intros t0 m0 [Y|Y]; [discriminate|eauto]|intros t0 x0 m0 [Y|Y]; [injection Y as <- <- <-; auto|eauto]].
Qed.
End EigenWrapper.
