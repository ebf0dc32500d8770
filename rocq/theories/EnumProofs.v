(* Lemmas for C51. *)

From Coq Require Import String Ascii ZArith List Bool Lia.
From Verif Require Import EnumModel EnumSpec.
Import ListNotations.
Local Open Scope Z_scope.
Local Open Scope string_scope.

Lemma toupper_same a b : same_letter a b -> toupper a = toupper b.
Proof.
  intros [->|[H|H]]; [reflexivity| |];
    unfold letters in H; cbn [In] in H;
    repeat (destruct H as [H|H]; [injection H as <- <-; reflexivity|]); destruct H.
Qed.

Lemma upper_same s t : same_ignoring_case s t -> UpperCase s = UpperCase t.
Proof.
  induction 1 as [|a b s t L _ IH]; [reflexivity|]. cbn [UpperCase].
  now rewrite (toupper_same a b L), IH.
Qed.

Lemma same_toupper a : same_letter a (toupper a).
Proof.
  destruct a as [[|] [|] [|] [|] [|] [|] [|] [|]]; unfold same_letter, letters; cbn;
    ((left; reflexivity) || (right; left; tauto)).
Qed.

Lemma same_upper s : same_ignoring_case s (UpperCase s).
Proof. induction s; cbn [UpperCase]; constructor; auto. apply same_toupper. Qed.

(* a name in capitals is matched exactly by its variants *)
Lemma upper_iff s n : UpperCase n = n -> (UpperCase s = n <-> same_ignoring_case s n).
Proof.
  intros U. split.
  - intros <-. apply same_upper.
  - intros S. rewrite (upper_same s n S). exact U.
Qed.

(* the chain of tests *)
Fixpoint chain (l : list (string * Z)) (s : string) (old : Z) : bool * Z :=
  match l with
  | [] => (false, old)
  | (n, v) :: l' => if String.eqb s n then (true, v) else chain l' s old
  end.

Lemma chain_spec l s old : NoDup (map fst l) ->
  (forall n v, In (n, v) l -> s = n -> chain l s old = (true, v)) /\
  ((forall n v, In (n, v) l -> s <> n) -> chain l s old = (false, old)).
Proof.
  induction l as [|[n v] l IH]; intros ND.
  - split; [intros ? ? []|reflexivity].
  - inversion ND as [|? ? NI ND']; subst. destruct (IH ND') as [I1 I2]. cbn [chain]. split.
    + intros n' v' [E|I] ->.
      * injection E as -> ->. now rewrite String.eqb_refl.
      * destruct (String.eqb_spec n' n) as [->|]; [|now apply (I1 n')].
        exfalso. apply NI. apply (in_map fst) in I. exact I.
    + intros H. destruct (String.eqb_spec s n) as [->|].
      * exfalso. apply (H n v); [now left|auto].
      * apply I2. intros. eapply H. right. eauto.
Qed.

Fixpoint numbered (k : Z) (names : list string) : list (string * Z) :=
  match names with [] => [] | n :: r => (n, k) :: numbered (k + 1) r end.

Lemma numbered_in names : forall k n v, In (n, v) (numbered k names) <->
  exists i, v = k + Z.of_nat i /\ nth_error names i = Some n.
Proof.
  induction names as [|x names IH]; intros k n v; cbn [numbered].
  - split; [intros []|intros (i & _ & E); destruct i; discriminate].
  - split.
    + intros [E|I].
      * injection E as -> ->. exists 0%nat. split; [lia|reflexivity].
      * apply IH in I as (i & -> & E). exists (S i). split; [lia|exact E].
    + intros (i & -> & E). destruct i as [|i].
      * left. injection E as ->. f_equal. lia.
      * right. apply IH. exists i. split; [lia|exact E].
Qed.

Lemma numbered_fst names : forall k, map fst (numbered k names) = names.
Proof. induction names as [|x names IH]; intros k; cbn; [auto|]. now rewrite IH. Qed.

Lemma parses_chain names l from : NoDup names -> Forall (fun n => UpperCase n = n) names ->
  (forall x, In x l <-> In x (numbered 0 names)) -> NoDup (map fst l) ->
  (forall s old, from s old = chain l (UpperCase s) old) ->
  parses names from.
Proof.
  intros ND U P NDl F s old. rewrite F.
  destruct (chain_spec l (UpperCase s) old NDl) as [C1 C2]. rewrite Forall_forall in U.
  split.
  - intros v n (i & -> & E) S. apply (C1 n).
    + apply P, numbered_in. exists i. split; [lia|auto].
    + apply upper_iff; [|auto]. apply U. eapply nth_error_In; eauto.
  - intros H. apply C2. intros n v I Q. apply P, numbered_in in I as (i & -> & E).
    apply (H (Z.of_nat i) n).
    + exists i. split; [auto|exact E].
    + apply upper_iff; [|auto]. apply U. eapply nth_error_In; eauto.
Qed.

(* tests of a concrete chain against a concrete list of names *)
Ltac no_dup := repeat (constructor; [cbn; intuition discriminate|]); try constructor.

Ltac find_entry :=
  intros [n v]; cbn [numbered In]; intuition congruence.

Lemma named_cases names v s : named names v s -> In (s, v) (numbered 0 names).
Proof. intros (i & -> & E). apply numbered_in. exists i. split; [lia|auto]. Qed.

Lemma in_named names v s : In (s, v) (numbered 0 names) -> named names v s.
Proof. intros I. apply numbered_in in I as (i & -> & E). exists i. split; [lia|auto]. Qed.

Ltac solve_in := solve [repeat ((left; reflexivity) || right)].

Ltac prove_prints :=
  split;
  [ intros v s N; apply named_cases in N; cbn in N;
    repeat (destruct N as [N|N]; [injection N as <- <-; reflexivity|]); destruct N
  | intros v N;
    match goal with |- ?f v = _ => unfold f end;
    repeat match goal with
    | |- (if Z.eqb v ?k then _ else _) = _ =>
        destruct (Z.eqb_spec v k) as [->|];
        [exfalso; eapply N; apply in_named; cbn; solve_in|]
    end; reflexivity ].

Ltac prove_parses names :=
  apply (parses_chain names (numbered 0 names));
  [ no_dup
  | repeat constructor
  | intros x; reflexivity
  | rewrite numbered_fst; no_dup
  | intros s old; cbn;
    try match goal with |- ?f s old = _ => unfold f end; cbv zeta;
    repeat match goal with
    | |- context [String.eqb ?a ?b] => destruct (String.eqb_spec a b)
    end; (reflexivity || congruence) ].

Ltac prove_round :=
  intros v s N old; apply named_cases in N; cbn in N;
  repeat (destruct N as [N|N]; [injection N as <- <-; reflexivity|]); destruct N.
