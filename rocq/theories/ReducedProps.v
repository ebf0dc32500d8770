(* C44: the reduced program has the same objective up to the fixed cost. *)

From Coq Require Import List Arith Bool Reals Lia Lra.
From Verif Require Import ProgramStateModel ProgramStateSpec ReducedModel ReducedSpec
  ReducedProofs.
Import ListNotations.

(* the objective of the full problem is that of the reduced one plus
   fixed_cost, wherever the variable blocks are *)
Theorem reduced_objective (V : Type) cb (ps : list (pblock V)) rs x0 ps' rs' fc removed ev x :
  well_formed ps rs -> Forall local rs ->
  remove_fixed_blocks cb ps rs x0 = Reduced ps' rs' fc removed ev ->
  constants_kept rs x0 x ->
  total_cost rs x = option_map (fun c => (c + fc)%R) (total_cost rs' x).
Proof.
  intros WF L E K. pose proof (remove_fixed_spec V cb ps rs x0 WF) as S.
  rewrite (total_split V rs x), (fixed_unchanged V rs x0 x L K).
  destruct (total_cost (filter is_fixed rs) x0) as [t|].
  - rewrite S in E. injection E as <- <- <- <- <-.
    destruct (total_cost _ x); cbn; [f_equal; lra|auto].
  - destruct S as (j & e & r & S & _). congruence.
Qed.
Print Assumptions reduced_objective.

(* what is in the reduced program, in the original order *)
Theorem reduced_contents (V : Type) cb (ps : list (pblock V)) rs x0 ps' rs' fc removed ev :
  well_formed ps rs ->
  remove_fixed_blocks cb ps rs x0 = Reduced ps' rs' fc removed ev ->
  rs' = filter (fun r => negb (is_fixed r)) rs /\
  (exists keep, ps' = filter keep ps /\ removed = map pb_id (filter (fun p => negb (keep p)) ps) /\
     forall p, In p ps -> (keep p = true <-> is_used rs p)) /\
  total_cost (filter is_fixed rs) x0 = Some fc.
Proof.
  intros WF E. pose proof (remove_fixed_spec V cb ps rs x0 WF) as S.
  destruct (total_cost (filter is_fixed rs) x0) as [t|].
  - rewrite S in E. injection E as <- <- <- <- <-. split; [auto|]. split; [|auto].
    exists (fun p => marked V rs (pb_id p)). split; [auto|]. split; [auto|].
    intros p I. apply (marked_iff V ps); auto.
  - destruct S as (j & e & r & S & _). congruence.
Qed.
Print Assumptions reduced_contents.

(* it is a part of the problem without constant blocks, as C28 requires, and
   its residual blocks only use its parameter blocks or constant ones *)
Theorem reduced_part_of (V : Type) cb (ps : list (pblock V)) rs x0 ps' rs' fc removed ev :
  well_formed ps rs ->
  remove_fixed_blocks cb ps rs x0 = Reduced ps' rs' fc removed ev ->
  part_of ps' ps /\
  Forall (fun p => pb_set_constant p = false /\ pb_tangent p <> 0%nat) ps' /\
  (forall r p, In r rs' -> In p (rb_params r) -> In p ps' \/ is_constant p = true) /\
  (ps' = [] <-> rs' = []).
Proof.
  intros WF E. destruct (reduced_contents V cb ps rs x0 ps' rs' fc removed ev WF E)
    as (-> & (keep & -> & _ & K) & _).
  destruct WF as [D WF].
  assert (US : forall r p, In r (filter (fun r => negb (is_fixed r)) rs) ->
      In p (rb_params r) -> In p (filter keep ps) \/ is_constant p = true).
  { intros r p Ir Ip. apply filter_In in Ir as [Ir _].
    destruct (is_constant p) eqn:C; [auto|left].
    apply filter_In. split; [eauto|]. apply K; [eauto|]. split; eauto. }
  split; [split|split; [|split; [exact US|]]].
  - unfold distinct in *. clear - D. induction ps as [|p ps IH]; cbn; [constructor|].
    cbn in D. apply NoDup_cons_iff in D as [N D].
    destruct (keep p); [|auto]. cbn. constructor; [|auto].
    intros I. apply N. apply in_map_iff in I as (q & <- & I).
    apply filter_In in I as [I _]. now apply in_map.
  - intros p I. apply filter_In in I. tauto.
  - apply Forall_forall. intros p I. apply filter_In in I as [I H].
    apply K in H; [|auto]. destruct H as [H _]. unfold is_constant in H.
    apply orb_false_iff in H as [H1 H2]. apply Nat.eqb_neq in H2. auto.
  - split; intros Z.
    + destruct (filter (fun r => negb (is_fixed r)) rs) as [|r l] eqn:F; [auto|exfalso].
      assert (I : In r (filter (fun r => negb (is_fixed r)) rs)) by (rewrite F; now left).
      apply filter_In in I as [_ M]. unfold is_fixed in M.
      assert (X : exists q, In q (rb_params r) /\ is_constant q = false).
      { clear - M. induction (rb_params r) as [|q l' IH]; [discriminate|].
        cbn in M. destruct (is_constant q) eqn:C.
        - destruct IH as (q' & A & B); [exact M|]. exists q'. split; [now right|auto].
        - exists q. split; [now left|auto]. }
      destruct X as (q & Iq & C).
      destruct (US r q (or_introl eq_refl) Iq) as [A|A]; [rewrite Z in A; easy|congruence].
    + destruct (filter keep ps) as [|p l] eqn:F; [auto|exfalso].
      assert (I : In p (filter keep ps)) by (rewrite F; now left).
      apply filter_In in I as [I H]. apply K in H; [|auto].
      destruct H as (C & r & Ir & Ip).
      assert (A : In r (filter (fun r => negb (is_fixed r)) rs)).
      { apply filter_In. split; [auto|]. unfold is_fixed. apply negb_true_iff.
        apply not_true_is_false. intros A. rewrite forallb_forall in A.
        rewrite (A p Ip) in C. discriminate. }
      rewrite Z in A. easy.
Qed.
Print Assumptions reduced_part_of.

(* it fails exactly when a fixed residual block cannot be evaluated, and then
   names the first one; the "bug in Ceres" branch is unreachable *)
Theorem reduced_failure (V : Type) cb (ps : list (pblock V)) rs x0 :
  well_formed ps rs ->
  (forall ps' rs' fc removed ev,
     remove_fixed_blocks cb ps rs x0 <> Reduced ps' rs' fc removed ev) <->
  exists j r e, remove_fixed_blocks cb ps rs x0 = EvaluationFailed j e /\
    nth_error rs j = Some r /\ is_fixed r = true /\ rb_cost r x0 = None /\
    forall r', In r' (firstn j rs) -> is_fixed r' = true -> rb_cost r' x0 <> None.
Proof.
  intros WF. pose proof (remove_fixed_spec V cb ps rs x0 WF) as S.
  destruct (total_cost (filter is_fixed rs) x0) as [t|].
  - rewrite S. split.
    + intros H. exfalso. eapply H. reflexivity.
    + intros (j & r & e & H & _). discriminate.
  - destruct S as (j & e & r & S & R). split.
    + intros _. exists j, r, e. auto.
    + intros _. intros. rewrite S. discriminate.
Qed.
Print Assumptions reduced_failure.

(* the EvaluationCallback is called once, before the first fixed block is
   evaluated, and not at all if there is no fixed block *)
Theorem reduced_callback (V : Type) cb (ps : list (pblock V)) rs x0 ps' rs' fc removed ev :
  well_formed ps rs ->
  remove_fixed_blocks cb ps rs x0 = Reduced ps' rs' fc removed ev ->
  ev = expected_events cb (filter is_fixed rs).
Proof.
  intros WF E. pose proof (remove_fixed_spec V cb ps rs x0 WF) as S.
  destruct (total_cost (filter is_fixed rs) x0) as [t|].
  - rewrite S in E. injection E as <- <- <- <- <-. auto.
  - destruct S as (j & e & r & S & _). congruence.
Qed.
Print Assumptions reduced_callback.

(* ------------------------------------------------------------------ *)
(* blocks a (variable), c (constant), u (variable, unused); residual blocks on
   (a, c), on (c) and on nothing *)

Definition exv (i : nat) (k : bool) : pblock R :=
  mkblock i 1 1 k false (fun _ => true) (fun x d => Some x).
Definition exr (i : nat) (ps : list (pblock R)) (c : R) : rblock R :=
  mkrblock i ps (fun x => Some (c + fold_right Rplus 0 (concat (map (fun p => x (pb_id p)) ps)))%R).

Definition ex_params := [exv 0 false; exv 1 true; exv 2 false].
Definition ex_residuals := [exr 10 [exv 0 false; exv 1 true] 1; exr 11 [exv 1 true] 2; exr 12 [] 3].
Definition ex_x0 : assignment R := fun i => [INR i].

Example ex_reduced : exists fc,
  remove_fixed_blocks true ex_params ex_residuals ex_x0 =
    Reduced [exv 0 false] [exr 10 [exv 0 false; exv 1 true] 1] fc [1; 2]%nat
      [Prepare false true; Eval 11; Eval 12] /\ fc = 6%R.
Proof.
  eexists. split; [reflexivity|]. unfold ex_x0. cbn. lra.
Qed.

Example ex_hypotheses : well_formed ex_params ex_residuals /\ Forall local ex_residuals /\
  constants_kept ex_residuals ex_x0 (fun i => if Nat.eqb i 0 then [5%R] else [INR i]).
Proof.
  split; [|split].
  - split.
    + unfold distinct. cbn. repeat (constructor; [cbn; lia|]). constructor.
    + intros r p [<-|[<-|[<-|[]]]]; cbn; intuition.
  - repeat constructor; intros x y H; cbn in *; try reflexivity.
    + pose proof (H (exv 0 false) (or_introl eq_refl)) as H0.
      pose proof (H (exv 1 true) (or_intror (or_introl eq_refl))) as H1.
      cbn in H0, H1. now rewrite H0, H1.
    + pose proof (H (exv 1 true) (or_introl eq_refl)) as H1. cbn in H1. now rewrite H1.
  - intros r p [<-|[<-|[<-|[]]]]; cbn; intros H C; intuition; subst p; cbn in *;
      try discriminate; reflexivity.
Qed.
