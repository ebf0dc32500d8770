(* Proofs about the reduced program. *)

From Coq Require Import List Arith Bool Reals Lia Lra.
From Verif Require Import ProgramStateModel ProgramStateSpec ReducedModel ReducedSpec.
Import ListNotations.

Section Proofs.
Variable V : Type.

Lemma set_nth_firstn {A} (l : list A) : forall n x,
  n < length l -> firstn (S n) (set_nth l n x) = firstn n l ++ [x].
Proof.
  induction l as [|y l IH]; intros [|n] x H; cbn in H; try lia; [reflexivity|].
  cbn [set_nth]. change (firstn (S (S n)) (y :: set_nth l n x))
    with (y :: firstn (S n) (set_nth l n x)).
  rewrite IH by lia. reflexivity.
Qed.

Lemma set_nth_skipn {A} (l : list A) : forall n j x,
  n < j -> skipn j (set_nth l n x) = skipn j l.
Proof.
  induction l as [|y l IH]; intros n j x H; [reflexivity|].
  destruct j as [|j]; [lia|]. destruct n as [|n]; [reflexivity|].
  cbn. apply IH. lia.
Qed.

Lemma set_nth_length {A} (l : list A) : forall n x, length (set_nth l n x) = length l.
Proof. induction l as [|y l IH]; intros [|n] x; cbn; auto. Qed.

Lemma skipn_cons_nth {A} (l : list A) : forall i x r,
  skipn i l = x :: r -> nth_error l i = Some x /\ skipn (S i) l = r /\ i < length l.
Proof.
  induction l as [|y l IH]; intros i x r H.
  - rewrite skipn_nil in H. discriminate.
  - destruct i as [|i].
    + cbn in H. injection H as -> ->. cbn. split; [auto|]. split; [auto|lia].
    + cbn [skipn] in H. destruct (IH i x r H) as (A1 & A2 & A3). split; [auto|].
      split; [exact A2|]. cbn. lia.
Qed.

Definition uses (p : list (pblock V)) (c : nat) : bool :=
  existsb (fun q => negb (is_constant q) && (pb_id q =? c)) p.

Lemma scan_spec ps : forall ac k,
  fst (scan_params ps ac k) = ac && forallb is_constant ps /\
  forall c, snd (scan_params ps ac k) c = k c || uses ps c.
Proof.
  induction ps as [|p ps IH]; intros ac k; cbn [scan_params].
  - cbn. split; [now rewrite andb_true_r|]. intros c. now rewrite orb_false_r.
  - destruct (is_constant p) eqn:C; cbn [negb].
    + destruct (IH ac k) as [A B]. split.
      * rewrite A. cbn. now rewrite C.
      * intros c. rewrite B. unfold uses. cbn. now rewrite C.
    + destruct (IH false (mark k (pb_id p))) as [A B]. split.
      * rewrite A. cbn. rewrite C. now rewrite andb_false_r.
      * intros c. rewrite B. unfold uses, mark. cbn. rewrite C. cbn.
        destruct (pb_id p =? c); cbn; [now rewrite orb_true_r|reflexivity].
Qed.

Definition step_events (need : bool) (fixed : list (rblock V)) : list event :=
  match fixed with
  | [] => []
  | _ => (if need then [Prepare false true] else []) ++ map (fun r => Eval (rb_id r)) fixed
  end.

Lemma loop_spec x0 : forall rest i (s : loop_state V),
  skipn i (ls_blocks s) = rest -> ls_active s <= i ->
  match total_cost (filter is_fixed rest) x0 with
  | Some t =>
      exists s', loop x0 (length rest) i s = Next s' /\
        firstn (ls_active s') (ls_blocks s') =
          firstn (ls_active s) (ls_blocks s) ++ filter (fun r => negb (is_fixed r)) rest /\
        (forall c, ls_marks s' c = ls_marks s c || existsb (fun r => uses (rb_params r) c) rest) /\
        ls_fixed s' = (ls_fixed s + t)%R /\
        ls_events s' = ls_events s ++ step_events (ls_need s) (filter is_fixed rest)
  | None =>
      exists j e r, loop x0 (length rest) i s = Failed (i + j) e /\
        nth_error rest j = Some r /\ is_fixed r = true /\ rb_cost r x0 = None /\
        (forall r', In r' (firstn j rest) -> is_fixed r' = true -> rb_cost r' x0 <> None)
  end.
Proof.
  induction rest as [|r rest IH]; intros i s SK LE.
  - cbn [filter total_cost length loop]. exists s. split; [auto|].
    split; [now rewrite app_nil_r|]. split; [intros c; now rewrite orb_false_r|].
    split; [lra|]. cbn. now rewrite app_nil_r.
  - destruct (skipn_cons_nth _ _ _ _ SK) as (NT & SK' & LT).
    cbn [length loop]. rewrite NT. unfold loop_step.
    destruct (scan_params (rb_params r) true (ls_marks s)) as [ac k] eqn:SC.
    destruct (scan_spec (rb_params r) true (ls_marks s)) as [SA SB].
    rewrite SC in SA, SB. cbn [fst snd andb] in SA, SB.
    fold (is_fixed r) in SA. subst ac. cbn [filter].
    destruct (is_fixed r) eqn:FX; cbn [negb].
    + cbn [total_cost]. destruct (rb_cost r x0) as [c|] eqn:RC.
      * set (s1 := mkls _ _ _ _ _ _). specialize (IH (S i) s1 SK').
        cbn [ls_active s1] in IH. assert (LE' : ls_active s <= S i) by lia.
        specialize (IH LE'). cbn [ls_blocks ls_marks ls_fixed ls_events ls_need s1] in IH.
        destruct (total_cost (filter is_fixed rest) x0) as [t|].
        -- destruct IH as (s' & E & F1 & F2 & F3 & F4).
           exists s'. split; [exact E|]. split; [exact F1|]. split.
           { intros c'. rewrite F2, SB. cbn [existsb]. now rewrite orb_assoc. }
           split; [rewrite F3; lra|].
           rewrite F4. unfold step_events at 2. cbn [map].
           destruct (ls_need s); cbn [app];
             destruct (filter is_fixed rest); cbn; rewrite <- ?app_assoc; auto.
        -- destruct IH as (j & e & r' & E & N & A & B & C).
           exists (S j), e, r'. split; [rewrite E; f_equal; lia|]. split; [exact N|].
           split; [exact A|]. split; [exact B|].
           intros r'' [<-|I]; [congruence|]. apply C, I.
      * exists 0. eexists. exists r. split; [f_equal; lia|]. split; [reflexivity|].
        split; [exact FX|]. split; [exact RC|]. intros r' [].
    + set (s1 := mkls _ _ _ _ _ _).
      assert (SK1 : skipn (S i) (ls_blocks s1) = rest).
      { cbn [ls_blocks s1]. rewrite set_nth_skipn by lia. exact SK'. }
      specialize (IH (S i) s1 SK1).
      cbn [ls_active s1] in IH. assert (LE' : S (ls_active s) <= S i) by lia.
      specialize (IH LE'). cbn [ls_blocks ls_marks ls_fixed ls_events ls_need s1] in IH.
      destruct (total_cost (filter is_fixed rest) x0) as [t|].
      * destruct IH as (s' & E & F1 & F2 & F3 & F4).
        exists s'. split; [exact E|]. split.
        { rewrite F1, set_nth_firstn by lia. now rewrite <- app_assoc. }
        split.
        { intros c'. rewrite F2, SB. cbn [existsb]. now rewrite orb_assoc. }
        split; [exact F3|exact F4].
      * destruct IH as (j & e & r' & E & N & A & B & C).
        exists (S j), e, r'. split; [rewrite E; f_equal; lia|]. split; [exact N|].
        split; [exact A|]. split; [exact B|].
        intros r'' [<-|I]; [congruence|]. apply C, I.
Qed.

Lemma filter_params_spec k : forall rest i blocks active removed,
  skipn i blocks = rest -> active <= i ->
  exists blocks' active', filter_params k (length rest) i blocks active removed =
      (blocks', active', removed ++ map pb_id (filter (fun p => negb (k (pb_id p))) rest)) /\
    firstn active' blocks' = firstn active blocks ++ filter (fun p : pblock V => k (pb_id p)) rest.
Proof.
  induction rest as [|p rest IH]; intros i blocks active removed SK LE.
  - cbn. exists blocks, active. rewrite !app_nil_r. auto.
  - destruct (skipn_cons_nth _ _ _ _ SK) as (NT & SK' & LT).
    cbn [length filter_params filter]. rewrite NT.
    destruct (k (pb_id p)) eqn:K; cbn [negb].
    + destruct (IH (S i) (set_nth blocks active p) (S active) removed) as (b' & a' & E & F).
      * rewrite set_nth_skipn by lia. exact SK'.
      * lia.
      * exists b', a'. split; [exact E|].
        rewrite F, set_nth_firstn by lia. now rewrite <- app_assoc.
    + destruct (IH (S i) blocks active (removed ++ [pb_id p])) as (b' & a' & E & F); auto.
      exists b', a'. split; [|exact F]. rewrite E. cbn [map]. now rewrite <- app_assoc.
Qed.

Definition marked (rs : list (rblock V)) (c : nat) : bool :=
  existsb (fun r => uses (rb_params r) c) rs.

Theorem remove_fixed_spec cb ps rs x0 :
  well_formed ps rs ->
  match total_cost (filter is_fixed rs) x0 with
  | Some t =>
      remove_fixed_blocks cb ps rs x0 =
        Reduced (filter (fun p => marked rs (pb_id p)) ps)
                (filter (fun r => negb (is_fixed r)) rs) t
                (map pb_id (filter (fun p => negb (marked rs (pb_id p))) ps))
                (expected_events cb (filter is_fixed rs))
  | None => exists j e r, remove_fixed_blocks cb ps rs x0 = EvaluationFailed j e /\
        nth_error rs j = Some r /\ is_fixed r = true /\ rb_cost r x0 = None /\
        (forall r', In r' (firstn j rs) -> is_fixed r' = true -> rb_cost r' x0 <> None)
  end.
Proof.
  intros [D WF]. unfold remove_fixed_blocks.
  set (s0 := mkls rs 0 (fun _ => false) 0%R cb []).
  pose proof (loop_spec x0 rs 0 s0 eq_refl (Nat.le_refl 0)) as L.
  destruct (total_cost (filter is_fixed rs) x0) as [t|].
  - destruct L as (s & E & F1 & F2 & F3 & F4). rewrite E.
    cbn [ls_active ls_blocks ls_marks ls_fixed ls_events ls_need s0 firstn app orb] in *.
    destruct (filter_params_spec (ls_marks s) ps 0 ps 0 [] eq_refl (Nat.le_refl 0))
      as (bl & n & G & H).
    rewrite G. cbn [firstn app] in *. rewrite F1, H.
    assert (EX : forall p : pblock V, ls_marks s (pb_id p) = marked rs (pb_id p)) by (intros p; apply F2).
    rewrite (filter_ext _ (fun p => marked rs (pb_id p))) by exact EX.
    rewrite (filter_ext (fun p => negb (ls_marks s (pb_id p)))
                        (fun p => negb (marked rs (pb_id p)))) by (intros p; now rewrite EX).
    rewrite F3, F4. replace (0 + t)%R with t by lra.
    assert (CK : (length (filter (fun r => negb (is_fixed r)) rs) = 0) <->
                 (length (filter (fun p => marked rs (pb_id p)) ps) = 0)).
    { split; intros Z; apply length_zero_iff_nil in Z; apply length_zero_iff_nil.
      - destruct (filter (fun p => marked rs (pb_id p)) ps) as [|p l] eqn:FL; [auto|].
        exfalso. assert (I : In p (filter (fun p => marked rs (pb_id p)) ps))
          by (rewrite FL; now left).
        apply filter_In in I as [I M]. unfold marked in M.
        apply existsb_exists in M as (r & Ir & U). unfold uses in U.
        apply existsb_exists in U as (q & Iq & U). apply andb_true_iff in U as [C _].
        assert (In r (filter (fun r => negb (is_fixed r)) rs)).
        { apply filter_In. split; [auto|]. unfold is_fixed.
          apply negb_true_iff. apply not_true_is_false. intros A.
          rewrite forallb_forall in A. rewrite (A q Iq) in C. discriminate. }
        rewrite Z in *. easy.
      - destruct (filter (fun r => negb (is_fixed r)) rs) as [|r l] eqn:FL; [auto|].
        exfalso. assert (I : In r (filter (fun r => negb (is_fixed r)) rs))
          by (rewrite FL; now left).
        apply filter_In in I as [I M]. apply negb_true_iff in M.
        assert (X : exists q, In q (rb_params r) /\ is_constant q = false).
        { clear - M. unfold is_fixed in M. induction (rb_params r) as [|q l IH]; [discriminate|].
          cbn in M. destruct (is_constant q) eqn:C.
          - destruct IH as (q' & A & B); [exact M|]. exists q'. split; [now right|auto].
          - exists q. split; [now left|auto]. }
        destruct X as (q & Iq & C).
        assert (In q (filter (fun p => marked rs (pb_id p)) ps)).
        { apply filter_In. split; [apply (WF r q I Iq)|]. unfold marked.
          apply existsb_exists. exists r. split; [auto|]. unfold uses.
          apply existsb_exists. exists q. split; [auto|]. rewrite C. cbn. apply Nat.eqb_refl. }
        rewrite Z in *. easy. }
    replace (negb _) with false; [reflexivity|]. symmetry. apply negb_false_iff.
    destruct (length (filter (fun r => negb (is_fixed r)) rs)),
             (length (filter (fun p => marked rs (pb_id p)) ps)); cbn; auto.
    + destruct CK as [CK _]. specialize (CK eq_refl). discriminate.
    + destruct CK as [_ CK]. specialize (CK eq_refl). discriminate.
  - destruct L as (j & e & r & E & R). rewrite E. exists j, e, r. split; [auto|exact R].
Qed.

Lemma marked_iff ps rs p :
  well_formed ps rs -> In p ps -> (marked rs (pb_id p) = true <-> is_used rs p).
Proof.
  intros [D WF] I. unfold marked, uses, is_used. split.
  - intros M. apply existsb_exists in M as (r & Ir & U).
    apply existsb_exists in U as (q & Iq & U). apply andb_true_iff in U as [C E].
    apply Nat.eqb_eq in E. apply negb_true_iff in C.
    assert (q = p).
    { pose proof (WF r q Ir Iq) as Iq'. clear - D I Iq' E. unfold distinct in D.
      induction ps as [|y ps IH]; [easy|]. cbn in D. apply NoDup_cons_iff in D as [N D].
      destruct I as [->|I], Iq' as [->|Iq']; auto.
      - exfalso. apply N. rewrite <- E. now apply in_map.
      - exfalso. apply N. rewrite E. now apply in_map. }
    subst q. split; [auto|]. eauto.
  - intros (C & r & Ir & Ip). apply existsb_exists. exists r. split; [auto|].
    apply existsb_exists. exists p. split; [auto|]. rewrite C. cbn. apply Nat.eqb_refl.
Qed.

Lemma total_split (rs : list (rblock V)) x :
  total_cost rs x =
  match total_cost (filter is_fixed rs) x, total_cost (filter (fun r => negb (is_fixed r)) rs) x with
  | Some a, Some b => Some (a + b)%R
  | _, _ => None
  end.
Proof.
  induction rs as [|r rs IH]; cbn [filter total_cost]; [f_equal; lra|].
  rewrite IH. clear IH.
  destruct (is_fixed r); cbn [negb total_cost]; destruct (rb_cost r x);
    destruct (total_cost (filter is_fixed rs) x);
    destruct (total_cost (filter (fun r => negb (is_fixed r)) rs) x); try reflexivity;
    f_equal; lra.
Qed.

Lemma total_ext (l : list (rblock V)) x y :
  (forall r, In r l -> rb_cost r x = rb_cost r y) -> total_cost l x = total_cost l y.
Proof.
  induction l as [|r l IH]; intros H; cbn; [auto|].
  rewrite (H r (or_introl eq_refl)), IH; [auto|]. intros r' I. apply H. now right.
Qed.

Lemma fixed_unchanged (rs : list (rblock V)) x0 x :
  Forall local rs -> constants_kept rs x0 x ->
  total_cost (filter is_fixed rs) x = total_cost (filter is_fixed rs) x0.
Proof.
  intros L K. apply total_ext. intros r I. apply filter_In in I as [I F].
  rewrite Forall_forall in L. apply (L r I). intros p Ip.
  apply (K r p I Ip). unfold is_fixed in F. rewrite forallb_forall in F. auto.
Qed.

End Proofs.
