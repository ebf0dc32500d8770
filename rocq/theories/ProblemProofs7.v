(** Evaluate leaves the problem as it was. *)
Require Import ZArith List Lia Bool Permutation.
From Verif Require Import ZMap Dbl ProblemModel ProblemSpec ProblemProofs1 ProblemProofs2 ProblemProofs3 ProblemProofs4 ProblemProofs5 ProblemProofs6.
Import ListNotations.
Open Scope Z_scope.

(** [s'] is [s] with another parameter block heap, related pointwise. *)
Definition hrel (P : Z -> pblock -> pblock -> Prop) (s s' : problem) : Prop :=
  s' = set_pheap s (p_pheap s') /\ zsorted (p_pheap s') /\
  forall q, match zfind q (p_pheap s), zfind q (p_pheap s') with
            | Some b, Some b' => P q b b' | None, None => True | _, _ => False end.

Lemma hrel_refl : forall (P : Z -> pblock -> pblock -> Prop) s, zsorted (p_pheap s) ->
  (forall q b, zfind q (p_pheap s) = Some b -> P q b b) -> hrel P s s.
Proof.
  intros P s Hs H. split; [destruct s; auto|]. split; auto. intros q. destruct (zfind q (p_pheap s)) eqn:E; auto.
Qed.

Lemma hrel_trans : forall (P Q R : Z -> pblock -> pblock -> Prop) s1 s2 s3, hrel P s1 s2 -> hrel Q s2 s3 ->
  (forall q b c d, P q b c -> Q q c d -> R q b d) -> hrel R s1 s3.
Proof.
  intros P Q R s1 s2 s3 [A1 [A2 A3]] [B1 [B2 B3]] H. split; [rewrite B1, A1; destruct s1; auto|]. split; auto.
  intros q. specialize (A3 q). specialize (B3 q).
  destruct (zfind q (p_pheap s1)), (zfind q (p_pheap s2)), (zfind q (p_pheap s3)); auto; try contradiction. eapply H; eauto.
Qed.

Lemma hrel_weaken : forall (P Q : Z -> pblock -> pblock -> Prop) s s', hrel P s s' -> (forall q b b', P q b b' -> Q q b b') -> hrel Q s s'.
Proof.
  intros P Q s s' [A1 [A2 A3]] H. split; auto. split; auto. intros q. specialize (A3 q).
  destruct (zfind q (p_pheap s)), (zfind q (p_pheap s')); auto.
Qed.

Lemma hrel_put : forall (P : Z -> pblock -> pblock -> Prop) s p b b', zsorted (p_pheap s) -> zfind p (p_pheap s) = Some b -> P p b b' ->
  (forall q c, q <> p -> P q c c) -> hrel P s (set_pheap s (zput p b' (p_pheap s))).
Proof.
  intros P s p b b' Hs B H1 H2. split; auto. split; [apply zsorted_put; auto|]. intros q. simpl. rewrite zfind_put.
  destruct (Z.eqb_spec q p); [subst; rewrite B; auto|]. destruct (zfind q (p_pheap s)); auto.
Qed.

Lemma hrel_live : forall P s s' q, hrel P s s' -> (zfind q (p_pheap s') <> None <-> zfind q (p_pheap s) <> None).
Proof.
  intros P s s' q [_ [_ H]]. specialize (H q). destruct (zfind q (p_pheap s)), (zfind q (p_pheap s')); try contradiction; split; congruence.
Qed.
Lemma hrel_rheap : forall P s s', hrel P s s' -> p_rheap s' = p_rheap s /\ p_pvec s' = p_pvec s /\ p_rvec s' = p_rvec s /\ p_pmap s' = p_pmap s.
Proof. intros P s s' [H _]. rewrite H. auto. Qed.
Lemma hrel_some : forall P s s' q b, hrel P s s' -> zfind q (p_pheap s) = Some b -> exists b', zfind q (p_pheap s') = Some b' /\ P q b b'.
Proof.
  intros P s s' q b [_ [_ H]] E. specialize (H q). rewrite E in H. destruct (zfind q (p_pheap s')); [eauto|contradiction].
Qed.
Lemma hrel_some' : forall P s s' q b', hrel P s s' -> zfind q (p_pheap s') = Some b' -> exists b, zfind q (p_pheap s) = Some b /\ P q b b'.
Proof.
  intros P s s' q b [_ [_ H]] E. specialize (H q). rewrite E in H. destruct (zfind q (p_pheap s)); [eauto|contradiction].
Qed.

Definition keep (b b' : pblock) : Prop :=
  b_addr b' = b_addr b /\ b_size b' = b_size b /\ b_man b' = b_man b /\ b_lo b' = b_lo b /\ b_hi b' = b_hi b /\ b_deps b' = b_deps b.
Lemma keep_refl : forall b, keep b b. Proof. intros; unfold keep; auto 10. Qed.
Lemma keep_trans : forall b c d, keep b c -> keep c d -> keep b d.
Proof. unfold keep. intros b c d H1 H2. intuition congruence. Qed.

(** ** Indices *)
Definition chg_index (q : Z) (b b' : pblock) : Prop := keep b b' /\ b_const b' = b_const b /\ b_user b' = b_user b.
Lemma chg_index_refl : forall q b, chg_index q b b. Proof. unfold chg_index; auto using keep_refl. Qed.
Lemma chg_index_trans : forall q b c d, chg_index q b c -> chg_index q c d -> chg_index q b d.
Proof. unfold chg_index. intros q b c d [A [B C]] [D [E F]]. split; [eapply keep_trans; eauto|]. split; congruence. Qed.

Lemma set_index_ok : forall s i p, zsorted (p_pheap s) -> zfind p (p_pheap s) <> None ->
  exists s', set_index i p s = Ok s' /\ hrel (fun q b b' => chg_index q b b' /\ (b_index b' = if q =? p then i else b_index b)) s s'.
Proof.
  intros s i p Hs H. unfold set_index. destruct (zfind p (p_pheap s)) as [b|] eqn:E; [|congruence]. cbn [deref bind].
  eexists. split; [reflexivity|]. eapply hrel_put; eauto.
  - split; [unfold chg_index, keep; simpl; auto 10|]. rewrite Z.eqb_refl. auto.
  - intros q c N. split; [apply chg_index_refl|]. destruct (Z.eqb_spec q p); [contradiction|auto].
Qed.

Lemma unmark_list_ok : forall ps s, zsorted (p_pheap s) -> (forall p, In p ps -> zfind p (p_pheap s) <> None) ->
  exists s', foreach (set_index (-1)) ps s = Ok s' /\ hrel chg_index s s'.
Proof.
  induction ps as [|p ps IH]; intros s Hs H.
  - exists s. split; auto. apply hrel_refl; auto using chg_index_refl.
  - cbn [foreach]. destruct (set_index_ok s (-1) p Hs (H p (or_introl eq_refl))) as [s1 [-> R1]]. cbn [bind].
    destruct (IH s1) as [s2 [A B]].
    + apply R1.
    + intros q Hq. rewrite (hrel_live _ _ _ q R1). auto with datatypes.
    + exists s2. split; auto. eapply hrel_trans; [exact R1|exact B|]. cbv beta. intros q b c d [C _] D. eapply chg_index_trans; eauto.
Qed.

Lemma unmark_ok : forall rs s, zsorted (p_pheap s) ->
  (forall r, In r rs -> exists rb, zfind r (p_rheap s) = Some rb /\ forall p, In p (r_params rb) -> zfind p (p_pheap s) <> None) ->
  exists s', foreach unmark_residual rs s = Ok s' /\ hrel chg_index s s'.
Proof.
  induction rs as [|r rs IH]; intros s Hs H.
  - exists s. split; auto. apply hrel_refl; auto using chg_index_refl.
  - cbn [foreach]. unfold unmark_residual at 1. destruct (H r (or_introl eq_refl)) as [rb [RB L]]. rewrite RB. cbn [deref bind].
    destruct (unmark_list_ok (r_params rb) s Hs L) as [s1 [-> R1]]. cbn [bind].
    destruct (IH s1) as [s2 [A B]].
    + apply R1.
    + intros q Hq. destruct (H q (or_intror Hq)) as [qb [QB QL]]. exists qb. rewrite (proj1 (hrel_rheap _ _ _ R1)). split; auto.
      intros p Hp. rewrite (hrel_live _ _ _ p R1). auto.
    + exists s2. split; auto. eapply hrel_trans; [exact R1|exact B|]. apply chg_index_trans.
Qed.

Lemma number_ok : forall ps i s, zsorted (p_pheap s) -> (forall p, In p ps -> zfind p (p_pheap s) <> None) ->
  exists s', number_blocks i ps s = Ok s' /\
    hrel (fun q b b' => chg_index q b b' /\ (NoDup ps -> forall k, nth_error ps k = Some q -> b_index b' = i + Z.of_nat k) /\ (~ In q ps -> b_index b' = b_index b)) s s'.
Proof.
  induction ps as [|p ps IH]; intros i s Hs H.
  - exists s. split; auto. apply hrel_refl; auto. intros q b _. split; [apply chg_index_refl|]. split; auto.
    intros _ [|k]; discriminate.
  - cbn [number_blocks]. destruct (set_index_ok s i p Hs (H p (or_introl eq_refl))) as [s1 [-> R1]]. cbn [bind].
    destruct (IH (i + 1) s1) as [s2 [A B]].
    + apply R1.
    + intros q Hq. rewrite (hrel_live _ _ _ q R1). auto with datatypes.
    + exists s2. split; auto. eapply hrel_trans; [exact R1|exact B|]. cbv beta.
      intros q b c d [C1 C2] [D1 [D2 D3]]. split; [eapply chg_index_trans; eauto|]. split.
      * intros ND k Hk. inversion ND; subst. destruct k as [|k].
        -- simpl in Hk. inversion Hk; subst q. rewrite D3 by auto. rewrite C2, Z.eqb_refl. lia.
        -- simpl in Hk. rewrite (D2 H3 k Hk). lia.
      * intros N. rewrite D3 by (intro; apply N; right; auto). rewrite C2. destruct (Z.eqb_spec q p); auto. subst. exfalso. apply N. left; auto.
Qed.

Lemma set_offsets_ok : forall rs ps s, zsorted (p_pheap s) ->
  (forall r, In r rs -> exists rb, zfind r (p_rheap s) = Some rb /\ forall p, In p (r_params rb) -> zfind p (p_pheap s) <> None) ->
  (forall p, In p ps -> zfind p (p_pheap s) <> None) ->
  exists s', set_offsets_and_index rs ps s = Ok s' /\
    hrel (fun q b b' => chg_index q b b' /\ (NoDup ps -> forall k, nth_error ps k = Some q -> b_index b' = Z.of_nat k)) s s'.
Proof.
  intros rs ps s Hs H1 H2. unfold set_offsets_and_index. destruct (unmark_ok rs s Hs H1) as [s1 [-> R1]]. cbn [bind].
  destruct (number_ok ps 0 s1) as [s2 [A B]].
  - apply R1.
  - intros p Hp. rewrite (hrel_live _ _ _ p R1). auto.
  - exists s2. split; auto. eapply hrel_trans; [exact R1|exact B|]. cbv beta. intros q b c d C [D1 [D2 _]].
    split; [eapply chg_index_trans; eauto|]. intros ND k Hk. rewrite (D2 ND k Hk). lia.
Qed.

Section WithTan.
Variable mf_tan : Z -> Z.
Notation is_constant := (is_constant mf_tan).

(** ** State pointers *)
Definition chg_user (q : Z) (b b' : pblock) : Prop := keep b b' /\ b_const b' = b_const b /\ b_index b' = b_index b.
Lemma chg_user_refl : forall q b, chg_user q b b. Proof. unfold chg_user; auto using keep_refl. Qed.
Lemma chg_user_trans : forall q b c d, chg_user q b c -> chg_user q c d -> chg_user q b d.
Proof. unfold chg_user. intros q b c d [A [B C]] [D [E F]]. split; [eapply keep_trans; eauto|]. split; congruence. Qed.

Lemma is_constant_keep : forall b b', keep b b' -> b_const b' = b_const b -> is_constant b' = is_constant b.
Proof. intros b b' [A1 [A2 [A3 _]]] C. unfold ProblemModel.is_constant, tangent_size. rewrite C, A3, A2. auto. Qed.

(** The blocks whose state pointer is set. *)
Fixpoint touched (jac : Z -> bool) (ps : list Z) (s : problem) : list Z :=
  match ps with
  | [] => []
  | p :: ps' =>
      match zfind p (p_pheap s) with
      | None => []
      | Some b => if is_constant b then touched jac ps' s
                  else p :: (if (b_man b =? 0) || jac (b_addr b) then touched jac ps' s else [])
      end
  end.

Definition same_const (s s' : problem) : Prop := hrel (fun q b b' => keep b b' /\ b_const b' = b_const b) s s'.

Lemma touched_same : forall jac ps s s', same_const s s' -> touched jac ps s' = touched jac ps s.
Proof.
  intros jac ps s s' H. induction ps as [|p ps IH]; simpl; auto.
  destruct (zfind p (p_pheap s)) as [b|] eqn:E.
  - destruct (hrel_some _ _ _ _ _ H E) as [b' [E' [K C]]]. rewrite E'. rewrite (is_constant_keep b b' K C).
    destruct K as [K1 [K2 [K3 _]]]. rewrite K1, K3. rewrite IH. auto.
  - destruct H as [_ [_ H]]. specialize (H p). rewrite E in H. destruct (zfind p (p_pheap s')); [contradiction|auto].
Qed.

Lemma set_states_ok : forall jac u ps s, zsorted (p_pheap s) -> (forall p, In p ps -> zfind p (p_pheap s) <> None) ->
  exists s' ok, set_states mf_tan jac u ps s = Ok (s', ok) /\
    hrel (fun q b b' => chg_user q b b' /\ b_user b' = if existsb (Z.eqb q) (touched jac ps s) then u else b_user b) s s'.
Proof.
  intros jac u; induction ps as [|p ps IH]; intros s Hs H.
  - exists s, true. split; auto. apply hrel_refl; auto. intros. split; [apply chg_user_refl|auto].
  - cbn [set_states touched]. destruct (zfind p (p_pheap s)) as [b|] eqn:E; [|exfalso; exact (H p (or_introl eq_refl) E)].
    cbn [deref bind]. destruct (is_constant b) eqn:EC.
    + apply IH; auto. intros q Hq. apply H. right; auto.
    + set (s1 := set_pheap s (zput p (with_user b u) (p_pheap s))).
      assert (R1 : hrel (fun q b b' => chg_user q b b' /\ b_user b' = if q =? p then u else b_user b) s s1).
      { eapply hrel_put; eauto.
        - split; [unfold chg_user, keep; simpl; auto 10|]. rewrite Z.eqb_refl. auto.
        - intros q c N. split; [apply chg_user_refl|]. destruct (Z.eqb_spec q p); [contradiction|auto]. }
      destruct ((b_man b =? 0) || jac (b_addr b)).
      * destruct (IH s1) as [s2 [ok [A B]]].
        -- apply R1.
        -- intros q Hq. rewrite (hrel_live _ _ _ q R1). auto with datatypes.
        -- exists s2, ok. split; auto. eapply hrel_trans; [exact R1|exact B|]. cbv beta.
           rewrite (touched_same jac ps s s1).
           ++ intros q c d e [C1 C2] [D1 D2]. split; [eapply chg_user_trans; eauto|]. rewrite D2, C2. cbn [existsb].
              destruct (q =? p); simpl; auto. destruct (existsb (Z.eqb q) (touched jac ps s)); auto.
           ++ eapply hrel_weaken; [exact R1|]. cbv beta. intros q c d [C1 _]. destruct C1 as [C1 [C2 C3]]. auto.
      * exists s1, false. split; auto. eapply hrel_weaken; [exact R1|]. cbv beta. intros q c d [C1 C2]. split; auto.
        rewrite C2. cbn [existsb]. rewrite orb_false_r. auto.
Qed.

Lemma touched_in : forall jac ps s q, In q (touched jac ps s) ->
  In q ps /\ exists b, zfind q (p_pheap s) = Some b /\ is_constant b = false.
Proof.
  intros jac ps s q. induction ps as [|p ps IH]; simpl; [contradiction|].
  destruct (zfind p (p_pheap s)) as [b|] eqn:E; [|contradiction]. destruct (is_constant b) eqn:C.
  - intros H. apply IH in H. tauto.
  - intros [->|H]; [split; eauto|]. destruct ((b_man b =? 0) || jac (b_addr b)); [|contradiction]. apply IH in H. tauto.
Qed.

Lemma touched_all : forall jac ps s q, (forall a, jac a = true) -> In q ps ->
  (exists b, zfind q (p_pheap s) = Some b /\ is_constant b = false) ->
  (forall p, In p ps -> zfind p (p_pheap s) <> None) -> In q (touched jac ps s).
Proof.
  intros jac ps s q HJ. induction ps as [|p ps IH]; simpl; [contradiction|]. intros H1 H2 H3.
  destruct (zfind p (p_pheap s)) as [b|] eqn:E; [|exfalso; exact (H3 p (or_introl eq_refl) E)].
  rewrite HJ, orb_true_r. destruct H1 as [->|H1].
  - destruct H2 as [b' [B1 B2]]. assert (b' = b) by congruence. subst. rewrite B2. left; auto.
  - destruct (is_constant b); [|right]; apply IH; auto.
Qed.

(** ** Freezing the excluded blocks *)
Definition chg_const (q : Z) (b b' : pblock) : Prop := keep b b' /\ b_user b' = b_user b /\ b_index b' = b_index b.
Lemma chg_const_refl : forall q b, chg_const q b b. Proof. unfold chg_const; auto using keep_refl. Qed.
Lemma chg_const_trans : forall q b c d, chg_const q b c -> chg_const q c d -> chg_const q b d.
Proof. unfold chg_const. intros q b c d [A [B C]] [D [E F]]. split; [eapply keep_trans; eauto|]. split; congruence. Qed.

Lemma freeze_ok : forall ps s, zsorted (p_pheap s) -> NoDup ps -> (forall p, In p ps -> zfind p (p_pheap s) <> None) ->
  exists s' fs, freeze mf_tan ps s = Ok (s', fs) /\
    hrel (fun q b b' => chg_const q b b' /\
            (In q fs -> b_const b = false) /\
            (b_const b' = if existsb (Z.eqb q) fs then true else b_const b) /\
            (In q fs <-> In q ps /\ is_constant b = false)) s s' /\
    (forall q, In q fs -> In q ps).
Proof.
  induction ps as [|p ps IH]; intros s Hs ND H.
  - exists s, []. split; auto. split; [|auto]. apply hrel_refl; auto. intros q b _. split; [apply chg_const_refl|].
    simpl. tauto.
  - cbn [freeze]. destruct (zfind p (p_pheap s)) as [b|] eqn:E; [|exfalso; exact (H p (or_introl eq_refl) E)].
    cbn [deref bind]. inversion ND as [|? ? NI ND']; subst. destruct (is_constant b) eqn:EC.
    + destruct (IH s Hs ND') as [s' [fs [A [B C]]]]; auto with datatypes. exists s', fs. split; auto. split; [|auto with datatypes].
      destruct B as [B1 [B2 B3]]. split; auto. split; auto. intros q. specialize (B3 q).
      destruct (zfind q (p_pheap s)) as [c|] eqn:F, (zfind q (p_pheap s')) as [c'|]; auto.
      destruct B3 as [D1 [D2 [D3 D4]]]. split; auto. split; auto. split; auto. rewrite D4. simpl.
      destruct (Z.eq_dec p q); [subst|tauto]. assert (c = b) by congruence. subst. rewrite EC. intuition congruence.
    + set (s1 := set_pheap s (zput p (with_const b true) (p_pheap s))).
      assert (R1 : hrel (fun q b b' => chg_const q b b' /\ b_const b' = (if q =? p then true else b_const b) /\ (q <> p -> b' = b)) s s1).
      { eapply hrel_put; eauto.
        - split; [unfold chg_const, keep; simpl; auto 10|]. rewrite Z.eqb_refl. split; auto. congruence.
        - intros q c N. split; [apply chg_const_refl|]. destruct (Z.eqb_spec q p); [contradiction|auto]. }
      destruct (IH s1) as [s2 [fs [A [B C]]]]; auto.
      { apply R1. } { intros q Hq. rewrite (hrel_live _ _ _ q R1). auto with datatypes. }
      rewrite A. cbn [bind]. exists s2, (p :: fs). split; auto. split.
      2:{ intros q [->|Hq]; [left; auto|right; auto]. }
      assert (PB : b_const b = false) by (unfold ProblemModel.is_constant in EC; apply orb_false_iff in EC; apply EC).
      split; [rewrite (proj1 B); unfold s1; destruct s; auto|]. split; [apply B|].
      intros q. destruct R1 as [_ [_ R1]]. specialize (R1 q). destruct B as [_ [_ B]]. specialize (B q).
      destruct (zfind q (p_pheap s)) as [c|] eqn:F, (zfind q (p_pheap s1)) as [c'|], (zfind q (p_pheap s2)) as [c''|]; auto; try contradiction.
      destruct R1 as [D1 [D2 D3]]. destruct B as [E1 [E2 [E3 E4]]].
      split; [eapply chg_const_trans; eauto|]. cbn [existsb In].
      destruct (Z.eqb_spec q p).
      * subst q. assert (c = b) by congruence. subst c. simpl.
        split; [auto|]. split; [|tauto]. rewrite E3. destruct (existsb (Z.eqb p) fs); auto.
      * specialize (D3 n). subst c'. simpl. split; [intros [?|?]; [congruence|auto]|]. split; [auto|].
        rewrite E4. intuition congruence.
Qed.

Lemma thaw_ok : forall fs s, zsorted (p_pheap s) -> (forall p, In p fs -> zfind p (p_pheap s) <> None) ->
  exists s', foreach thaw fs s = Ok s' /\
    hrel (fun q b b' => chg_const q b b' /\ b_const b' = if existsb (Z.eqb q) fs then false else b_const b) s s'.
Proof.
  induction fs as [|p fs IH]; intros s Hs H.
  - exists s. split; auto. apply hrel_refl; auto. intros q b _. split; [apply chg_const_refl|auto].
  - cbn [foreach]. unfold thaw at 1. destruct (zfind p (p_pheap s)) as [b|] eqn:E; [|exfalso; exact (H p (or_introl eq_refl) E)].
    cbn [deref bind]. set (s1 := set_pheap s (zput p (with_const b false) (p_pheap s))).
    assert (R1 : hrel (fun q b b' => chg_const q b b' /\ b_const b' = if q =? p then false else b_const b) s s1).
    { eapply hrel_put; eauto.
      - split; [unfold chg_const, keep; simpl; auto 10|]. rewrite Z.eqb_refl. auto.
      - intros q c N. split; [apply chg_const_refl|]. destruct (Z.eqb_spec q p); [contradiction|auto]. }
    destruct (IH s1) as [s2 [A B]].
    + apply R1.
    + intros q Hq. rewrite (hrel_live _ _ _ q R1). auto with datatypes.
    + exists s2. split; auto. eapply hrel_trans; [exact R1|exact B|]. cbv beta. intros q c d e [C1 C2] [D1 D2].
      split; [eapply chg_const_trans; eauto|]. rewrite D2, C2. cbn [existsb]. destruct (q =? p); simpl; auto.
      destruct (existsb (Z.eqb q) fs); auto.
Qed.

Lemma lookup_all_ok : forall vs s, Inv s ->
  match lookup_all vs s with
  | Ok ps => (forall v, In v vs -> view v s <> None) /\ map (addr_of s) ps = vs /\ (forall p, In p ps -> zfind p (p_pheap s) <> None)
  | Abort => exists v, In v vs /\ view v s = None
  | _ => False
  end.
Proof.
  induction vs as [|v vs IH]; intros s I.
  - simpl. split; [contradiction|]. split; [auto|contradiction].
  - cbn [lookup_all]. unfold find_block. destruct (zfind v (p_pmap s)) as [p|] eqn:E.
    + destruct (view_find s v p I E) as [b [B1 [B2 B3]]]. rewrite B1. cbn [deref bind].
      specialize (IH s I). destruct (lookup_all vs s) as [ps| | |]; cbn [bind]; try contradiction.
      * destruct IH as [A1 [A2 A3]]. split; [intros w [->|Hw]; [congruence|auto]|]. split.
        -- simpl. rewrite A2. f_equal. unfold addr_of. rewrite B1. auto.
        -- intros q [->|Hq]; [congruence|auto].
      * destruct IH as [w [W1 W2]]. exists w. split; auto. right; auto.
    + cbn [bind]. exists v. split; [left; auto|]. apply view_none; auto.
Qed.

(** Everything but the internal state pointers. *)
Definition same_but_user (s s' : problem) : Prop :=
  hrel (fun _ b b' => b' = with_user b (b_user b')) s s'.
Definition all_user (s : problem) : Prop := forall q b, zfind q (p_pheap s) = Some b -> b_user b = true.

Lemma same_all_user : forall s s', zsorted (p_pheap s) -> same_but_user s s' -> all_user s -> all_user s' -> s' = s.
Proof.
  intros s s' Hs [A1 [A2 A3]] U U'. rewrite A1.
  assert (p_pheap s' = p_pheap s).
  { apply zmap_ext; auto. intros q. specialize (A3 q).
    destruct (zfind q (p_pheap s)) as [b|] eqn:E, (zfind q (p_pheap s')) as [b'|] eqn:E'; auto; try contradiction.
    rewrite A3. specialize (U _ _ E). specialize (U' _ _ E'). rewrite U', <- U. destruct b; auto. }
  rewrite H. destruct s; auto.
Qed.

(** [s2], [ps]: state and parameter blocks with which the residuals are
    evaluated. *)
Lemma evaluate_ok : forall jac eval rs vs s, Inv s ->
  (forall r, In r rs -> zfind r (p_rheap s) <> None) ->
  match evaluate mf_tan jac eval rs vs s with
  | Ok (s', b) =>
      (forall v, In v vs -> view v s <> None) /\
      same_but_user s s' /\
      ((vs = [] \/ (forall a, jac a = true)) -> all_user s -> all_user s') /\
      exists s2 ps ok, b = ok && eval s2 ps /\
        map (addr_of s) ps = (match vs with [] => map (addr_of s) (p_pvec s) | _ => vs end) /\
        p_pmap s2 = p_pmap s /\ p_rheap s2 = p_rheap s /\
        (forall q c, zfind q (p_pheap s) = Some c -> exists c2, zfind q (p_pheap s2) = Some c2 /\ keep c c2 /\
           is_constant c2 = (is_constant c || negb (existsb (Z.eqb q) ps)))
  | Abort => exists v, In v vs /\ view v s = None
  | _ => False
  end.
Proof.
  intros jac eval rs vs s I HR. unfold evaluate.
  set (rvec := match rs with [] => p_rvec s | _ => rs end).
  assert (RV : forall r, In r rvec -> zfind r (p_rheap s) <> None).
  { intros r Hr. unfold rvec in Hr. destruct rs; [apply live_iff; auto|auto]. }
  assert (NDV : NoDup (p_pvec s)) by (eapply indexed_nodup; exact (i_pv s I)).
  (* selection *)
  assert (SEL : match (match vs with
    | [] => Ok (s, p_pvec s, [])
    | _ => do ps <- lookup_all vs s;
           do '(s, fs) <- freeze mf_tan (filter (fun p => negb (existsb (Z.eqb p) ps)) (p_pvec s)) s;
           Ok (s, ps, fs) end) with
    | Ok (s1, ps, fs) => (forall v, In v vs -> view v s <> None) /\
        map (addr_of s) ps = (match vs with [] => map (addr_of s) (p_pvec s) | _ => vs end) /\
        (forall p, In p ps -> zfind p (p_pheap s) <> None) /\
        (forall q, In q fs -> zfind q (p_pheap s) <> None) /\
        (vs = [] -> ps = p_pvec s /\ fs = []) /\
        hrel (fun q b b' => chg_const q b b' /\
            (In q fs -> b_const b = false) /\
            (b_const b' = if existsb (Z.eqb q) fs then true else b_const b) /\
            (In q fs -> ~ In q ps) /\
            is_constant b' = (is_constant b || negb (existsb (Z.eqb q) ps))) s s1
    | Abort => exists v, In v vs /\ view v s = None
    | _ => False end).
  { destruct vs as [|v0 vs].
    - split; [contradiction|]. split; auto. split; [intros p; apply plive_iff; auto|]. split; [contradiction|]. split; auto.
      apply hrel_refl; [exact (i_sp s I)|]. intros q b Hb. split; [apply chg_const_refl|]. split; [contradiction|]. split; auto.
      split; [contradiction|].
      assert (In q (p_pvec s)) by (apply plive_iff; auto; congruence). apply existsb_eqb in H. rewrite H. simpl. rewrite orb_false_r. auto.
    - pose proof (lookup_all_ok (v0 :: vs) s I) as L. remember (v0 :: vs) as w.
      destruct (lookup_all w s) as [ps| | |]; cbn [bind]; auto. destruct L as [L1 [L2 L3]].
      destruct (freeze_ok (filter (fun p => negb (existsb (Z.eqb p) ps)) (p_pvec s)) s (i_sp s I)) as [s1 [fs [A [B C]]]].
      + apply NoDup_filter; auto.
      + intros p Hp. apply filter_In in Hp. apply plive_iff; tauto.
      + rewrite A. cbn [bind]. split; auto. split; auto. split; auto. split.
        { intros q Hq. apply C in Hq. apply filter_In in Hq. apply plive_iff; tauto. }
        split; [congruence|].
        split; [apply B|]. split; [apply B|]. intros q. destruct B as [_ [_ B]]. specialize (B q).
        destruct (zfind q (p_pheap s)) as [b|] eqn:E, (zfind q (p_pheap s1)) as [b'|]; auto.
        destruct B as [B1 [B2 [B3 B4]]]. split; auto. split; auto. split; auto. split.
        { intros Hq. apply B4 in Hq. destruct Hq as [Hq _]. apply filter_In in Hq. destruct Hq as [_ Hq].
          apply negb_true_iff in Hq. apply existsb_eqb_false; auto. }
        assert (PV : In q (p_pvec s)) by (apply plive_iff; auto; congruence).
        destruct B1 as [[K1 [K2 [K3 _]]] _]. unfold ProblemModel.is_constant in *. unfold tangent_size in *. rewrite K3, K2, B3.
        destruct (existsb (Z.eqb q) fs) eqn:EF.
        * apply existsb_eqb in EF. apply B4 in EF. destruct EF as [EF1 EF2]. rewrite EF2. simpl.
          apply filter_In in EF1. symmetry. apply EF1.
        * destruct (existsb (Z.eqb q) ps) eqn:EP; simpl; [rewrite orb_false_r; auto|].
          rewrite orb_true_r. destruct (b_const b || ((if b_man b =? 0 then b_size b else mf_tan (b_man b)) =? 0)) eqn:EC; auto.
          exfalso. apply existsb_eqb_false in EF. apply EF. apply B4. split; auto. apply filter_In. split; auto. rewrite EP. auto. }
  destruct (match vs with
    | [] => Ok (s, p_pvec s, [])
    | _ => do ps <- lookup_all vs s;
           do '(s, fs) <- freeze mf_tan (filter (fun p => negb (existsb (Z.eqb p) ps)) (p_pvec s)) s;
           Ok (s, ps, fs) end) as [[[s1 ps] fs]| | |]; cbn [bind]; auto.
  destruct SEL as [V1 [V2 [V3 [V4 [V5 R1]]]]].
  destruct (hrel_rheap _ _ _ R1) as [Q1 [Q2 [Q3 Q3']]].
  (* offsets *)
  destruct (set_offsets_ok rvec ps s1) as [s2 [-> R2]].
  { apply R1. }
  { intros r Hr. specialize (RV r Hr). destruct (zfind r (p_rheap s)) as [rb|] eqn:ER; [|congruence]. exists rb. rewrite Q1. split; auto.
    intros p Hp. rewrite (hrel_live _ _ _ p R1). apply (i_rp s I r rb ER). auto. }
  { intros p Hp. rewrite (hrel_live _ _ _ p R1). auto. }
  cbn [bind]. destruct (hrel_rheap _ _ _ R2) as [Q4 [Q5 [Q6 Q6']]].
  (* states to user *)
  destruct (set_states_ok jac true ps s2) as [s3 [ok3 [-> R3]]].
  { apply R2. } { intros p Hp. rewrite (hrel_live _ _ _ p R2), (hrel_live _ _ _ p R1). auto. }
  cbn [bind]. destruct (hrel_rheap _ _ _ R3) as [Q7 [Q8 [Q9 Q9']]].
  destruct (set_states_ok jac false ps s3) as [s4 [ok4 [-> R4]]].
  { apply R3. } { intros p Hp. rewrite (hrel_live _ _ _ p R3), (hrel_live _ _ _ p R2), (hrel_live _ _ _ p R1). auto. }
  cbn [bind]. destruct (hrel_rheap _ _ _ R4) as [Q10 [Q11 [Q12 Q12']]].
  destruct (thaw_ok fs s4) as [s5 [-> R5]].
  { apply R4. } { intros p Hp. rewrite (hrel_live _ _ _ p R4), (hrel_live _ _ _ p R3), (hrel_live _ _ _ p R2), (hrel_live _ _ _ p R1). auto. }
  cbn [bind]. destruct (hrel_rheap _ _ _ R5) as [Q13 [Q14 [Q15 Q15']]].
  assert (PV5 : p_pvec s5 = p_pvec s) by congruence.
  assert (LV5 : forall p, zfind p (p_pheap s5) <> None <-> zfind p (p_pheap s) <> None).
  { intros p. rewrite (hrel_live _ _ _ p R5), (hrel_live _ _ _ p R4), (hrel_live _ _ _ p R3), (hrel_live _ _ _ p R2), (hrel_live _ _ _ p R1). tauto. }
  destruct (set_states_ok jac true (p_pvec s5) s5) as [s6 [ok6 [-> R6]]].
  { apply R5. } { rewrite PV5. intros p Hp. rewrite LV5. apply plive_iff; auto. }
  cbn [bind]. destruct (hrel_rheap _ _ _ R6) as [Q16 [Q17 [Q18 Q18']]].
  assert (PV6 : p_pvec s6 = p_pvec s) by congruence. assert (RV6 : p_rvec s6 = p_rvec s) by congruence.
  assert (RH6 : p_rheap s6 = p_rheap s) by congruence.
  destruct (set_offsets_ok (p_rvec s6) (p_pvec s6) s6) as [s7 [-> R7]].
  { apply R6. }
  { rewrite RV6, RH6. intros r Hr. apply live_iff in Hr; auto. destruct (zfind r (p_rheap s)) as [rb|] eqn:ER; [|congruence].
    exists rb. split; auto. intros p Hp. rewrite (hrel_live _ _ _ p R6), LV5. apply (i_rp s I r rb ER). auto. }
  { rewrite PV6. intros p Hp. rewrite (hrel_live _ _ _ p R6), LV5. apply plive_iff; auto. }
  cbn [bind]. split; auto.
  (* blocks seen through all stages *)
  assert (CH : forall q b7, zfind q (p_pheap s7) = Some b7 -> exists b1 b2 b3 b4 b5 b6 b,
     zfind q (p_pheap s) = Some b /\ zfind q (p_pheap s1) = Some b1 /\ zfind q (p_pheap s2) = Some b2 /\ zfind q (p_pheap s3) = Some b3 /\
     zfind q (p_pheap s4) = Some b4 /\ zfind q (p_pheap s5) = Some b5 /\ zfind q (p_pheap s6) = Some b6).
  { intros q b7 H7. destruct (hrel_some' _ _ _ _ _ R7 H7) as [b6 [H6 _]]. destruct (hrel_some' _ _ _ _ _ R6 H6) as [b5 [H5 _]].
    destruct (hrel_some' _ _ _ _ _ R5 H5) as [b4 [H4 _]]. destruct (hrel_some' _ _ _ _ _ R4 H4) as [b3 [H3 _]].
    destruct (hrel_some' _ _ _ _ _ R3 H3) as [b2 [H2 _]]. destruct (hrel_some' _ _ _ _ _ R2 H2) as [b1 [H1 _]].
    destruct (hrel_some' _ _ _ _ _ R1 H1) as [b [H0 _]]. exists b1, b2, b3, b4, b5, b6, b. auto 10. }
  assert (R23 : same_const s1 s3).
  { eapply hrel_trans; [exact R2|exact R3|]. cbv beta. intros q b c d [[A1 [A2 A3]] _] [[B1 [B2 B3]] _].
    split; [eapply keep_trans; eauto|congruence]. }
  assert (R24 : same_const s1 s4).
  { eapply hrel_trans; [exact R23|exact R4|]. cbv beta. intros q b c d [A1 A2] [[B1 [B2 B3]] _].
    split; [eapply keep_trans; eauto|congruence]. }
  assert (SC : same_const s s5).
  { eapply hrel_trans; [exact R1| |].
    - eapply hrel_trans; [exact R24|exact R5|]. intros q b c d [A1 A2] [[B1 [B2 B3]] B4].
      exact (conj (keep_trans _ _ _ A1 B1) (eq_trans B4 (f_equal (fun z => if existsb (Z.eqb q) fs then false else z) A2))).
    - cbv beta. intros q b c d [[A1 [A2 A3]] [A4 [A5 _]]] [B1 B2]. split; [eapply keep_trans; eauto|].
      destruct (existsb (Z.eqb q) fs) eqn:EF; [|congruence]. apply existsb_eqb in EF. rewrite (A4 EF). auto. }
  assert (SB : same_but_user s s7).
  { split; [|split].
    - rewrite (proj1 R7), (proj1 R6), (proj1 R5), (proj1 R4), (proj1 R3), (proj1 R2), (proj1 R1). destruct s; auto.
    - apply R7.
    - intros q. assert (LV7 : zfind q (p_pheap s7) <> None <-> zfind q (p_pheap s) <> None).
      { rewrite (hrel_live _ _ _ q R7), (hrel_live _ _ _ q R6). apply LV5. }
      destruct (zfind q (p_pheap s7)) as [b7|] eqn:H7.
      2:{ destruct (zfind q (p_pheap s)); auto. destruct LV7 as [_ LV7]. apply LV7; congruence. }
      destruct (hrel_some' _ _ _ _ _ R7 H7) as [b6 [H6 [[K7 [C7 U7]] X7]]].
      destruct (hrel_some' _ _ _ _ _ R6 H6) as [b5 [H5 [[K6 [C6 X6]] U6]]].
      destruct (hrel_some' _ _ _ _ _ SC H5) as [b [H0 [K0 C0]]]. rewrite H0.
      assert (K : keep b b7) by (eapply keep_trans; [eapply keep_trans; [exact K0|exact K6]|exact K7]).
      assert (IX : b_index b7 = b_index b).
      { rewrite PV6 in X7. assert (PV : In q (p_pvec s)) by (apply plive_iff; auto; congruence).
        apply In_nth_error in PV. destruct PV as [k Hk]. rewrite (X7 NDV k Hk).
        destruct (i_pv s I) as [J _]. specialize (J k q Hk). unfold pidx in J. rewrite H0 in J. simpl in J. congruence. }
      destruct K as [K1 [K2 [K3 [K4 [K5 K8]]]]]. destruct b, b7; unfold with_user; simpl in *; congruence. }
  split; auto. split.
  { intros HJ AU q b7 H7.
    destruct (hrel_some' _ _ _ _ _ R7 H7) as [b6 [H6 [[K7 [C7 U7]] X7]]].
    destruct (hrel_some' _ _ _ _ _ R6 H6) as [b5 [H5 [[K6 [C6 X6]] U6]]].
    destruct (hrel_some' _ _ _ _ _ R5 H5) as [b4 [H4 [[K5 [U5 X5]] C5]]].
    destruct (hrel_some' _ _ _ _ _ R4 H4) as [b3 [H3 [[K4 [C4 X4]] U4]]].
    destruct (hrel_some' _ _ _ _ _ R3 H3) as [b2 [H2 [[K3 [C3 X3]] U3]]].
    destruct (hrel_some' _ _ _ _ _ R2 H2) as [b1 [H1 [[K2 [C2 U2]] _]]].
    destruct (hrel_some' _ _ _ _ _ R1 H1) as [b [H0 [[K1 [U1 X1]] _]]].
    pose proof (AU q b H0) as UB.
    rewrite U7, U6. destruct (existsb (Z.eqb q) (touched jac (p_pvec s5) s5)) eqn:T5; auto.
    rewrite U5, U4. destruct (existsb (Z.eqb q) (touched jac ps s3)) eqn:T3.
    - exfalso. apply existsb_eqb_false in T5. apply T5. apply existsb_eqb in T3. rewrite PV5.
      destruct HJ as [HJ|HJ].
      + destruct (V5 HJ) as [-> ->]. rewrite (touched_same jac (p_pvec s) s s5 SC).
        rewrite (touched_same jac (p_pvec s) s1 s3 R23) in T3.
        rewrite (touched_same jac (p_pvec s) s s1) in T3; auto.
        eapply hrel_weaken; [exact R1|]. cbv beta. intros q' c d [[A1 _] [_ [A2 _]]]. simpl in A2. auto.
      + apply touched_in in T3. destruct T3 as [T1 [c3 [T2 T3]]]. assert (c3 = b3) by congruence. subst c3.
        apply touched_all; auto.
        * apply plive_iff; auto; congruence.
        * exists b5. split; auto.
          destruct (hrel_some' _ _ _ _ _ SC H5) as [b' [H0' [K0 C0]]]. assert (b' = b) by congruence. subst b'.
          rewrite (is_constant_keep b b5 K0 C0).
          destruct (hrel_some' _ _ _ _ _ R1 H1) as [b'' [H0'' [_ [_ [_ [_ Y]]]]]]. assert (b'' = b) by congruence. subst b''.
          destruct (hrel_some' _ _ _ _ _ R23 H3) as [b1' [H1' [K13 C13]]]. assert (b1' = b1) by congruence. subst b1'.
          rewrite (is_constant_keep b1 b3 K13 C13), Y in T3. apply orb_false_iff in T3. apply T3.
        * intros p Hp. apply LV5. apply plive_iff; auto.
    - rewrite U3. destruct (existsb (Z.eqb q) (touched jac ps s2)); congruence. }
  exists s4, ps, ok4. split; auto. split; auto. split; [congruence|]. split; [congruence|].
  intros q c Hc. destruct (hrel_some _ _ _ _ _ R1 Hc) as [c1 [H1 [[K1 _] [_ [_ [_ Y]]]]]].
  destruct (hrel_some _ _ _ _ _ R24 H1) as [c4 [H4 [K4 C4]]]. exists c4. split; auto.
  split; [eapply keep_trans; eauto|]. rewrite (is_constant_keep c1 c4 K4 C4). auto.
Qed.
End WithTan.
