(* Proofs about the parameter state of a Program. *)

From Coq Require Import List Arith Bool Lia Permutation.
From Verif Require Import ProgramStateModel ProgramStateSpec.
Import ListNotations.

Section Proofs.
Variable V : Type.
Implicit Types (m : mem V) (w : world V) (b : pblock V) (bs : list (pblock V)).

Lemma array_eqb_refl a : array_eqb a a = true.
Proof. destruct a; apply Nat.eqb_refl. Qed.

Lemma array_eqb_eq a a' : array_eqb a a' = true <-> a = a'.
Proof.
  destruct a, a'; cbn; split; intro H; try discriminate.
  - apply Nat.eqb_eq in H; congruence.
  - injection H as ->; apply Nat.eqb_refl.
  - apply Nat.eqb_eq in H; congruence.
  - injection H as ->; apply Nat.eqb_refl.
Qed.

Lemma upd_same m a x : upd m a x a = x.
Proof. unfold upd. now rewrite array_eqb_refl. Qed.

Lemma upd_other m a x a' : a <> a' -> upd m a x a' = m a'.
Proof.
  unfold upd. destruct (array_eqb a a') eqn:E; [|auto].
  apply array_eqb_eq in E. congruence.
Qed.

Lemma ptr_eqb_eq p q : ptr_eqb p q = true <-> p = q.
Proof.
  destruct p as [a i], q as [a' j]; unfold ptr_eqb; cbn.
  rewrite andb_true_iff, array_eqb_eq, Nat.eqb_eq.
  split; [intros [-> ->]; auto | intros [= -> ->]; auto].
Qed.

Lemma ptr_eqb_neq p q : ptr_eqb p q = false <-> p <> q.
Proof.
  rewrite <- ptr_eqb_eq. destruct (ptr_eqb p q); split; congruence.
Qed.

(* reading and writing a piece of an array *)

Lemma read_chunk m a pre v post n :
  m a = Some (pre ++ v ++ post) -> n = length v ->
  read m (a, length pre) n = Some v.
Proof.
  intros H ->. unfold read; cbn. rewrite H, !app_length.
  replace (length pre + length v <=? _) with true
    by (symmetry; apply Nat.leb_le; lia).
  rewrite skipn_app, skipn_all2, Nat.sub_diag by lia. cbn.
  now rewrite firstn_app, Nat.sub_diag, firstn_O, firstn_all, app_nil_r.
Qed.

Lemma read_all m a v n :
  m a = Some v -> n = length v -> read m (a, 0) n = Some v.
Proof.
  intros H E. apply (read_chunk m a [] v [] n); [now rewrite app_nil_r|auto].
Qed.

Lemma write_chunk m a pre old post v :
  m a = Some (pre ++ old ++ post) -> length v = length old ->
  write m (a, length pre) v = Some (upd m a (Some (pre ++ v ++ post))).
Proof.
  intros H E. unfold write; cbn. rewrite H, !app_length.
  replace (length pre + length v <=? _) with true
    by (symmetry; apply Nat.leb_le; lia).
  do 3 f_equal.
  rewrite firstn_app, Nat.sub_diag, firstn_O, firstn_all, app_nil_r.
  f_equal. f_equal. rewrite E.
  replace (length pre + length old) with (length (pre ++ old))
    by now rewrite app_length.
  rewrite app_assoc, skipn_app, skipn_all, Nat.sub_diag. reflexivity.
Qed.

Lemma write_all m a old v :
  m a = Some old -> length v = length old ->
  write m (a, 0) v = Some (upd m a (Some v)).
Proof.
  intros H E. pose proof (write_chunk m a [] old [] v) as Q. cbn [length app] in Q.
  rewrite Q; rewrite ?app_nil_r; auto.
Qed.

Lemma read_length m p n v : read m p n = Some v -> length v = n.
Proof.
  unfold read. destruct (m (fst p)) as [l|]; [|discriminate].
  destruct (snd p + n <=? length l) eqn:E; [|discriminate].
  intros [= <-]. apply Nat.leb_le in E.
  rewrite firstn_length, skipn_length. lia.
Qed.

Lemma read_same m m' p n : m' (fst p) = m (fst p) -> read m' p n = read m p n.
Proof. intros E. unfold read. now rewrite E. Qed.

Lemma write_some m p v m' :
  write m p v = Some m' ->
  (forall a, a <> fst p -> m' a = m a) /\
  exists l l', m (fst p) = Some l /\ m' (fst p) = Some l' /\
               length l' = length l.
Proof.
  unfold write. destruct (m (fst p)) as [l|] eqn:E; [|discriminate].
  destruct (snd p + length v <=? length l) eqn:L; [|discriminate].
  intros [= <-]. apply Nat.leb_le in L. split.
  - intros a Ha. apply upd_other. congruence.
  - exists l. eexists. rewrite upd_same. split; [auto|split; [reflexivity|]].
    rewrite !app_length, firstn_length, skipn_length. lia.
Qed.

(* ------------------------------------------------------------------ *)
(* set_state                                                            *)

Lemma set_state_some b p w ok w' :
  set_state b p w = Some (ok, w') ->
  is_constant b = false /\ w' = set_ptr w (pb_id b) p.
Proof.
  unfold set_state. destruct (is_constant b); [discriminate|].
  destruct (update_plus_jacobian b _); [|discriminate].
  intros [= _ <-]. auto.
Qed.

Lemma set_ptr_same w c p : w_state (set_ptr w c p) c = p.
Proof. cbn. now rewrite Nat.eqb_refl. Qed.

Lemma set_ptr_other w c p c' : c <> c' -> w_state (set_ptr w c p) c' = w_state w c'.
Proof.
  intros H. cbn. destruct (Nat.eqb c c') eqn:E; [|auto].
  apply Nat.eqb_eq in E. congruence.
Qed.

Lemma set_state_ok b p w v :
  is_constant b = false -> read (w_mem w) p (pb_size b) = Some v ->
  set_state b p w =
    Some (if pb_has_manifold b then pb_pj b v else true, set_ptr w (pb_id b) p).
Proof.
  intros C R. unfold set_state. rewrite C. unfold update_plus_jacobian.
  rewrite set_ptr_same. cbn [w_mem set_ptr]. rewrite R.
  destruct (pb_has_manifold b); reflexivity.
Qed.

Lemma set_state_accept b p w v :
  is_constant b = false -> read (w_mem w) p (pb_size b) = Some v ->
  acceptable b v ->
  set_state b p w = Some (true, set_ptr w (pb_id b) p).
Proof.
  intros C R A. rewrite (set_state_ok b p w v C R).
  destruct (pb_has_manifold b) eqn:M; [|reflexivity].
  now rewrite (A C M).
Qed.

(* ------------------------------------------------------------------ *)
(* StateVectorToParameterBlocks                                         *)

Lemma sv_some bs : forall p w ok w',
  state_vector_to_blocks bs p w = Some (ok, w') ->
  w_mem w' = w_mem w /\
  forall c, w_state w' c = w_state w c \/
            (exists b off, In b bs /\ pb_id b = c /\ is_constant b = false /\
                           w_state w' c = (fst p, off)).
Proof.
  induction bs as [|b bs IH]; intros p w ok w' H; cbn [state_vector_to_blocks] in H.
  - injection H as _ <-. auto.
  - destruct (is_constant b) eqn:C.
    + destruct (IH _ _ _ _ H) as [M P]. split; [auto|].
      intros c. destruct (P c) as [E|(b' & off & I & R)]; [auto|right].
      exists b', off. split; [right; auto|exact R].
    + destruct (set_state b p w) as [[ok1 w1]|] eqn:S; [|discriminate].
      destruct (set_state_some _ _ _ _ _ S) as [_ W].
      assert (P1 : forall c, w_state w1 c = w_state w c \/
                 (pb_id b = c /\ w_state w1 c = p)).
      { intros c. subst w1. destruct (Nat.eq_dec (pb_id b) c) as [<-|N].
        - right. now rewrite set_ptr_same.
        - left. now apply set_ptr_other. }
      assert (M1 : w_mem w1 = w_mem w) by now subst w1.
      destruct ok1.
      * destruct (IH _ _ _ _ H) as [M P]. cbn [fst] in P. split; [congruence|].
        intros c. destruct (P c) as [E|(b' & off & I & J & K & L)].
        -- rewrite E. destruct (P1 c) as [F|[F G]]; [auto|right].
           exists b, (snd p). split; [left; auto|]. split; [auto|].
           split; [auto|]. rewrite G. now destruct p.
        -- right. exists b', off. split; [right; auto|auto].
      * injection H as _ <-. split; [auto|].
        intros c. destruct (P1 c) as [F|[F G]]; [auto|right].
        exists b, (snd p). split; [left; auto|]. split; [auto|].
        split; [auto|]. rewrite G. now destruct p.
Qed.

Lemma sv_other bs p w ok w' c :
  state_vector_to_blocks bs p w = Some (ok, w') ->
  ~ In c (map pb_id bs) -> w_state w' c = w_state w c.
Proof.
  intros H N. destruct (proj2 (sv_some bs p w ok w' H) c) as [E|(b & off & I & J & _)];
    [auto|]. exfalso. apply N. rewrite <- J. now apply in_map.
Qed.

Lemma sv_constant bs p w ok w' b :
  distinct bs -> state_vector_to_blocks bs p w = Some (ok, w') ->
  In b bs -> is_constant b = true ->
  w_state w' (pb_id b) = w_state w (pb_id b).
Proof.
  intros D H I C.
  destruct (proj2 (sv_some bs p w ok w' H) (pb_id b)) as [E|(b' & off & I' & J & K & _)];
    [auto|]. exfalso.
  assert (b' = b).
  { clear - D I I' J. unfold distinct in D. induction bs as [|x bs IH]; [easy|].
    cbn in D. apply NoDup_cons_iff in D as [N D].
    destruct I as [->|I], I' as [->|I']; auto.
    - exfalso. apply N. rewrite <- J. now apply in_map.
    - exfalso. apply N. rewrite J. now apply in_map. }
  congruence.
Qed.

(* it never fails when the vector is there, and tells where it stopped *)
Lemma sv_total bs : forall vs pre post a w,
  sized bs vs -> w_mem w a = Some (pre ++ concat vs ++ post) ->
  exists ok w', state_vector_to_blocks bs (a, length pre) w = Some (ok, w').
Proof.
  induction bs as [|b bs IH]; intros vs pre post a w S M; inversion S; subst.
  - cbn. eauto.
  - rename y into v, l' into vs. cbn [concat] in M. cbn [state_vector_to_blocks fst snd].
    rewrite <- app_assoc in M.
    assert (NX : length pre + pb_size b = length (pre ++ v))
      by (rewrite app_length; lia).
    assert (T : forall w1, w_mem w1 = w_mem w ->
              exists ok w', state_vector_to_blocks bs (a, length pre + pb_size b) w1
                            = Some (ok, w')).
    { intros w1 E1. rewrite NX. apply (IH vs (pre ++ v) post a w1); [auto|].
      rewrite E1, M. now rewrite app_assoc. }
    destruct (is_constant b) eqn:C; [now apply T|].
    assert (R : read (w_mem w) (a, length pre) (pb_size b) = Some v)
      by (eapply read_chunk; [exact M|auto]).
    rewrite (set_state_ok b _ w v C R).
    destruct (if pb_has_manifold b then pb_pj b v else true); eauto.
Qed.

Lemma sv_success bs : forall vs pre post a w,
  distinct bs -> sized bs vs -> Forall2 acceptable bs vs ->
  w_mem w a = Some (pre ++ concat vs ++ post) ->
  exists w', state_vector_to_blocks bs (a, length pre) w = Some (true, w') /\
    w_mem w' = w_mem w /\
    Forall2 (fun b v => is_constant b = false ->
       fst (w_state w' (pb_id b)) = a /\ value w' b = Some v) bs vs.
Proof.
  induction bs as [|b bs IH]; intros vs pre post a w D S A M; inversion S; subst.
  - cbn. exists w. auto.
  - inversion A; subst. rename y into v, l' into vs. cbn [concat] in M.
    rewrite <- app_assoc in M. unfold distinct in D. cbn in D.
    apply NoDup_cons_iff in D as [NI D].
    cbn [state_vector_to_blocks fst snd].
    assert (NX : length pre + pb_size b = length (pre ++ v))
      by (rewrite app_length; lia).
    assert (T : forall w1, w_mem w1 = w_mem w ->
              exists w', state_vector_to_blocks bs (a, length pre + pb_size b) w1
                            = Some (true, w') /\ w_mem w' = w_mem w /\
              Forall2 (fun b v => is_constant b = false ->
                fst (w_state w' (pb_id b)) = a /\ value w' b = Some v) bs vs).
    { intros w1 E1. rewrite NX.
      destruct (IH vs (pre ++ v) post a w1) as (w' & E & M' & F); auto.
      - rewrite E1, M. now rewrite app_assoc.
      - exists w'. split; [auto|]. split; [congruence|auto]. }
    destruct (is_constant b) eqn:C.
    + destruct (T w eq_refl) as (w' & E & M' & F).
      exists w'. split; [auto|]. split; [auto|]. constructor; [congruence|auto].
    + assert (R : read (w_mem w) (a, length pre) (pb_size b) = Some v)
        by (eapply read_chunk; [exact M|auto]).
      rewrite (set_state_accept b _ w v C R) by auto.
      destruct (T (set_ptr w (pb_id b) (a, length pre)) eq_refl) as (w' & E & M' & F).
      exists w'. split; [auto|]. split; [auto|]. constructor; [|auto].
      intros _. unfold value. rewrite M'.
      rewrite (sv_other _ _ _ _ _ _ E NI), set_ptr_same. split; [auto|exact R].
Qed.

(* ------------------------------------------------------------------ *)
(* GetState and CopyParameterBlockStateToUserState                      *)

Lemma get_state_some b x w w' :
  get_state b x w = Some w' ->
  w_state w' = w_state w /\
  (forall a, a <> fst x -> w_mem w' a = w_mem w a) /\
  (w_state w (pb_id b) = x -> w' = w) /\
  (forall l, w_mem w (fst x) = Some l -> exists l', w_mem w' (fst x) = Some l' /\
      length l' = length l).
Proof.
  unfold get_state. destruct (ptr_eqb x (w_state w (pb_id b))) eqn:E.
  - intros [= <-]. split; [auto|]. split; [auto|]. split; [auto|]. eauto.
  - apply ptr_eqb_neq in E.
    destruct (read _ _ _) as [v|]; [|discriminate].
    destruct (write _ _ _) as [m|] eqn:W; [|discriminate].
    intros [= <-]. cbn. destruct (write_some _ _ _ _ W) as (O & l & l' & A & B & C).
    split; [auto|]. split; [auto|]. split; [congruence|].
    intros l0 E0. exists l'. split; [auto|congruence].
Qed.

Lemma copy_some bs : forall w w',
  copy_to_user bs w = Some w' ->
  w_state w' = w_state w /\
  (forall a, ~ In a (map (fun b => User (pb_id b)) bs) -> w_mem w' a = w_mem w a) /\
  (forall c, w_state w c = (User c, 0) -> w_mem w' (User c) = w_mem w (User c)) /\
  (forall a l, w_mem w a = Some l -> exists l', w_mem w' a = Some l' /\
      length l' = length l).
Proof.
  induction bs as [|b bs IH]; intros w w' H; cbn [copy_to_user] in H.
  - injection H as <-. split; [auto|]. split; [auto|]. split; [auto|]. eauto.
  - destruct (get_state b _ w) as [w1|] eqn:G; [|discriminate].
    destruct (get_state_some _ _ _ _ G) as (S1 & O1 & Q1 & L1). cbn [fst] in *.
    destruct (IH _ _ H) as (S2 & O2 & Q2 & L2).
    split; [congruence|]. split.
    { intros a N. cbn in N. rewrite O2 by tauto. apply O1. intros ->. tauto. }
    split.
    { intros c E. rewrite Q2 by (rewrite S1; auto).
      destruct (Nat.eq_dec c (pb_id b)) as [->|N].
      - now rewrite (Q1 E).
      - apply O1. congruence. }
    intros a l E. destruct (array_eqb a (User (pb_id b))) eqn:AE.
    + apply array_eqb_eq in AE. subst a. destruct (L1 _ E) as (l1 & E1 & F1).
      destruct (L2 _ _ E1) as (l2 & E2 & F2). exists l2. split; [auto|congruence].
    + assert (a <> User (pb_id b)).
      { intros ->. rewrite array_eqb_refl in AE. discriminate. }
      apply (L2 a l). rewrite O1 by auto. exact E.
Qed.

(* a state pointer is the user's own array or into a vector of the library *)
Definition own_or_vec (w : world V) (c : nat) : Prop :=
  w_state w c = (User c, 0) \/ exists k off, w_state w c = (Vec k, off).

Lemma copy_total bs : forall w,
  distinct bs ->
  (forall b, In b bs -> own_or_vec w (pb_id b)) ->
  (forall b, In b bs -> valid_state w b) ->
  (forall b, In b bs -> exists l, user_value w b = Some l /\ length l = pb_size b) ->
  exists w', copy_to_user bs w = Some w' /\
    forall b, In b bs -> user_value w' b = value w b.
Proof.
  induction bs as [|b bs IH]; intros w D O VS U; cbn [copy_to_user].
  - exists w. split; [auto|]. intros b [].
  - unfold distinct in D. cbn in D. apply NoDup_cons_iff in D as [NI D].
    destruct (U b (or_introl eq_refl)) as (l & UL & LL).
    destruct (VS b (or_introl eq_refl)) as (v & Ev). unfold user_value in UL.
    assert (G : exists w1, get_state b (User (pb_id b), 0) w = Some w1 /\
                w_state w1 = w_state w /\
                w_mem w1 (User (pb_id b)) = Some v /\
                (forall a, a <> User (pb_id b) -> w_mem w1 a = w_mem w a)).
    { unfold get_state. destruct (ptr_eqb _ _) eqn:E.
      - apply ptr_eqb_eq in E. exists w. split; [auto|]. split; [auto|].
        split; [|auto]. unfold value in Ev. rewrite <- E in Ev.
        rewrite (read_all _ _ l) in Ev by auto. congruence.
      - unfold value in Ev. rewrite Ev.
        rewrite (write_all _ _ l v) by
          (auto; rewrite (read_length _ _ _ _ Ev); auto).
        eexists. split; [reflexivity|]. cbn. split; [auto|].
        split; [apply upd_same|]. intros a Ha. apply upd_other. auto. }
    destruct G as (w1 & G & S1 & M1 & O1). rewrite G.
    assert (VAL : forall b', In b' bs -> value w1 b' = value w b').
    { intros b' I'. unfold value. rewrite S1. apply read_same. apply O1.
      assert (pb_id b' <> pb_id b).
      { intros E. apply NI. rewrite <- E. now apply in_map. }
      destruct (O b' (or_intror I')) as [E|(k & off & E)]; rewrite E; cbn; congruence. }
    assert (UVAL : forall b', In b' bs -> user_value w1 b' = user_value w b').
    { intros b' I'. unfold user_value. apply O1.
      intros [= E]. apply NI. rewrite <- E. now apply in_map. }
    destruct (IH w1) as (w' & E & F); auto.
    + intros b' I'. unfold own_or_vec. rewrite S1. apply (O b' (or_intror I')).
    + intros b' I'. unfold valid_state. rewrite (VAL b' I'). apply (VS b' (or_intror I')).
    + intros b' I'. rewrite (UVAL b' I'). apply (U b' (or_intror I')).
    + exists w'. split; [auto|]. intros b' [<-|I'].
      * destruct (copy_some _ _ _ E) as (_ & O2 & _).
        unfold user_value. rewrite O2; [congruence|].
        rewrite in_map_iff. intros (b' & Eb & I'). injection Eb as Eb.
        apply NI. rewrite <- Eb. now apply in_map.
      * rewrite (F b' I'). apply VAL. exact I'.
Qed.

(* ------------------------------------------------------------------ *)
(* ParameterBlocksToStateVector                                         *)

Lemma bsv_ok bs : forall vs pre old post a w,
  Forall2 (fun b v => value w b = Some v /\ fst (w_state w (pb_id b)) <> a) bs vs ->
  length old = length (concat vs) ->
  w_mem w a = Some (pre ++ old ++ post) ->
  exists w', blocks_to_state_vector bs (a, length pre) w = Some w' /\
    w_state w' = w_state w /\
    (forall a', a' <> a -> w_mem w' a' = w_mem w a') /\
    w_mem w' a = Some (pre ++ concat vs ++ post).
Proof.
  induction bs as [|b bs IH]; intros vs pre old post a w F L M; inversion F; subst.
  - cbn in *. exists w. split; [auto|]. split; [auto|]. split; [auto|].
    destruct old; [auto|discriminate].
  - rename y into v, l' into vs. cbn [concat] in *. rewrite app_length in L.
    destruct H1 as [Hv Ha].
    assert (Lv : length v = pb_size b) by (apply (read_length _ _ _ _ Hv)).
    set (old1 := firstn (length v) old). set (old2 := skipn (length v) old).
    assert (SPL : old = old1 ++ old2) by (symmetry; apply firstn_skipn).
    assert (L1 : length old1 = length v)
      by (unfold old1; rewrite firstn_length; lia).
    assert (L2 : length old2 = length (concat vs))
      by (unfold old2; rewrite skipn_length; lia).
    cbn [blocks_to_state_vector fst snd].
    assert (G : get_state b (a, length pre) w =
                Some (mkworld (upd (w_mem w) a (Some (pre ++ v ++ old2 ++ post)))
                              (w_state w))).
    { unfold get_state. replace (ptr_eqb _ _) with false.
      2: { symmetry. apply ptr_eqb_neq. intros E. apply Ha. now rewrite <- E. }
      unfold value in Hv. rewrite Hv.
      rewrite (write_chunk _ a pre old1 (old2 ++ post) v); auto.
      rewrite M, SPL. now rewrite <- app_assoc. }
    rewrite G.
    set (w1 := mkworld _ _).
    replace (length pre + pb_size b) with (length (pre ++ v))
      by (rewrite app_length; lia).
    destruct (IH vs (pre ++ v) old2 post a w1) as (w' & E & S & O & R).
    + clear - H3. induction H3 as [|b' v' bs' vs' [Hv Ha] F IH];
        constructor; auto.
      split; [|exact Ha].
      unfold value in *. cbn [w_mem w_state w1]. rewrite <- Hv.
      apply read_same. apply upd_other. auto.
    + auto.
    + cbn [w_mem w1]. rewrite upd_same. now rewrite <- app_assoc.
    + exists w'. split; [exact E|]. split; [exact S|]. split.
      * intros a' N. rewrite (O a' N). cbn. apply upd_other. auto.
      * rewrite R. now rewrite <- !app_assoc.
Qed.

(* ------------------------------------------------------------------ *)
(* SetParameterBlockStatePtrsToUserStatePtrs                            *)

Lemma stp_some bs : forall w ok w',
  set_ptrs_to_user bs w = Some (ok, w') ->
  w_mem w' = w_mem w /\
  forall c, w_state w' c = w_state w c \/ w_state w' c = (User c, 0).
Proof.
  induction bs as [|b bs IH]; intros w ok w' H; cbn [set_ptrs_to_user] in H.
  - injection H as _ <-. auto.
  - destruct (is_constant b); [now apply (IH w ok w')|].
    destruct (set_state b _ w) as [[ok1 w1]|] eqn:S; [|discriminate].
    destruct (set_state_some _ _ _ _ _ S) as [_ W].
    assert (P1 : forall c, w_state w1 c = w_state w c \/ w_state w1 c = (User c, 0)).
    { intros c. subst w1. destruct (Nat.eq_dec (pb_id b) c) as [<-|N].
      - right. now rewrite set_ptr_same.
      - left. now apply set_ptr_other. }
    assert (M1 : w_mem w1 = w_mem w) by now subst w1.
    destruct ok1.
    + destruct (IH _ _ _ H) as [M P]. split; [congruence|].
      intros c. destruct (P c) as [E|E]; [rewrite E; auto|auto].
    + injection H as _ <-. auto.
Qed.

Lemma stp_total bs : forall w,
  (forall b, In b bs -> exists v, user_value w b = Some v /\ length v = pb_size b) ->
  exists ok w', set_ptrs_to_user bs w = Some (ok, w').
Proof.
  induction bs as [|b bs IH]; intros w U; cbn [set_ptrs_to_user]; [eauto|].
  assert (U' : forall w1, w_mem w1 = w_mem w -> forall b', In b' bs ->
            exists v, user_value w1 b' = Some v /\ length v = pb_size b').
  { intros w1 E b' I. unfold user_value. rewrite E. apply (U b' (or_intror I)). }
  destruct (is_constant b) eqn:C; [apply IH, U'; auto|].
  destruct (U b (or_introl eq_refl)) as (v & E & L).
  rewrite (set_state_ok b _ w v C) by (apply read_all; auto).
  destruct (if pb_has_manifold b then pb_pj b v else true); [|eauto].
  apply IH, U'. reflexivity.
Qed.

Lemma stp_success bs : forall w,
  (forall b, In b bs -> exists v, user_value w b = Some v /\
      length v = pb_size b /\ acceptable b v) ->
  exists w', set_ptrs_to_user bs w = Some (true, w') /\ w_mem w' = w_mem w /\
    forall b, In b bs -> is_constant b = false ->
              w_state w' (pb_id b) = (User (pb_id b), 0).
Proof.
  induction bs as [|b bs IH]; intros w U; cbn [set_ptrs_to_user].
  - exists w. split; [auto|]. split; [auto|]. intros b [].
  - assert (U' : forall w1, w_mem w1 = w_mem w -> forall b', In b' bs ->
            exists v, user_value w1 b' = Some v /\ length v = pb_size b' /\ acceptable b' v).
    { intros w1 E b' I. unfold user_value. rewrite E. apply (U b' (or_intror I)). }
    destruct (is_constant b) eqn:C.
    + destruct (IH w (U' w eq_refl)) as (w' & E & M & P).
      exists w'. split; [auto|]. split; [auto|]. intros b' [<-|I] C'; [congruence|auto].
    + destruct (U b (or_introl eq_refl)) as (v & E & L & A).
      rewrite (set_state_accept b _ w v C) by (auto using read_all).
      destruct (IH (set_ptr w (pb_id b) (User (pb_id b), 0)) (U' _ eq_refl))
        as (w' & E' & M & P).
      exists w'. split; [auto|]. split; [auto|]. intros b' [<-|I] C'; [|auto].
      destruct (proj2 (stp_some _ _ _ _ E') (pb_id b)) as [F|F]; [|auto].
      now rewrite F, set_ptr_same.
Qed.

(* a successful StateVectorToParameterBlocks means the values were accepted *)
Lemma sv_true_acceptable bs : forall vs pre post a w w',
  sized bs vs -> w_mem w a = Some (pre ++ concat vs ++ post) ->
  state_vector_to_blocks bs (a, length pre) w = Some (true, w') ->
  Forall2 acceptable bs vs.
Proof.
  induction bs as [|b bs IH]; intros vs pre post a w w' S M H; inversion S; subst.
  - constructor.
  - rename y into v, l' into vs. cbn [concat] in M. rewrite <- app_assoc in M.
    cbn [state_vector_to_blocks fst snd] in H.
    assert (NX : length pre + pb_size b = length (pre ++ v))
      by (rewrite app_length; lia).
    rewrite NX in H.
    destruct (is_constant b) eqn:C.
    + constructor; [unfold acceptable; congruence|].
      apply (IH vs (pre ++ v) post a w w'); auto.
      rewrite M. now rewrite app_assoc.
    + rewrite (set_state_ok b _ w v C) in H by (eapply read_chunk; eauto).
      destruct (if pb_has_manifold b then pb_pj b v else true) eqn:A; [|discriminate].
      constructor.
      * intros _ Hm. rewrite Hm in A. exact A.
      * eapply (IH vs (pre ++ v) post a); eauto.
        cbn. rewrite M. now rewrite app_assoc.
Qed.

(* ------------------------------------------------------------------ *)
(* what the minimizer can and cannot change                             *)

Definition inv (bs : list (pblock V)) (w0 w : world V) : Prop :=
  w_mem w (Vec 1) = w_mem w0 (Vec 1) /\
  (forall c, ~ In c (map pb_id bs) ->
     w_state w c = w_state w0 c /\ w_mem w (User c) = w_mem w0 (User c)) /\
  (forall b, In b bs -> own_or_vec w (pb_id b)) /\
  (forall b, In b bs -> is_constant b = true ->
     w_state w (pb_id b) = (User (pb_id b), 0) /\
     w_mem w (User (pb_id b)) = w_mem w0 (User (pb_id b))) /\
  (forall b, In b bs -> exists l, user_value w b = Some l /\ length l = pb_size b).

Lemma inv_sv bs w0 w k off ok w' :
  distinct bs -> inv bs w0 w ->
  state_vector_to_blocks bs (Vec k, off) w = Some (ok, w') -> inv bs w0 w'.
Proof.
  intros D (I1 & I2 & I3 & I4 & I5) H.
  destruct (sv_some _ _ _ _ _ H) as [M P]. cbn [fst] in P.
  split; [now rewrite M|]. split.
  { intros c N. rewrite M, (sv_other _ _ _ _ _ _ H N). auto. }
  split.
  { intros b I. unfold own_or_vec.
    destruct (P (pb_id b)) as [E|(b' & o & _ & _ & _ & E)].
    - rewrite E. apply I3, I.
    - right. eauto. }
  split.
  { intros b I C. rewrite M, (sv_constant _ _ _ _ _ _ D H I C). auto. }
  intros b I. unfold user_value. rewrite M. apply I5, I.
Qed.

Lemma inv_copy bs w0 w w' :
  inv bs w0 w -> copy_to_user bs w = Some w' -> inv bs w0 w'.
Proof.
  intros (I1 & I2 & I3 & I4 & I5) H.
  destruct (copy_some _ _ _ H) as (S & O & Q & L).
  assert (NV : forall k, ~ In (Vec k) (map (fun b => User (pb_id b)) bs)).
  { intros k I. apply in_map_iff in I as (b & E & _). discriminate. }
  split; [now rewrite O|]. split.
  { intros c N. rewrite S. destruct (I2 c N) as [A B]. split; [auto|].
    rewrite O; [auto|]. intros I. apply in_map_iff in I as (b & E & I).
    injection E as <-. apply N. now apply in_map. }
  split.
  { intros b I. unfold own_or_vec. rewrite S. apply I3, I. }
  split.
  { intros b I C. destruct (I4 b I C) as [A B]. rewrite S. split; [auto|].
    rewrite Q by exact A. exact B. }
  intros b I. destruct (I5 b I) as (l & A & B).
  destruct (L _ _ A) as (l' & A' & B'). exists l'. split; [exact A'|congruence].
Qed.

Lemma inv_op cb bs w0 o w w' :
  distinct bs -> op_in bs o -> inv bs w0 w -> run_op cb bs o w = Some w' ->
  inv bs w0 w'.
Proof.
  intros D OI IV H. destruct o as [k v|k|k| |b k off]; cbn [run_op] in H.
  - destruct (k =? 1) eqn:K; injection H as <-; [exact IV|].
    apply Nat.eqb_neq in K. destruct IV as (I1 & I2 & I3 & I4 & I5).
    split; [cbn [w_mem w_state]; rewrite upd_other by congruence; auto|].
    split; [intros c N; cbn [w_mem w_state]; rewrite upd_other by discriminate; auto|].
    split; [exact I3|].
    split; [intros b I C; cbn [w_mem w_state]; rewrite upd_other by discriminate; auto|].
    intros b I. unfold user_value. cbn [w_mem w_state]. rewrite upd_other by discriminate. apply I5, I.
  - destruct (k <=? 1) eqn:K; injection H as <-; [exact IV|].
    apply Nat.leb_gt in K. destruct IV as (I1 & I2 & I3 & I4 & I5).
    split; [cbn [w_mem w_state]; rewrite upd_other by (intros [=]; lia); auto|].
    split; [intros c N; cbn [w_mem w_state]; rewrite upd_other by discriminate; auto|].
    split; [exact I3|].
    split; [intros b I C; cbn [w_mem w_state]; rewrite upd_other by discriminate; auto|].
    intros b I. unfold user_value. cbn [w_mem w_state]. rewrite upd_other by discriminate. apply I5, I.
  - destruct (state_vector_to_blocks bs _ w) as [[ok w1]|] eqn:S; [|discriminate].
    pose proof (inv_sv _ _ _ _ _ _ _ D IV S) as IV1.
    destruct ok; [destruct cb|]; try (injection H as <-; exact IV1).
    apply (inv_copy _ _ _ _ IV1 H).
  - destruct (state_vector_to_blocks bs _ w) as [[ok w1]|] eqn:S; [|discriminate].
    pose proof (inv_sv _ _ _ _ _ _ _ D IV S) as IV1.
    apply (inv_copy _ _ _ _ IV1 H).
  - destruct (set_state b _ w) as [[ok w1]|] eqn:S; [|discriminate].
    injection H as <-. destruct (set_state_some _ _ _ _ _ S) as [C ->].
    cbn in OI. destruct IV as (I1 & I2 & I3 & I4 & I5).
    split; [exact I1|]. split.
    { intros c N. rewrite set_ptr_other; [apply I2, N|].
      intros <-. apply N. now apply in_map. }
    split.
    { intros b' I. unfold own_or_vec.
      destruct (Nat.eq_dec (pb_id b) (pb_id b')) as [<-|N].
      - rewrite set_ptr_same. right. eauto.
      - rewrite set_ptr_other by auto. apply I3, I. }
    split; [|exact I5].
    intros b' I C'. rewrite set_ptr_other; [apply I4; auto|].
    intros E. assert (b = b'); [|congruence].
    clear - D OI I E. unfold distinct in D. induction bs as [|x bs IH]; [easy|].
    cbn in D. apply NoDup_cons_iff in D as [N D].
    destruct OI as [->|OI], I as [->|I]; auto.
    + exfalso. apply N. rewrite E. now apply in_map.
    + exfalso. apply N. rewrite <- E. now apply in_map.
Qed.

Lemma inv_ops cb bs w0 os : forall w w',
  distinct bs -> Forall (op_in bs) os -> inv bs w0 w ->
  run_ops cb bs os w = Some w' -> inv bs w0 w'.
Proof.
  induction os as [|o os IH]; intros w w' D F IV H; cbn [run_ops] in H.
  - injection H as <-. exact IV.
  - inversion F; subst.
    destruct (run_op cb bs o w) as [w1|] eqn:E; [|discriminate].
    apply (IH w1 w' D); auto. eapply inv_op; eauto.
Qed.

Lemma Forall2_in_l {A B} (P : A -> B -> Prop) l1 l2 a :
  Forall2 P l1 l2 -> In a l1 -> exists y, P a y.
Proof.
  induction 1 as [|x y l l' Pxy F IH]; [intros []|].
  intros [<-|I]; [eauto|auto].
Qed.

(* after a complete StateVectorToParameterBlocks every block can be copied *)
Lemma sv_copy_total bs w0 w k vs :
  distinct bs -> inv bs w0 w -> sized bs vs -> Forall2 acceptable bs vs ->
  w_mem w (Vec k) = Some (concat vs) ->
  exists w1 w2, state_vector_to_blocks bs (Vec k, 0) w = Some (true, w1) /\
    copy_to_user bs w1 = Some w2 /\
    Forall2 (fun b v => is_constant b = false -> user_value w2 b = Some v) bs vs.
Proof.
  intros D IV S A M.
  destruct (sv_success bs vs [] [] (Vec k) w D S A) as (w1 & E & M1 & F).
  { cbn. now rewrite app_nil_r. }
  cbn [length] in E.
  pose proof (inv_sv _ _ _ _ _ _ _ D IV E) as (I1 & I2 & I3 & I4 & I5).
  destruct (copy_total bs w1 D I3) as (w2 & E2 & U2).
  - intros b I. destruct (is_constant b) eqn:C.
    + destruct (I5 b I) as (l & A1 & B1). exists l.
      unfold value. rewrite (proj1 (I4 b I C)). apply read_all; auto.
    + destruct (Forall2_in_l _ _ _ b F I) as (v & Pv). exists v. apply Pv, C.
  - exact I5.
  - exists w1, w2. split; [auto|]. split; [auto|].
    clear - F U2. assert (U2' : forall b, In b bs -> user_value w2 b = value w1 b) by exact U2.
    clear U2. induction F as [|b v bs vs P F IH]; constructor.
    + intros C. rewrite U2' by now left. apply P, C.
    + apply IH. intros b' I. apply U2'. now right.
Qed.

Lemma ops_total cb bs w0 os : forall w,
  distinct bs -> inv bs w0 w -> ops_allowed cb bs os w ->
  exists w', run_ops cb bs os w = Some w'.
Proof.
  induction os as [|o os IH]; intros w D IV AL; cbn [run_ops]; [eauto|].
  destruct AL as [A1 A2].
  assert (OI : op_in bs o) by (destruct o; cbn in *; tauto).
  assert (T : exists w1, run_op cb bs o w = Some w1).
  { destruct o as [k v|k|k| |b k off]; cbn [run_op].
    - destruct (k =? 1); eauto.
    - destruct (k <=? 1); eauto.
    - cbn [op_allowed] in A1. destruct A1 as (vs & M & S).
      destruct (sv_total bs vs [] [] (Vec k) w S) as (ok & w1 & E).
      { cbn. now rewrite app_nil_r. }
      cbn [length] in E. rewrite E. destruct ok; [destruct cb|]; eauto.
      pose proof (sv_true_acceptable bs vs [] [] (Vec k) w w1 S) as Q.
      cbn [length app] in Q. rewrite app_nil_r in Q. specialize (Q M E).
      destruct (sv_copy_total bs w0 w k vs D IV S Q M) as (w1' & w2 & E1 & E2 & _).
      assert (w1' = w1) by congruence. subst. eauto.
    - cbn [op_allowed] in A1. destruct A1 as (vs & M & S & Q).
      destruct (sv_copy_total bs w0 w 0 vs D IV S Q M) as (w1' & w2 & E1 & E2 & _).
      rewrite E1. eauto.
    - cbn [op_allowed] in A1. destruct A1 as (I & C & v & M & L).
      assert (R : exists x, read (w_mem w) (Vec k, off) (pb_size b) = Some x).
      { unfold read. cbn. rewrite M. replace (off + pb_size b <=? length v) with true
          by (symmetry; apply Nat.leb_le; lia). eauto. }
      destruct R as (x & R).
      rewrite (set_state_ok b _ w x C R). eauto. }
  destruct T as (w1 & E). rewrite E.
  apply IH; auto. eapply inv_op; eauto.
Qed.

End Proofs.
