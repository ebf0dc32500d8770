(** The loops over the parameter blocks. *)
From Coq Require Import List Arith Bool Reals Lia.
From Verif Require Import EvaluatorModel PevModel PevSpec.
Import ListNotations.

Section P.
Variable Pb : problem.
Notation states := (nat -> bstate).
Notation PB b := (nth b (pblocks Pb) (mkPB 0 0 (fun _ => None))).
Notation user s b := (user_state (s b)).

Definition keeps (s s' : states) : Prop :=
  forall b, user s' b = user s b /\ is_set_constant (s' b) = is_set_constant (s b) /\ delta_offset (s' b) = delta_offset (s b).
Lemma keeps_refl s : keeps s s. Proof. intro; auto. Qed.
Lemma keeps_trans s1 s2 s3 : keeps s1 s2 -> keeps s2 s3 -> keeps s1 s3.
Proof. intros H1 H2 b. destruct (H1 b) as (A & B & C). destruct (H2 b) as (D & E & F). repeat split; congruence. Qed.
Lemma keeps_const s s' b : keeps s s' -> IsConstant Pb s' b = IsConstant Pb s b.
Proof. intro H. unfold IsConstant. destruct (H b) as (_ & -> & _). reflexivity. Qed.

Lemma upd_same {A} (f : nat -> A) b x : upd f b x b = x.
Proof. unfold upd. now rewrite Nat.eqb_refl. Qed.
Lemma upd_other {A} (f : nat -> A) b x c : c <> b -> upd f b x c = f c.
Proof. intro H. unfold upd. apply Nat.eqb_neq in H. now rewrite H. Qed.

Lemma setstate_keeps v p s b : keeps s (snd (SetState Pb v p s b)).
Proof. intro c. cbn [SetState snd]. destruct (Nat.eq_dec c b) as [->|N]; [rewrite upd_same; auto|rewrite upd_other by exact N; auto]. Qed.

Definition acc (s : states) (b : nat) : Prop := plus_jacobian (PB b) (user s b) <> None.
Lemma keeps_acc s s' b : keeps s s' -> (acc s' b <-> acc s b).
Proof. intro H. unfold acc. destruct (H b) as (-> & _). tauto. Qed.

(** SetParameterBlockStatePtrsToUserStatePtrs *)
Lemma ptrs_spec : forall bs s ok s', SetParameterBlockStatePtrsToUserStatePtrs Pb bs s = (ok, s') ->
  keeps s s' /\ (forall b, state_ (s' b) = state_ (s b) \/ state_ (s' b) = UserState) /\
  (ok = true <-> forall b, In b bs -> IsConstant Pb s b = false -> acc s b) /\
  (ok = true -> forall b, In b bs -> IsConstant Pb s b = false -> state_ (s' b) = UserState).
Proof.
  induction bs as [|b bs IH]; intros s ok s' H; cbn [SetParameterBlockStatePtrsToUserStatePtrs] in H.
  - injection H as <- <-. split; [apply keeps_refl|]. split; [auto|]. split; [split; [intros _ ? []|auto]|intros _ ? []].
  - destruct (IsConstant Pb s b) eqn:C.
    + destruct (IH _ _ _ H) as (A1 & A2 & A3 & A4). split; [exact A1|split; [exact A2|]]. split.
      * rewrite A3. split; [|intros Q c Hc; apply Q; right; exact Hc]. intros Q c [<-|Hc] N; [congruence|exact (Q c Hc N)].
      * intros E c [<-|Hc] N; [congruence|exact (A4 E c Hc N)].
    + pose proof (setstate_keeps [] UserState s b) as K.
      destruct (SetState Pb [] UserState s b) as [ok1 s1] eqn:E. cbn [snd] in K.
      assert (E1 : ok1 = true <-> acc s b).
      { unfold SetState in E. injection E as <- _. cbn [at_ptr]. unfold acc, pb. destruct (plus_jacobian _ _); split; congruence. }
      assert (E2 : state_ (s1 b) = UserState /\ forall c, c <> b -> s1 c = s c).
      { unfold SetState in E. injection E as _ <-. split; [now rewrite upd_same|]. intros c N. now rewrite upd_other. }
      destruct E2 as [E2 E3].
      assert (P1 : forall c, state_ (s1 c) = state_ (s c) \/ state_ (s1 c) = UserState).
      { intro c. destruct (Nat.eq_dec c b) as [->|N]; [auto|rewrite (E3 c N); auto]. }
      destruct ok1.
      * destruct (IH _ _ _ H) as (A1 & A2 & A3 & A4). split; [exact (keeps_trans _ _ _ K A1)|]. split.
        { intro c. destruct (A2 c) as [Q|Q]; [rewrite Q; apply P1|auto]. }
        split.
        { rewrite A3. split.
          - intros Q c [<-|Hc] N; [apply E1; reflexivity|]. apply (keeps_acc _ _ c K). apply Q; [exact Hc|]. rewrite (keeps_const _ _ c K). exact N.
          - intros Q c Hc N. rewrite (keeps_const _ _ c K) in N. apply (keeps_acc _ _ c K). apply Q; [right; exact Hc|exact N]. }
        intros Ok c [<-|Hc] N.
        { destruct (A2 b) as [Q|Q]; [rewrite Q; exact E2|exact Q]. }
        apply (A4 Ok c Hc). rewrite (keeps_const _ _ c K). exact N.
      * injection H as <- <-. split; [exact K|split; [exact P1|]]. split; [|discriminate].
        split; [discriminate|]. intro Q. apply E1. apply Q; [left; reflexivity|exact C].
Qed.

(** StateVectorToParameterBlocks *)
Definition points (v : values) (s : states) (b : nat) : Prop := at_ptr Pb v s b (state_ (s b)) = Some (user s b).

Lemma slice (pre x post : values) : firstn (length x) (skipn (length pre) (pre ++ x ++ post)) = x.
Proof.
  rewrite skipn_app, skipn_all, Nat.sub_diag. cbn [skipn app]. rewrite firstn_app, Nat.sub_diag. cbn [firstn]. rewrite app_nil_r. apply firstn_all.
Qed.

Lemma vector_spec v : forall bs s pre ok s', v = pre ++ concat (map (fun b => user s b) bs) ->
  (forall b, In b bs -> length (user s b) = Size (PB b)) -> (forall b, points v s b) ->
  StateVectorToParameterBlocks Pb v (length pre) bs s = (ok, s') ->
  keeps s s' /\ (forall b, points v s' b) /\
  (ok = true <-> forall b, In b bs -> IsConstant Pb s b = false -> acc s b) /\
  (ok = true -> forall b, In b bs -> IsConstant Pb s b = false -> stored (s' b) = plus_jacobian (PB b) (user s b)) /\
  (forall b, ~ In b bs \/ IsConstant Pb s b = true -> s' b = s b).
Proof.
  induction bs as [|b bs IH]; intros s pre ok s' Hv Hl Hp H; cbn [StateVectorToParameterBlocks] in H.
  - injection H as <- <-. split; [apply keeps_refl|]. split; [exact Hp|]. split; [split; [intros _ ? []|auto]|]. split; [intros _ ? []|auto].
  - cbn [map concat] in Hv.
    assert (Hpre : length (pre ++ user s b) = length pre + Size (pb Pb b)).
    { rewrite app_length. rewrite (Hl b (or_introl eq_refl)). reflexivity. }
    destruct (IsConstant Pb s b) eqn:C.
    + rewrite <- Hpre in H. destruct (IH s (pre ++ user s b) ok s') as (A1 & A2 & A3 & A4 & A5); [rewrite <- app_assoc; exact Hv|intros c Hc; apply Hl; right; exact Hc|exact Hp|exact H|].
      split; [exact A1|split; [exact A2|]]. split; [|split].
      * rewrite A3. split; [|intros Q c Hc; apply Q; right; exact Hc]. intros Q c [<-|Hc] N; [congruence|exact (Q c Hc N)].
      * intros E c [<-|Hc] N; [congruence|exact (A4 E c Hc N)].
      * intros c [Q|Q]; apply A5; [left; intro; apply Q; right; assumption|auto].
    + pose proof (setstate_keeps v (InVector (length pre)) s b) as K.
      destruct (SetState Pb v (InVector (length pre)) s b) as [ok1 s1] eqn:E. cbn [snd] in K.
      assert (Sl : at_ptr Pb v s b (InVector (length pre)) = Some (user s b)).
      { cbn [at_ptr]. f_equal. rewrite Hv. unfold pb. rewrite <- (Hl b (or_introl eq_refl)). apply slice. }
      assert (E1 : ok1 = true <-> acc s b).
      { unfold SetState in E. rewrite Sl in E. injection E as <- _. unfold acc, pb. destruct (plus_jacobian _ _); split; congruence. }
      assert (E2 : state_ (s1 b) = InVector (length pre) /\ stored (s1 b) = plus_jacobian (PB b) (user s b) /\ forall c, c <> b -> s1 c = s c).
      { unfold SetState in E. rewrite Sl in E. injection E as _ <-. rewrite upd_same. split; [reflexivity|split; [reflexivity|]]. intros c N. now rewrite upd_other. }
      destruct E2 as (E2 & E2' & E3).
      assert (P1 : forall c, points v s1 c).
      { intro c. destruct (Nat.eq_dec c b) as [->|N].
        - unfold points. rewrite E2. destruct (K b) as (-> & _). exact Sl.
        - pose proof (Hp c) as Q. unfold points, at_ptr in *. rewrite (E3 c N). exact Q. }
      assert (Hu : forall c, user s1 c = user s c) by (intro c; apply (K c)).
      destruct ok1.
      * rewrite <- Hpre in H. destruct (IH s1 (pre ++ user s b) ok s') as (A1 & A2 & A3 & A4 & A5).
        { rewrite <- app_assoc, Hv. do 3 f_equal. apply map_ext. intro c. symmetry. apply Hu. }
        { intros c Hc. rewrite Hu. apply Hl. right. exact Hc. }
        { exact P1. } { exact H. }
        split; [exact (keeps_trans _ _ _ K A1)|]. split; [exact A2|]. split; [|split].
        { rewrite A3. split.
          - intros Q c [<-|Hc] N; [apply E1; reflexivity|]. apply (keeps_acc _ _ c K). apply Q; [exact Hc|]. rewrite (keeps_const _ _ c K). exact N.
          - intros Q c Hc N. rewrite (keeps_const _ _ c K) in N. apply (keeps_acc _ _ c K). apply Q; [right; exact Hc|exact N]. }
        { intros Ok c Hc N. destruct (in_dec Nat.eq_dec c bs) as [I|I].
          - rewrite (A4 Ok c I); [now rewrite Hu|]. rewrite (keeps_const _ _ c K). exact N.
          - destruct Hc as [<-|Hc]; [|contradiction]. rewrite (A5 b (or_introl I)). exact E2'. }
        { intros c Q. assert (N : c <> b) by (destruct Q as [Q|Q]; [intros ->; apply Q; left; reflexivity|congruence]).
          rewrite <- (E3 c N). apply A5. destruct Q as [Q|Q]; [left; intro; apply Q; right; assumption|right]. rewrite (keeps_const _ _ c K). exact Q. }
      * injection H as <- <-. split; [exact K|split; [exact P1|]]. split; [|split; [discriminate|]].
        { split; [discriminate|]. intro Q. apply E1. apply Q; [left; reflexivity|exact C]. }
        intros c Q. apply E3. destruct Q as [Q|Q]; [intros ->; apply Q; left; reflexivity|congruence].
Qed.

(** ParameterBlocksToStateVector *)
Lemma gather_spec bs s : (forall b, state_ (s b) = UserState) -> ParameterBlocksToStateVector Pb bs s = Some (concat (map (fun b => user s b) bs)).
Proof.
  intro H. induction bs as [|b bs IH]; [reflexivity|]. cbn [ParameterBlocksToStateVector map concat]. unfold state. rewrite H. cbn [at_ptr]. now rewrite IH.
Qed.

(** CopyParameterBlockStateToUserState *)
Lemma copy_spec v : forall bs s, (forall b, points v s b) ->
  exists s', CopyParameterBlockStateToUserState Pb v bs s = Some s' /\ forall b, s' b = s b.
Proof.
  induction bs as [|b bs IH]; intros s Hp; [exists s; auto|]. cbn [CopyParameterBlockStateToUserState]. unfold state. rewrite (Hp b).
  set (s1 := upd s b _). assert (E : forall c, s1 c = s c).
  { intro c. unfold s1. destruct (Nat.eq_dec c b) as [->|N]; [rewrite upd_same; destruct (s b); reflexivity|apply upd_other; exact N]. }
  destruct (IH s1) as (s' & Q1 & Q2).
  { intro c. pose proof (Hp c) as Q. unfold points, at_ptr in *. rewrite (E c). exact Q. }
  exists s'. split; [exact Q1|]. intro c. now rewrite Q2.
Qed.

(** SetParameterOffsetsAndIndex *)
Definition keeps2 (s s' : states) : Prop :=
  forall b, user s' b = user s b /\ is_set_constant (s' b) = is_set_constant (s b) /\ state_ (s' b) = state_ (s b) /\ stored (s' b) = stored (s b).
Lemma offsets_spec : forall bs s off, let s' := SetParameterOffsets Pb off bs s in
  keeps2 s s' /\ (forall b, ~ In b bs -> s' b = s b) /\
  (forall l1 b l2, bs = l1 ++ b :: l2 -> ~ In b l2 -> delta_offset (s' b) = off + list_sum (map (fun c => TangentSize (PB c)) l1)).
Proof.
  induction bs as [|b bs IH]; intros s off; cbn [SetParameterOffsets].
  - split; [intro; auto|]. split; [auto|]. intros l1 b l2 H. destruct l1; discriminate.
  - set (s1 := upd s b _). destruct (IH s1 (off + TangentSize (pb Pb b))) as (A1 & A2 & A3).
    assert (K : keeps2 s s1).
    { intro c. unfold s1. destruct (Nat.eq_dec c b) as [->|N]; [rewrite upd_same; auto|rewrite upd_other by exact N; auto]. }
    split; [|split].
    + intro c. destruct (A1 c) as (B1 & B2 & B3 & B4). destruct (K c) as (C1 & C2 & C3 & C4). repeat split; congruence.
    + intros c N. rewrite A2 by (intro; apply N; right; assumption). unfold s1. apply upd_other. intros ->. apply N. left. reflexivity.
    + intros l1 c l2 H N. destruct l1 as [|d l1].
      * injection H as <- <-. rewrite A2 by exact N. unfold s1. rewrite upd_same. cbn. lia.
      * injection H as <- ->. rewrite (A3 l1 c l2 eq_refl N). cbn [map list_sum fold_right]. unfold pb. fold (list_sum (map (fun c => TangentSize (PB c)) l1)). lia.
Qed.

(** constness *)
Lemma const_spec c : forall bs s b, let s' := fold_left (set_constant c) bs s in
  (user s' b = user s b /\ state_ (s' b) = state_ (s b) /\ stored (s' b) = stored (s b) /\ delta_offset (s' b) = delta_offset (s b)) /\
  is_set_constant (s' b) = if existsb (Nat.eqb b) bs then c else is_set_constant (s b).
Proof.
  induction bs as [|a bs IH]; intros s b; cbn [fold_left existsb]; [auto|].
  destruct (IH (set_constant c s a) b) as [(A1 & A2 & A3 & A4) A5]. rewrite A1, A2, A3, A4, A5. unfold set_constant.
  destruct (Nat.eqb_spec b a) as [->|N]; [rewrite upd_same|rewrite upd_other by exact N]; cbn [user_state state_ stored delta_offset is_set_constant orb];
    (split; [auto|]); destruct (existsb _ bs); reflexivity.
Qed.

(** the residual blocks *)
Lemma arguments_spec v s as_ : (forall b, points v s b) -> arguments Pb v s as_ = Some (map (fun b => user s b) as_).
Proof. intro H. induction as_ as [|a r IH]; [reflexivity|]. cbn [arguments map]. unfold state. rewrite (H a), IH. reflexivity. Qed.
Definition block_of (s : states) (loss jacobians : bool) (rb : rblock) : EvaluatorModel.block :=
  mkblock (NumResiduals rb) (map (fun a => mkpref (IsConstant Pb s a) (TangentSize (pb Pb a)) (delta_offset (s a))) (args rb))
    (rb_evaluate rb loss (map (fun b => user s b) (args rb)) (map (requested Pb jacobians s) (args rb))).
Lemma run_blocks_spec v s loss jacobians rbs : (forall b, points v s b) ->
  run_blocks Pb v s loss jacobians rbs = Some (map (block_of s loss jacobians) rbs).
Proof.
  intro H. induction rbs as [|rb r IH]; [reflexivity|]. cbn [run_blocks map]. unfold run_block. rewrite (arguments_spec v s _ H), IH. reflexivity.
Qed.
End P.
