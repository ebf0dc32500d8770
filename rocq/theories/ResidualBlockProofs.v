(** Proofs about evaluating a residual block. *)
Require Import List Reals Bool Arith Lia Lra.
From Verif Require Import LossModel LossSpec LossProofs LossProofs2 ResidualBlockModel ResidualBlockSpec.
Import ListNotations.
Open Scope R_scope.

(** ** memory *)
Lemma write_in m p n f k : (k < n)%nat -> read (write m p n f) p k = match f k with Some v => v | None => read m p k end.
Proof.
  intros H. unfold read, write. destruct (buffer_eq_dec (fst p) (fst p)); [|congruence].
  replace (snd p <=? snd p + k)%nat with true by (symmetry; apply Nat.leb_le; lia).
  replace (snd p + k <? snd p + n)%nat with true by (symmetry; apply Nat.ltb_lt; lia). cbn [andb].
  replace (snd p + k - snd p)%nat with k by lia. reflexivity.
Qed.
Lemma write_out m p n f b j : (b <> fst p \/ (j < snd p)%nat \/ (snd p + n <= j)%nat) -> write m p n f b j = m b j.
Proof.
  intros H. unfold write. destruct (buffer_eq_dec b (fst p)); [|reflexivity].
  destruct (Nat.leb_spec (snd p) j), (Nat.ltb_spec j (snd p + n)); cbn [andb]; try reflexivity.
  destruct H as [H|H]; [contradiction|lia].
Qed.

(** a list of writes to disjoint regions *)
Definition wr : Type := (ptr * nat * (nat -> option cell))%type.
Definition write1 (m : mem) (w : wr) : mem := write m (fst (fst w)) (snd (fst w)) (snd w).
Definition write_all (ws : list wr) (m : mem) : mem := fold_left write1 ws m.
Definition outside (w : wr) (b : buffer) (j : nat) : Prop :=
  b <> fst (fst (fst w)) \/ (j < snd (fst (fst w)))%nat \/ (snd (fst (fst w)) + snd (fst w) <= j)%nat.
Lemma write_all_out ws : forall m b j, (forall w, In w ws -> outside w b j) -> write_all ws m b j = m b j.
Proof.
  induction ws as [|w ws IH]; intros m b j H; [reflexivity|]. cbn [write_all fold_left].
  change (write_all ws (write1 m w) b j = m b j). rewrite IH by (intros w' Hw; apply H; right; exact Hw).
  apply write_out. apply (H w). left. reflexivity.
Qed.
Definition disjoint (v w : wr) : Prop := forall k, (k < snd (fst v))%nat -> outside w (fst (fst (fst v))) (snd (fst (fst v)) + k).
Lemma outside_dec w b j : outside w b j \/ ~ outside w b j.
Proof.
  unfold outside. destruct (buffer_eq_dec b (fst (fst (fst w)))); [|auto].
  destruct (le_lt_dec (snd (fst (fst w))) j); [|auto]. destruct (le_lt_dec (snd (fst (fst w)) + snd (fst w)) j); [auto|].
  right. intros [H|[H|H]]; try contradiction; lia.
Qed.
Lemma write_all_in ws : ForallOrdPairs (fun v w => disjoint v w /\ disjoint w v) ws -> forall m w k, In w ws -> (k < snd (fst w))%nat ->
  read (write_all ws m) (fst (fst w)) k = match snd w k with Some v => v | None => read m (fst (fst w)) k end.
Proof.
  induction 1 as [|a ws Ha Hr IH]; intros m w k Hin Hk; [destruct Hin|].
  cbn [write_all fold_left]. change (read (write_all ws (write1 m a)) (fst (fst w)) k = match snd w k with Some v => v | None => read m (fst (fst w)) k end).
  destruct Hin as [<-|Hin].
  - unfold read at 1. rewrite write_all_out.
    + change (read (write1 m a) (fst (fst a)) k = match snd a k with Some v => v | None => read m (fst (fst a)) k end).
      apply write_in. exact Hk.
    + intros w Hw. rewrite Forall_forall in Ha. apply (Ha w Hw). exact Hk.
  - rewrite IH by auto. destruct (snd w k); [reflexivity|].
    unfold read. apply write_out. rewrite Forall_forall in Ha. apply (Ha w Hin). exact Hk.
Qed.

(** ** the pointers *)
Definition manifold_total (pbs : list pblock) : nat :=
  fold_right (fun p n => match pb_plus p with Some _ => (pb_size p + n)%nat | None => n end) 0%nat pbs.
Definition slot_ok (nr sc e : nat) (s : slot) : Prop :=
  match sl_global s with
  | None => True
  | Some p => (p = (BJacobian (sl_i s), 0%nat) /\ pb_plus (sl_pb s) = None) \/
              (exists o P, p = (BScratch, o) /\ pb_plus (sl_pb s) = Some P /\ (sc <= o /\ o + nr * pb_size (sl_pb s) <= e)%nat)
  end.
Definition slots_apart (nr : nat) (s t : slot) : Prop :=
  sl_i s <> sl_i t /\
  forall o o', sl_global s = Some (BScratch, o) -> sl_global t = Some (BScratch, o') ->
    (o + nr * pb_size (sl_pb s) <= o')%nat.
Record slots_facts (nr i : nat) (pbs : list pblock) (want : list bool) (sc : nat) (l : list slot) (e : nat) : Prop := {
  sf_le : (sc <= e)%nat; sf_total : (e <= sc + nr * manifold_total pbs)%nat;
  sf_in : forall s, In s l -> (i <= sl_i s)%nat /\ nth_error pbs (sl_i s - i) = Some (sl_pb s) /\
            nth_error want (sl_i s - i) = Some (match sl_global s with None => false | Some _ => true end) /\ slot_ok nr sc e s;
  sf_apart : ForallOrdPairs (slots_apart nr) l;
  sf_all : forall k p w, nth_error pbs k = Some p -> nth_error want k = Some w -> exists g, In (mkSlot (i + k) p g) l }.
Lemma make_slots_ok nr : forall pbs want i sc l e, make_slots nr i pbs want sc = (l, e) -> slots_facts nr i pbs want sc l e.
Proof.
  induction pbs as [|p ps IH]; intros want i sc l e H.
  { cbn in H. injection H as <- <-. constructor; cbn; try lia; try (intros; contradiction); [constructor|].
    intros k q w Q. destruct k; discriminate. }
  destruct want as [|w ws].
  { cbn in H. injection H as <- <-. constructor; try lia; try (intros; contradiction); [constructor|].
    intros k q w _ Q. destruct k; discriminate. }
  cbn [make_slots] in H.
  set (gs := if w then _ else _) in H.
  assert (G : exists g sc', gs = (g, sc') /\ (sc <= sc')%nat /\
     (sc' <= sc + nr * (match pb_plus p with Some _ => pb_size p | None => 0 end))%nat /\
     w = (match g with None => false | Some _ => true end) /\
     (forall e', (sc' <= e')%nat -> slot_ok nr sc e' (mkSlot i p g)) /\
     (forall o, g = Some (BScratch, o) -> (o + nr * pb_size p <= sc')%nat)).
  { subst gs. destruct w.
    - destruct (pb_plus p) as [P|] eqn:E.
      + eexists; eexists. split; [reflexivity|]. split; [lia|]. split; [lia|]. split; [reflexivity|]. split.
        * intros e' He. right. exists sc, P. cbn. split; [reflexivity|]. split; [exact E|]. lia.
        * intros o Ho. injection Ho as <-. lia.
      + eexists; eexists. split; [reflexivity|]. split; [lia|]. split; [lia|]. split; [reflexivity|]. split.
        * intros e' He. left. cbn. auto.
        * intros o Ho. discriminate.
    - eexists; eexists. split; [reflexivity|]. split; [lia|]. split; [lia|]. split; [reflexivity|]. split.
      + intros e' He. exact I.
      + intros o Ho. discriminate. }
  destruct G as (g & sc' & -> & G1 & G2 & G3 & G4 & G5).
  destruct (make_slots nr (S i) ps ws sc') as [l' e'] eqn:E. injection H as <- <-.
  destruct (IH _ _ _ _ _ E) as [F1 F2 F3 F4 F5].
  constructor.
  - lia.
  - cbn [manifold_total fold_right]. fold (manifold_total ps). destruct (pb_plus p); nia.
  - intros s [<-|Hs].
    + cbn [sl_i sl_pb sl_global]. rewrite Nat.sub_diag. cbn [nth_error]. split; [lia|]. split; [reflexivity|]. split; [rewrite G3; reflexivity|]. apply G4. exact F1.
    + destruct (F3 s Hs) as (A & B & C & D). replace (sl_i s - i)%nat with (S (sl_i s - S i)) by lia. cbn [nth_error].
      split; [lia|]. split; [exact B|]. split; [exact C|].
      unfold slot_ok in *. destruct (sl_global s); [|exact I]. destruct D as [D|(o & P & D1 & D2 & D3)]; [left; exact D|].
      right. exists o, P. split; [exact D1|]. split; [exact D2|]. lia.
  - constructor; [|exact F4]. rewrite Forall_forall. intros s Hs. destruct (F3 s Hs) as (A & B & C & D). split; [cbn; lia|].
    cbn [sl_global sl_pb]. intros o o' Ho Ho'. apply G5 in Ho. unfold slot_ok in D. rewrite Ho' in D.
    destruct D as [[D _]|(o2 & P & D1 & _ & D3)]; [discriminate|]. injection D1 as <-. lia.
  - intros k q w' Hq Hw. destruct k as [|k]; cbn in Hq, Hw.
    + injection Hq as <-. exists g. left. rewrite Nat.add_0_r. reflexivity.
    + destruct (F5 k q w' Hq Hw) as (g' & Hg). exists g'. right. replace (i + S k)%nat with (S i + k)%nat by lia. exact Hg.
Qed.

(** ** invalidation and the call *)
Definition jac_writes (nr : nat) (f : slot -> nat -> option cell) (slots : list slot) : list wr :=
  flat_map (fun s => match sl_global s with None => [] | Some p => [(p, (nr * pb_size (sl_pb s))%nat, f s)] end) slots.
Lemma jac_writes_fold nr f slots : forall m,
  fold_left (fun m s => match sl_global s with None => m | Some p => write m p (nr * pb_size (sl_pb s)) (f s) end) slots m =
  write_all (jac_writes nr f slots) m.
Proof.
  induction slots as [|s l IH]; intros m; [reflexivity|]. cbn [fold_left jac_writes flat_map].
  rewrite IH. destruct (sl_global s); [|reflexivity]. reflexivity.
Qed.
Lemma jac_writes_in nr f slots w : In w (jac_writes nr f slots) <->
  exists s p, In s slots /\ sl_global s = Some p /\ w = (p, (nr * pb_size (sl_pb s))%nat, f s).
Proof.
  unfold jac_writes. rewrite in_flat_map. split.
  - intros (s & Hs & Hw). destruct (sl_global s) as [p|] eqn:E; [|destruct Hw]. destruct Hw as [<-|[]]. exists s, p. auto.
  - intros (s & p & Hs & E & ->). exists s. split; [exact Hs|]. rewrite E. left. reflexivity.
Qed.
Lemma apart_disjoint nr sc e s t ps pt f g : slot_ok nr sc e s -> slot_ok nr sc e t -> slots_apart nr s t ->
  sl_global s = Some ps -> sl_global t = Some pt ->
  disjoint (ps, (nr * pb_size (sl_pb s))%nat, f) (pt, (nr * pb_size (sl_pb t))%nat, g) /\
  disjoint (pt, (nr * pb_size (sl_pb t))%nat, g) (ps, (nr * pb_size (sl_pb s))%nat, f).
Proof.
  unfold slot_ok. intros S T [A1 A2] Es Et. rewrite Es in S. rewrite Et in T.
  unfold disjoint, outside. cbn [fst snd].
  destruct S as [[-> _]|(o & P & -> & _ & _)], T as [[-> _]|(o' & P' & -> & _ & _)]; cbn [fst snd].
  - split; intros k _; left; congruence.
  - split; intros k _; left; discriminate.
  - split; intros k _; left; discriminate.
  - specialize (A2 o o' Es Et). split; intros k Hk; right; lia.
Qed.
Lemma jac_writes_disjoint nr sc e f slots : (forall s, In s slots -> slot_ok nr sc e s) -> ForallOrdPairs (slots_apart nr) slots ->
  ForallOrdPairs (fun v w => disjoint v w /\ disjoint w v) (jac_writes nr f slots).
Proof.
  intros HO HA. induction HA as [|s l Hs Hl IH]; [constructor|]. cbn [jac_writes flat_map].
  fold (jac_writes nr f l). assert (IH' := IH (fun t Ht => HO t (or_intror Ht))).
  destruct (sl_global s) as [p|] eqn:E; [|exact IH']. cbn [app]. constructor; [|exact IH'].
  rewrite Forall_forall. intros w Hw. apply jac_writes_in in Hw. destruct Hw as (t & q & Ht & Eq & ->).
  rewrite Forall_forall in Hs. eapply apart_disjoint; eauto using in_eq, in_cons.
Qed.

(** the residual pointer never meets a jacobian pointer *)
Definition rp_ok (rp : ptr) (e : nat) : Prop := rp = (BResiduals, 0%nat) \/ rp = (BScratch, e).
Lemma rp_outside nr sc e f slots rp k w : (forall s, In s slots -> slot_ok nr sc e s) -> rp_ok rp e ->
  In w (jac_writes nr f slots) -> outside w (fst rp) (snd rp + k).
Proof.
  intros HO HR Hw. apply jac_writes_in in Hw. destruct Hw as (s & p & Hs & E & ->). unfold outside. cbn [fst snd].
  specialize (HO s Hs). unfold slot_ok in HO. rewrite E in HO.
  destruct HR as [->| ->], HO as [[-> _]|(o & P & -> & _ & HO)]; cbn [fst snd]; try (left; discriminate). right. lia.
Qed.

(** what an array holds after the call *)
Definition landed (o : option cell) : cell := match o with Some v => v | None => Num impossible end.
Lemma after_call nr sc e slots rp a m : (forall s, In s slots -> slot_ok nr sc e s) -> ForallOrdPairs (slots_apart nr) slots -> rp_ok rp e ->
  let m' := call nr rp slots a (invalidate_evaluation nr rp slots m) in
  (forall k, (k < nr)%nat -> read m' rp k = landed (an_residuals a k)) /\
  (forall s p k, In s slots -> sl_global s = Some p -> (k < nr * pb_size (sl_pb s))%nat ->
     read m' p k = landed (an_jacobians a (sl_i s) k)) /\
  (forall b j, b <> BCost -> (b <> fst rp \/ (j < snd rp)%nat \/ (snd rp + nr <= j)%nat) ->
     (forall s p, In s slots -> sl_global s = Some p -> outside (p, (nr * pb_size (sl_pb s))%nat, fun _ => None) b j) -> m' b j = m b j).
Proof.
  intros HO HA HR. cbv zeta. unfold call, invalidate_evaluation, invalidate_array.
  rewrite (jac_writes_fold nr (fun s => an_jacobians a (sl_i s))), (jac_writes_fold nr (fun _ _ => Some (Num impossible))).
  set (m0 := write m (BCost, 0%nat) 1 _). set (m1 := write m0 rp nr _).
  set (m2 := write_all (jac_writes nr (fun _ _ => Some (Num impossible)) slots) m1).
  set (m3 := write m2 rp nr (an_residuals a)).
  assert (D1 := jac_writes_disjoint nr sc e (fun _ _ => Some (Num impossible)) slots HO HA).
  assert (D2 := jac_writes_disjoint nr sc e (fun s => an_jacobians a (sl_i s)) slots HO HA).
  split; [|split].
  - intros k Hk. unfold read. rewrite write_all_out by (intros w Hw; eapply rp_outside; eauto).
    change (read m3 rp k = landed (an_residuals a k)). unfold m3. rewrite write_in by exact Hk.
    destruct (an_residuals a k); [reflexivity|]. unfold read, m2. rewrite write_all_out by (intros w Hw; eapply rp_outside; eauto).
    change (read m1 rp k = Num impossible). unfold m1. rewrite write_in by exact Hk. reflexivity.
  - intros s p k Hs E Hk.
    assert (I2 : In (p, (nr * pb_size (sl_pb s))%nat, an_jacobians a (sl_i s)) (jac_writes nr (fun s => an_jacobians a (sl_i s)) slots)).
    { apply jac_writes_in. exists s, p. auto. }
    assert (I1 : In (p, (nr * pb_size (sl_pb s))%nat, fun _ => Some (Num impossible)) (jac_writes nr (fun _ _ => Some (Num impossible)) slots)).
    { apply jac_writes_in. exists s, p. auto. }
    pose proof (write_all_in _ D2 m3 _ k I2 Hk) as W. cbn [fst snd] in W. rewrite W.
    destruct (an_jacobians a (sl_i s) k); [reflexivity|].
    unfold read, m3. rewrite write_out.
    + change (read m2 p k = Num impossible). unfold m2. pose proof (write_all_in _ D1 m1 _ k I1 Hk) as W1. cbn [fst snd] in W1. exact W1.
    + specialize (HO s Hs). unfold slot_ok in HO. rewrite E in HO.
      destruct HR as [->| ->], HO as [[-> _]|(o & P & -> & _ & HO)]; cbn [fst snd]; try (left; discriminate). right. lia.
  - intros b j Hb H1 H2. rewrite write_all_out.
    + unfold m3. rewrite write_out by exact H1. unfold m2. rewrite write_all_out.
      * unfold m1. rewrite write_out by exact H1. unfold m0. apply write_out. left. exact Hb.
      * intros w Hw. apply jac_writes_in in Hw. destruct Hw as (s & p & Hs & E & ->). apply (H2 s p Hs E).
    + intros w Hw. apply jac_writes_in in Hw. destruct Hw as (s & p & Hs & E & ->). apply (H2 s p Hs E).
Qed.

Lemma cell_valid_iff c : cell_valid c = true <-> exists r, c = Num r /\ r <> impossible.
Proof.
  destruct c as [r|]; cbn [cell_valid]; [|split; [discriminate|intros (r & H & _); discriminate]].
  destruct (Req_EM_T r impossible) as [E0|H]; split.
  - discriminate.
  - intros (r' & E & H). injection E as <-. contradiction.
  - intros _. exists r. auto.
  - reflexivity.
Qed.
Lemma landed_valid o : cell_valid (landed o) = true <-> exists r, o = Some (Num r) /\ r <> impossible.
Proof.
  rewrite cell_valid_iff. destruct o as [c|]; cbn [landed]; split; intros (r & E & H); exists r; split; auto; try congruence.
Qed.
Lemma array_valid_iff n p m : array_valid n p m = true <-> forall k, (k < n)%nat -> cell_valid (read m p k) = true.
Proof.
  unfold array_valid. rewrite forallb_forall. split; intros H k Hk; apply H; [apply in_seq; lia|apply in_seq in Hk; lia].
Qed.

(** ** projection and correction *)
Lemma write_num m b n (f : nat -> R) j : (j < n)%nat -> write m (b, 0%nat) n (fun k => Some (Num (f k))) b j = Num (f j).
Proof. intros H. exact (write_in m (b, 0%nat) n (fun k => Some (Num (f k))) j H). Qed.
Lemma project_get nr sc e : forall l m, (forall s, In s l -> slot_ok nr sc e s) -> ForallOrdPairs (slots_apart nr) l ->
  let m' := fold_left (project_one nr) l m in
  (forall s p P j, In s l -> sl_global s = Some p -> pb_plus (sl_pb s) = Some P -> (j < nr * pb_tangent (sl_pb s))%nat ->
     m' (BJacobian (sl_i s)) j = Num (matrix_product (pb_size (sl_pb s)) (pb_tangent (sl_pb s)) (view m p) P j)) /\
  (forall b j, (forall s, In s l -> sl_global s <> None -> pb_plus (sl_pb s) <> None -> b = BJacobian (sl_i s) ->
     (nr * pb_tangent (sl_pb s) <= j)%nat) -> m' b j = m b j).
Proof.
  induction l as [|s l IH]; intros m HO HA; cbv zeta; cbn [fold_left].
  { split; [intros; contradiction|reflexivity]. }
  inversion HA as [|? ? Hs Hl]; subst. rewrite Forall_forall in Hs.
  destruct (IH (project_one nr m s) (fun t Ht => HO t (or_intror Ht)) Hl) as [I1 I2].
  assert (O1 : forall b j, (sl_global s <> None -> pb_plus (sl_pb s) <> None -> b = BJacobian (sl_i s) -> (nr * pb_tangent (sl_pb s) <= j)%nat) ->
     project_one nr m s b j = m b j).
  { intros b j H. unfold project_one. destruct (sl_global s); [|reflexivity]. destruct (pb_plus (sl_pb s)); [|reflexivity].
    apply write_out. cbn [fst snd]. destruct (buffer_eq_dec b (BJacobian (sl_i s))); [|auto]. right. right. apply H; auto; discriminate. }
  assert (O2 : forall p, fst p = BScratch -> view (project_one nr m s) p = view m p \/ True) by auto.
  split.
  - intros t p P j Ht E EP Hj. destruct Ht as [<-|Ht].
    + rewrite I2.
      * unfold project_one. rewrite E, EP. rewrite write_num by exact Hj. reflexivity.
      * intros t Ht _ _ Q. injection Q as Q. exfalso. apply (proj1 (Hs t Ht)). exact Q.
    + rewrite (I1 t p P j Ht E EP Hj). f_equal. unfold matrix_product.
      assert (V : forall k, view (project_one nr m s) p k = view m p k).
      { intros k. unfold view, read. f_equal. apply O1. intros _ _ Q. specialize (HO t (or_intror Ht)). unfold slot_ok in HO. rewrite E in HO.
        destruct HO as [[_ HO]|(o & P' & -> & _)]; [congruence|discriminate]. }
      generalize (pb_size (sl_pb t)) at 1 3 as n. induction n as [|n IHn]; cbn [product_entry]; [reflexivity|]. rewrite IHn, V. reflexivity.
  - intros b j H. rewrite I2.
    + apply O1. intros A B C. apply (H s (or_introl eq_refl) A B C).
    + intros t Ht. apply (H t (or_intror Ht)).
Qed.
Lemma rtj_ext nc col : forall n res res' jac jac', (forall k, (k < n)%nat -> res k = res' k) -> (forall k, jac k = jac' k) ->
  r_transpose_j nc col n res jac = r_transpose_j nc col n res' jac'.
Proof.
  induction n as [|n IH]; intros; cbn [r_transpose_j]; [reflexivity|]. rewrite (IH res res' jac jac'), H, H0; auto.
Qed.
Lemma correct_get c nr rp : (forall i, fst rp <> BJacobian i) -> forall l m, ForallOrdPairs (slots_apart nr) l ->
  let m' := fold_left (correct_one c nr rp) l m in
  (forall s j, In s l -> sl_global s <> None -> (j < nr * pb_tangent (sl_pb s))%nat ->
     m' (BJacobian (sl_i s)) j = Num (correct_jacobian c nr (pb_tangent (sl_pb s)) (view m rp) (view m (BJacobian (sl_i s), 0%nat)) j)) /\
  (forall b j, (forall s, In s l -> sl_global s <> None -> b = BJacobian (sl_i s) -> (nr * pb_tangent (sl_pb s) <= j)%nat) -> m' b j = m b j).
Proof.
  intros HR. induction l as [|s l IH]; intros m HA; cbv zeta; cbn [fold_left].
  { split; [intros; contradiction|reflexivity]. }
  inversion HA as [|? ? Hs Hl]; subst. rewrite Forall_forall in Hs.
  destruct (IH (correct_one c nr rp m s) Hl) as [I1 I2].
  assert (O1 : forall b j, (sl_global s <> None -> b = BJacobian (sl_i s) -> (nr * pb_tangent (sl_pb s) <= j)%nat) ->
     correct_one c nr rp m s b j = m b j).
  { intros b j H. unfold correct_one. destruct (sl_global s); [|reflexivity].
    apply write_out. cbn [fst snd]. destruct (buffer_eq_dec b (BJacobian (sl_i s))); [|auto]. right. right. apply H; auto; discriminate. }
  split.
  - intros t j Ht E Hj. destruct Ht as [<-|Ht].
    + rewrite I2.
      * unfold correct_one. destruct (sl_global s); [|contradiction]. rewrite write_num by exact Hj. reflexivity.
      * intros t Ht _ Q. injection Q as Q. exfalso. apply (proj1 (Hs t Ht)). exact Q.
    + rewrite (I1 t j Ht E Hj). f_equal.
      assert (V1 : view (correct_one c nr rp m s) rp = view m rp).
      { apply FunctionalExtensionality.functional_extensionality. intros k. unfold view, read. f_equal. apply O1. intros _ Q. exfalso. apply (HR _ Q). }
      assert (V2 : view (correct_one c nr rp m s) (BJacobian (sl_i t), 0%nat) = view m (BJacobian (sl_i t), 0%nat)).
      { apply FunctionalExtensionality.functional_extensionality. intros k. unfold view, read. f_equal. apply O1. cbn [fst]. intros _ Q. injection Q as Q.
        exfalso. apply (proj1 (Hs t Ht)). symmetry. exact Q. }
      rewrite V1, V2. reflexivity.
  - intros b j H. rewrite I2.
    + apply O1. intros A B. apply (H s (or_introl eq_refl) A B).
    + intros t Ht. apply (H t (or_intror Ht)).
Qed.

Lemma squared_norm_of n p m r : (forall k, (k < n)%nat -> read m p k = Num (r k)) -> squared_norm n p m = norm2 n r.
Proof.
  unfold norm2. induction n as [|n IH]; intros H; cbn [squared_norm sum_n_of]; [reflexivity|].
  rewrite IH by (intros; apply H; lia). rewrite H by lia. reflexivity.
Qed.
Lemma norm2_nonneg n r : 0 <= norm2 n r.
Proof. unfold norm2. induction n; cbn [sum_n_of]; [lra|]. pose proof (Rle_0_sqr (r n)). unfold Rsqr in *. lra. Qed.
Lemma product_entry_sum tangent row col n size A B :
  product_entry tangent row col n size A B = sum_n_of (fun k => A (row * size + k)%nat * B (k * tangent + col)%nat) n.
Proof. induction n as [|n IH]; cbn [product_entry sum_n_of]; [reflexivity|]. rewrite IH. reflexivity. Qed.
