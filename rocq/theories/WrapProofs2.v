(* Proofs for C70: the memory. *)
From Coq Require Import Reals List Arith Bool Lia Lra FunctionalExtensionality.
From Verif Require Import WrapModel WrapSpec WrapProofs.
Import ListNotations.
Open Scope nat_scope.

Lemma blit_in m a n v k : k < n -> blit m a n v (a + k) = v k.
Proof. intro H. unfold blit. destruct (Nat.leb_spec a (a + k)); [|lia]. destruct (Nat.ltb_spec (a + k) (a + n)); [|lia]. cbn [andb]. f_equal. lia. Qed.
Lemma blit_out m a n v q : ~ inside a n q -> blit m a n v q = m q.
Proof. intro H. unfold blit, inside in *. destruct (Nat.leb_spec a q); destruct (Nat.ltb_spec q (a + n)); cbn [andb]; (reflexivity || lia). Qed.
Lemma set_same m a v : set m a v a = v. Proof. unfold set. rewrite Nat.eqb_refl. reflexivity. Qed.
Lemma set_other m a v q : q <> a -> set m a v q = m q. Proof. intro H. unfold set. destruct (Nat.eqb_spec q a); [contradiction|reflexivity]. Qed.

Section Conditioned.
  Variables (w : CostFunction) (cs : list (option CostFunction)) (gs : list (option function)).
  Variables (ok : (nat * nat -> R) -> bool) (f : nat -> (nat * nat -> R) -> R) (D : nat -> (nat * nat -> R) -> nat * nat -> R).
  Hypothesis W : implements w ok f D.
  Hypothesis CS : forall i, match nth i cs None, conditioner_of gs i with None, None => True | Some c, Some g => implements1 c g /\ num_residuals c = 1 /\ sizes c = [1] | _, _ => False end.
  Notation n := (num_residuals w).
  Notation nb := (block_count w).
  Notation sz := (block_size w).
  Variables (P : nat -> nat) (r : nat) (J : option (nat -> option nat)) (sp : nat) (x : nat * nat -> R).
  Hypothesis PL : placed w P r J sp.

  (* scaling a row of the Jacobian blocks *)
  Lemma scale_spec j k (d : R) (HJ : J = Some j) (Hk : k < n) : forall bl (m : mem), NoDup bl -> (forall b, In b bl -> b < nb) ->
    let m' := fold_left (fun m i => match j i with None => m | Some a => blit m (a + k * sz i) (sz i) (fun l => (m (a + k * sz i + l)%nat * d)%R) end) bl m in
    (forall q, (forall b A, In b bl -> j b = Some A -> ~ inside (A + k * sz b) (sz b) q) -> m' q = m q) /\
    (forall b A c, In b bl -> j b = Some A -> c < sz b -> m' (A + k * sz b + c) = (m (A + k * sz b + c)%nat * d)%R).
  Proof.
    induction bl as [|b0 bl IH]; intros m ND HB; cbn [fold_left].
    - split; [reflexivity|intros b A c []].
    - inversion_clear ND as [|? ? N1 N2]. set (m1 := match j b0 with None => m | Some a => _ end).
      destruct (IH m1 N2 ltac:(intros b Hb; apply HB; right; exact Hb)) as [I1 I2]. cbn zeta. split.
      + intros q Hq. rewrite I1 by (intros b A Hb; apply Hq; right; exact Hb). unfold m1. destruct (j b0) as [a|] eqn:E; [|reflexivity]. apply blit_out. apply (Hq b0 a (or_introl eq_refl) E).
      + intros b A c [<-|Hb] E Hc.
        * rewrite I1.
          -- unfold m1. rewrite E. rewrite blit_in by exact Hc. reflexivity.
          -- intros b' A' Hb' E' HI. assert (b0 <> b') as NE by (intros ->; contradiction). assert (b0 < nb) as B0 by (apply HB; left; reflexivity). assert (b' < nb) as B' by (apply HB; right; exact Hb').
             apply (p_jj _ _ _ _ _ PL b0 b' A A' B0 B' NE (ex_intro _ j (conj HJ E)) (ex_intro _ j (conj HJ E')) (A + k * sz b0 + c)); unfold inside in *; nia.
        * rewrite (I2 b A c Hb E Hc). f_equal. unfold m1. destruct (j b0) as [a|] eqn:E0; [|reflexivity]. apply blit_out. intro HI.
          assert (b0 <> b) as NE by (intros ->; contradiction). assert (b0 < nb) as B0 by (apply HB; left; reflexivity). assert (b < nb) as B' by (apply HB; right; exact Hb).
          apply (p_jj _ _ _ _ _ PL b0 b a A B0 B' NE (ex_intro _ j (conj HJ E0)) (ex_intro _ j (conj HJ E)) (A + k * sz b + c)); unfold inside in *; nia.
  Qed.

  Definition state (m0 : mem) (k : nat) (m : mem) : Prop :=
    (forall i, i < n -> m (r + i) = if i <? k then conditioned_value gs f i x else f i x) /\
    (forall b A i c, b < nb -> requested J b A -> i < n -> c < sz b -> m (A + i * sz b + c) = if i <? k then conditioned_slope gs f D i x (b, c) else D i x (b, c)) /\
    (forall q, q < sp -> ~ output w r J q -> m q = m0 q).
  Definition frame (m0 m : mem) : Prop := forall q, q < sp -> ~ output w r J q -> m q = m0 q.
  Definition row_ok (i : nat) : bool := match conditioner_of gs i with None => true | Some g => f_ok g (f i x) end.

  Lemma condition_step m0 k m : k < n -> state m0 k m ->
    let '(success, m') := condition w cs r J sp k m in
    success = row_ok k /\ frame m0 m' /\ (success = true -> state m0 (S k) m').
  Proof.
    intros Hk [S1 [S2 S3]]. unfold condition, row_ok. specialize (CS k). destruct (nth k cs None) as [c|]; destruct (conditioner_of gs k) as [g|] eqn:EG; try contradiction.
    2:{ split; [reflexivity|]. split; [exact S3|]. intros _. split; [|split; [|exact S3]].
        - intros i Hi. rewrite S1 by exact Hi. destruct (Nat.ltb_spec i k); destruct (Nat.ltb_spec i (S k)); try lia; try reflexivity. replace i with k by lia. unfold conditioned_value. rewrite EG. reflexivity.
        - intros b A i c Hb HA Hi Hc. rewrite (S2 b A i c Hb HA Hi Hc). destruct (Nat.ltb_spec i k); destruct (Nat.ltb_spec i (S k)); try lia; try reflexivity. replace i with k by lia. unfold conditioned_slope. rewrite EG. reflexivity. }
    destruct CS as [C [CN CZ]]. clear CS. pose proof (p_residuals _ _ _ _ _ PL) as RB.
    set (J' := match J with None => None | Some _ => Some (fun _ : nat => Some (sp + 1)) end).
    assert (block_count c = 1) as BC by (unfold block_count; rewrite CZ; reflexivity). assert (block_size c 0 = 1) as BZ by (unfold block_size; rewrite CZ; reflexivity).
    assert (forall b A, requested J' b A -> A = sp + 1) as RJ by (intros b A [j [E1 E2]]; unfold J' in E1; destruct J; [injection E1 as <-; congruence|discriminate E1]).
    assert (placed c (fun _ => sp) (r + k) J' (sp + 2)) as PC.
    { split; rewrite ?BC, ?CN.
      - intros b Hb. replace b with 0 by lia. rewrite BZ. lia.
      - lia.
      - intros b A Hb HA. rewrite (RJ _ _ HA). replace b with 0 by lia. rewrite BZ. lia.
      - intros b Hb q. replace b with 0 by lia. rewrite BZ. unfold inside. lia.
      - intros b b' A Hb Hb' HA q. rewrite (RJ _ _ HA). replace b with 0 by lia. replace b' with 0 by lia. rewrite BZ. unfold inside. lia.
      - intros b A Hb HA q. rewrite (RJ _ _ HA). replace b with 0 by lia. rewrite BZ. unfold inside. lia.
      - intros b b' A A' Hb Hb'. lia. }
    specialize (C (set m sp (m (r + k))) (fun _ => sp) (r + k) J' (sp + 2) (fun _ => m (r + k)) PC).
    assert (m (r + k) = f k x) as MK by (rewrite S1 by exact Hk; rewrite Nat.ltb_irrefl; reflexivity).
    match type of C with ?H -> _ => assert H as HC by (intros b c' Hb Hc'; rewrite BC in Hb; replace b with 0 in * by lia; rewrite BZ in Hc'; replace c' with 0 by lia; rewrite Nat.add_0_r; apply set_same) end.
    specialize (C HC). clear HC. fold J'. destruct (Evaluate c (set m sp (m (r + k))) (fun _ => sp) (r + k) J' (sp + 2)) as [success m'] eqn:EE. destruct C as [C1 [C2 C3]].
    rewrite MK in C1. rewrite CN in C3.
    assert (forall q, q < sp -> q <> r + k -> m' q = m q) as FR.
    { intros q Hq NE. rewrite C2; [apply set_other; lia|lia|]. intros [O|[b [A [Hb [HA O]]]]].
      - rewrite CN in O. unfold inside in O. lia.
      - rewrite (RJ _ _ HA) in O. unfold inside in O. lia. }
    assert (frame m0 m') as F'.
    { intros q Hq NO. rewrite FR; [apply S3; assumption|exact Hq|]. intros ->. apply NO. left. unfold inside. lia. }
    destruct success; cbn [negb].
    2:{ split; [exact C1|]. split; [exact F'|discriminate]. }
    destruct (C3 eq_refl) as [C4 C5]. specialize (C4 0 ltac:(lia)). rewrite Nat.add_0_r, MK in C4.
    assert (forall i, i < n -> m' (r + i) = if i <? S k then conditioned_value gs f i x else f i x) as R'.
    { intros i Hi. destruct (Nat.eq_dec i k) as [->|NE].
      - rewrite C4. destruct (Nat.ltb_spec k (S k)); [|lia]. unfold conditioned_value. rewrite EG. reflexivity.
      - rewrite FR by lia. rewrite S1 by exact Hi. destruct (Nat.ltb_spec i k); destruct (Nat.ltb_spec i (S k)); try lia; reflexivity. }
    assert (forall b A i c', b < nb -> requested J b A -> i < n -> c' < sz b -> m' (A + i * sz b + c') = m (A + i * sz b + c')) as JM.
    { intros b A i c' Hb HA Hi Hc'. assert (inside A (n * sz b) (A + i * sz b + c')) as IN by (unfold inside; nia). pose proof (p_jacobians _ _ _ _ _ PL b A Hb HA). apply FR; [unfold inside in IN; lia|]. intro E. apply (p_rj _ _ _ _ _ PL b A Hb HA (r + k)); [unfold inside; lia|rewrite <- E; exact IN]. }
    assert (J = None \/ exists j, J = Some j) as [EJ|[j EJ]] by (destruct J as [j|]; [right; exists j|left]; reflexivity).
    { rewrite EJ. split; [exact C1|]. split; [exact F'|]. intros _. split; [exact R'|]. split; [|exact F']. intros b A i c' Hb [j [E _]]. rewrite EJ in E. discriminate E. }
    assert (m' (sp + 1) = f_slope g (f k x)) as MS.
    { specialize (C5 0 (sp + 1) 0 0 ltac:(lia)). rewrite BZ, MK in C5. rewrite <- C5; [f_equal; lia| |lia|lia]. exists (fun _ => Some (sp + 1)). split; [unfold J'; rewrite EJ|]; reflexivity. }
    rewrite EJ. unfold scale_row. rewrite MS.
    destruct (scale_spec j k (f_slope g (f k x)) EJ Hk (seq 0 (length (sizes w))) m' (seq_NoDup _ _) ltac:(intros b Hb; apply in_seq in Hb; unfold block_count; lia)) as [SC1 SC2].
    set (m'' := fold_left _ _ m') in *.
    assert (forall q, (forall b A, b < nb -> requested J b A -> ~ inside (A + k * sz b) (sz b) q) -> m'' q = m' q) as SC1'.
    { intros q Hq. apply SC1. intros b A Hb E. apply Hq; [apply in_seq in Hb; unfold block_count; lia|exists j; rewrite EJ; split; [reflexivity|exact E]]. }
    assert (frame m0 m'') as F''.
    { intros q Hq NO. rewrite SC1'; [apply F'; assumption|]. intros b A Hb HA HI. apply NO. right. exists b, A. split; [exact Hb|]. split; [exact HA|]. unfold inside in *. nia. }
    split; [exact C1|]. split; [exact F''|]. intros _. split; [|split; [|exact F'']].
    - intros i Hi. rewrite SC1'; [apply R'; exact Hi|]. intros b A Hb HA HI. apply (p_rj _ _ _ _ _ PL b A Hb HA (r + i)); unfold inside in *; nia.
    - intros b A i c' Hb HA Hi Hc'. destruct (Nat.eq_dec i k) as [->|NE].
      + assert (exists j', J = Some j' /\ j' b = Some A) as [j' [E1 E2]] by exact HA. assert (j' = j) as -> by congruence.
        rewrite (SC2 b A c') by (try assumption; apply in_seq; unfold block_count in Hb; lia). rewrite JM by assumption. rewrite S2 by assumption. rewrite Nat.ltb_irrefl. destruct (Nat.ltb_spec k (S k)); [|lia]. unfold conditioned_slope. rewrite EG. reflexivity.
      + rewrite SC1'.
        * rewrite JM by assumption. rewrite S2 by assumption. destruct (Nat.ltb_spec i k); destruct (Nat.ltb_spec i (S k)); try lia; reflexivity.
        * intros b' A' Hb' HA' HI. destruct (Nat.eq_dec b b') as [<-|NB].
          -- assert (A' = A) as -> by (destruct HA as [j1 [E1 E2]]; destruct HA' as [j2 [E3 E4]]; congruence). unfold inside in HI. nia.
          -- apply (p_jj _ _ _ _ _ PL b b' A A' Hb Hb' NB HA HA' (A + i * sz b + c')); unfold inside in *; nia.
  Qed.
  Lemma condition_loop m0 : forall len k m, k + len = n -> state m0 k m ->
    let '(success, m') := condition_all w cs r J sp (seq k len) m in
    success = forallb row_ok (seq k len) /\ frame m0 m' /\ (success = true -> state m0 n m').
  Proof.
    induction len as [|len IH]; intros k m E ST; cbn [seq condition_all forallb].
    - split; [reflexivity|]. split; [exact (proj2 (proj2 ST))|]. intros _. replace n with k by lia. exact ST.
    - pose proof (condition_step m0 k m ltac:(lia) ST) as H. destruct (condition w cs r J sp k m) as [success m']. destruct H as [H1 [H2 H3]]. rewrite <- H1. destruct success; cbn [andb].
      + apply IH; [lia|apply H3; reflexivity].
      + split; [reflexivity|]. split; [exact H2|discriminate].
  Qed.
End Conditioned.

Lemma conditioned_checks w cs cf : Conditioned w cs = Some cf -> num_residuals w = length cs /\ (forall c, In (Some c) cs -> num_residuals c = 1 /\ sizes c = [1]) /\ cf = mkCostFunction (num_residuals w) (sizes w) (ConditionedEvaluate w cs).
Proof.
  unfold Conditioned. destruct (_ && _) eqn:E; [|discriminate]. intro H. injection H as <-. apply andb_true_iff in E. destruct E as [E1 E2]. apply Nat.eqb_eq in E1. split; [exact E1|]. split; [|reflexivity].
  intros c Hc. rewrite forallb_forall in E2. specialize (E2 _ Hc). cbn in E2. apply andb_true_iff in E2. destruct E2 as [E2 E4]. apply andb_true_iff in E2. destruct E2 as [E2 E3]. apply Nat.eqb_eq in E2. apply Nat.eqb_eq in E3. apply Nat.eqb_eq in E4.
  split; [exact E2|]. unfold block_size in E4. destruct (sizes c) as [|s [|s' l]]; cbn in E3, E4; try discriminate. congruence.
Qed.

Lemma conditioned_implements w cs cf gs ok f D : implements w ok f D -> Conditioned w cs = Some cf ->
  Forall2 (fun c g => match c, g with None, None => True | Some c, Some g => implements1 c g | _, _ => False end) cs gs ->
  implements cf (conditioned_ok (num_residuals w) gs ok f) (conditioned_value gs f) (conditioned_slope gs f D).
Proof.
  intros HW HC HG. destruct (conditioned_checks w cs cf HC) as [CN [CC ->]]. clear HC.
  assert (forall i, match nth i cs None, conditioner_of gs i with None, None => True | Some c, Some g => implements1 c g /\ num_residuals c = 1 /\ sizes c = [1] | _, _ => False end) as CS.
  { unfold conditioner_of. clear - HG CC. induction HG as [|c g cs gs H _ IH]; intro i; [destruct i; exact I|]. destruct i as [|i]; cbn [nth].
    - destruct c as [c|]; destruct g as [g|]; try exact H. split; [exact H|]. apply CC. left. reflexivity.
    - apply IH. intros c' Hc'. apply CC. right. exact Hc'. }
  intros m P r J sp x PL HX. cbn [Evaluate]. unfold ConditionedEvaluate.
  assert (placed w P r J sp) as PW by (destruct PL; split; assumption).
  pose proof (HW m P r J sp x PW HX) as H. destruct (Evaluate w m P r J sp) as [success m1]. destruct H as [H1 [H2 H3]]. unfold conditioned_ok. rewrite <- H1. destruct success; cbn [negb andb].
  2:{ split; [reflexivity|]. split; [exact H2|discriminate]. }
  destruct (H3 eq_refl) as [H4 H5].
  pose proof (condition_loop w cs gs f D CS P r J sp x PW m (num_residuals w) 0 m1 eq_refl) as L.
  assert (state w gs f D r J sp x m 0 m1) as ST.
  { split; [intros i Hi; rewrite H4 by exact Hi; reflexivity|]. split; [intros b A i c Hb HA Hi Hc; rewrite (H5 b A i c Hb HA Hi Hc); reflexivity|exact H2]. }
  specialize (L ST). destruct (condition_all w cs r J sp (seq 0 (num_residuals w)) m1) as [success m']. destruct L as [L1 [L2 L3]]. split; [exact L1|]. split; [exact L2|]. intro E. destruct (L3 E) as [L4 [L5 _]]. split.
  - intros i Hi. rewrite L4 by exact Hi. cbn [num_residuals] in Hi. destruct (Nat.ltb_spec i (num_residuals w)); [reflexivity|lia].
  - intros b A i c Hb HA Hi Hc. cbn [num_residuals] in Hi. pose proof (L5 b A i c Hb HA Hi Hc) as E'. destruct (Nat.ltb_spec i (num_residuals w)); [exact E'|lia].
Qed.

(* NormalPrior *)
Lemma prior_implements nr nc br A b cf : NormalPrior nr nc br A b = Some cf ->
  implements cf (fun _ => true) (fun i x => suml (seq 0 nc) (fun k => (A i k * (x (0%nat, k) - b k))%R)) (fun i _ p => A i (snd p)).
Proof.
  unfold NormalPrior. destruct (_ && _) eqn:E; [|discriminate]. intro H. injection H as <-. apply andb_true_iff in E. destruct E as [E E3]. apply andb_true_iff in E. destruct E as [E1 E2]. apply Nat.eqb_eq in E3. apply Nat.ltb_lt in E1. subst br.
  intros m P r J sp x PL HX. cbn [Evaluate]. unfold NormalPriorEvaluate.
  assert (forall i, suml (seq 0 nc) (fun k => (A i k * (m (P 0 + k)%nat - b k))%R) = suml (seq 0 nc) (fun k => (A i k * (x (0%nat, k) - b k))%R)) as VAL.
  { intro i. apply suml_ext. intros k Hk. apply in_seq in Hk. rewrite (HX 0 k); [reflexivity|cbn; lia|cbn; lia]. }
  set (m1 := blit m r nr _). assert (forall i, i < nr -> m1 (r + i) = suml (seq 0 nc) (fun k => (A i k * (x (0%nat, k) - b k))%R)) as M1 by (intros i Hi; unfold m1; rewrite blit_in by exact Hi; apply VAL).
  assert (forall q, ~ inside r nr q -> m1 q = m q) as M2 by (intros q Hq; apply blit_out; exact Hq).
  assert (forall b' A', b' < 1 -> requested J b' A' -> exists j, J = Some j /\ j 0 = Some A') as RQ by (intros b' A' Hb [j [E4 E5]]; replace b' with 0 in E5 by lia; exists j; auto).
  destruct J as [j|].
  - destruct (j 0) as [a|] eqn:EJ.
    + split; [reflexivity|]. assert (disjoint r nr a (nr * nc)) as DJ by (apply (p_rj _ _ _ _ _ PL 0 a); [cbn; lia|exists j; auto]). split.
      * intros q Hq NO. rewrite blit_out; [apply M2; intro HI; apply NO; left; exact HI|]. intro HI. apply NO. right. exists 0, a. split; [cbn; lia|]. split; [exists j; auto|exact HI].
      * intros _. split.
        -- intros i Hi. rewrite blit_out; [apply M1; exact Hi|]. intro HI. apply (DJ (r + i)); [unfold inside; cbn in Hi; lia|exact HI].
        -- intros b' A' i c Hb HA Hi Hc. cbn [num_residuals] in Hi. unfold block_count in Hb. cbn [sizes length] in Hb. destruct (RQ b' A' Hb HA) as [j' [E4 E5]]. assert (A' = a) as -> by congruence. replace b' with 0 in * by lia. unfold block_size in *. cbn [sizes nth] in *.
           rewrite <- Nat.add_assoc, blit_in by nia. cbn [snd]. rewrite Nat.div_add_l by lia. rewrite Nat.div_small by exact Hc. rewrite Nat.add_0_r. rewrite Nat.add_comm, Nat.mod_add by lia. rewrite Nat.mod_small by exact Hc. reflexivity.
    + split; [reflexivity|]. split; [intros q Hq NO; apply M2; intro HI; apply NO; left; exact HI|]. intros _. split; [exact M1|]. intros b' A' i c Hb HA. unfold block_count in Hb. cbn [sizes length] in Hb. destruct (RQ b' A' Hb HA) as [j' [E4 E5]]. congruence.
  - split; [reflexivity|]. split; [intros q Hq NO; apply M2; intro HI; apply NO; left; exact HI|]. intros _. split; [exact M1|]. intros b' A' i c Hb [j [E _]]. discriminate E.
Qed.

(* the functor *)
Lemma offset_next szs b : b < length szs -> offset szs (S b) = offset szs b + nth b szs 0.
Proof.
  unfold offset. revert b. induction szs as [|s szs IH]; intros b H; [cbn in H; lia|]. destruct b as [|b]; cbn [firstn list_sum fold_right nth]; [cbn; lia|]. specialize (IH b ltac:(cbn in H; lia)). cbn [firstn] in IH. unfold list_sum in *. lia.
Qed.
Lemma offset_order szs b b' : b < b' -> b' <= length szs -> offset szs b + nth b szs 0 <= offset szs b'.
Proof. intros H. induction H as [|b' H IH]; intro L; [rewrite offset_next by lia; lia|]. specialize (IH ltac:(lia)). rewrite (offset_next szs b') by lia. lia. Qed.
Lemma offset_end szs b : b < length szs -> offset szs b + nth b szs 0 <= list_sum szs.
Proof. intro H. pose proof (offset_order szs b (length szs) H (le_n _)) as L. unfold offset at 2 in L. rewrite firstn_all in L. exact L. Qed.
Lemma load_spec inputs : forall szs b0 ptr m,
  (forall q, q < ptr -> load szs b0 inputs ptr m q = m q) /\ forall b c, b < length szs -> c < nth b szs 0 -> load szs b0 inputs ptr m (ptr + offset szs b + c) = a_ (inputs (b0 + b) c).
Proof.
  induction szs as [|s szs IH]; intros b0 ptr m; cbn [load]; [split; [reflexivity|intros b c H; cbn in H; lia]|]. destruct (IH (S b0) (ptr + s) (blit m ptr s (fun k => a_ (inputs b0 k)))) as [I1 I2]. split.
  - intros q Hq. rewrite I1 by lia. apply blit_out. unfold inside. lia.
  - intros [|b] c Hb Hc.
    + cbn [nth] in Hc. unfold offset. cbn [firstn list_sum fold_right]. rewrite !Nat.add_0_r. rewrite I1 by lia. apply blit_in. exact Hc.
    + cbn [nth length] in *. specialize (I2 b c ltac:(lia) Hc). replace (ptr + offset (s :: szs) (S b) + c) with (ptr + s + offset szs b + c) by (unfold offset; cbn [firstn]; unfold list_sum; cbn [fold_right]; lia). rewrite I2. f_equal. f_equal. lia.
Qed.
Lemma functor_spec cf ok f D m sp inputs : implements cf ok f D ->
  let x := fun p => a_ (inputs (fst p) (snd p)) in
  match ToFunctorJets cf m sp inputs with
  | None => ok x = false
  | Some out => ok x = true /\ forall i, i < num_residuals cf -> a_ (out i) = f i x /\ forall k, v_ (out i) k = suml (coordinates (sizes cf)) (fun p => (D i x p * v_ (inputs (fst p) (snd p)) k)%R)
  end.
Proof.
  intros H. cbn zeta. unfold ToFunctorJets. set (n := list_sum (sizes cf)). set (nr := num_residuals cf). set (jacobians := sp + n). set (residuals := jacobians + nr * n).
  set (J := Some (fun b => Some (jacobians + nr * offset (sizes cf) b))).
  assert (forall b A, requested J b A -> A = jacobians + nr * offset (sizes cf) b) as RQ by (intros b A [j [E1 E2]]; unfold J in E1; injection E1 as <-; congruence).
  assert (placed cf (fun b => sp + offset (sizes cf) b) residuals J (residuals + nr)) as PL.
  { assert (forall b, b < block_count cf -> offset (sizes cf) b + block_size cf b <= n) as OE by (intros b Hb; apply offset_end; exact Hb).
    assert (forall b, b < block_count cf -> nr * offset (sizes cf) b + nr * block_size cf b <= nr * n) as OJ by (intros b Hb; specialize (OE b Hb); rewrite <- Nat.mul_add_distr_l; apply Nat.mul_le_mono_l; exact OE).
    split; unfold disjoint, inside.
    - intros b Hb. specialize (OE b Hb). unfold residuals, jacobians. lia.
    - fold nr. lia.
    - intros b A Hb HA. rewrite (RQ _ _ HA). specialize (OJ b Hb). fold nr. unfold residuals. lia.
    - intros b Hb q. specialize (OE b Hb). unfold residuals, jacobians. lia.
    - intros b b' A Hb Hb' HA q. rewrite (RQ _ _ HA). specialize (OE b Hb). unfold jacobians. lia.
    - intros b A Hb HA q. rewrite (RQ _ _ HA). specialize (OJ b Hb). fold nr. unfold residuals. lia.
    - intros b b' A A' Hb Hb' NE HA HA' q. rewrite (RQ _ _ HA), (RQ _ _ HA'). fold nr. unfold block_count, block_size in *. destruct (Nat.lt_gt_cases b b') as [[L|L] _]; [exact NE| |].
      + pose proof (offset_order (sizes cf) b b' L ltac:(lia)) as O. apply (Nat.mul_le_mono_l _ _ nr) in O. rewrite Nat.mul_add_distr_l in O. lia.
      + pose proof (offset_order (sizes cf) b' b L ltac:(lia)) as O. apply (Nat.mul_le_mono_l _ _ nr) in O. rewrite Nat.mul_add_distr_l in O. lia. }
  specialize (H (load (sizes cf) 0 inputs sp m) _ residuals J (residuals + nr) (fun p => a_ (inputs (fst p) (snd p))) PL).
  match type of H with ?A -> _ => assert A as HX by (intros b c Hb Hc; cbn [fst snd]; exact (proj2 (load_spec inputs (sizes cf) 0 sp m) b c Hb Hc)) end.
  specialize (H HX). destruct (Evaluate cf (load (sizes cf) 0 inputs sp m) (fun b => sp + offset (sizes cf) b) residuals J (residuals + nr)) as [success m']. destruct H as [H1 [_ H3]]. destruct success; cbn [negb]; [|symmetry; exact H1].
  destruct (H3 eq_refl) as [H4 H5]. split; [symmetry; exact H1|]. intros i Hi. cbn [a_ v_]. split; [apply H4; exact Hi|]. intro k. unfold coordinates. rewrite suml_flat. apply suml_ext. intros j Hj. apply in_seq in Hj. rewrite suml_map. apply suml_ext. intros l Hl. apply in_seq in Hl. cbn [fst snd].
  rewrite (H5 j _ i l); [reflexivity|unfold block_count; lia|exists (fun b => Some (jacobians + nr * offset (sizes cf) b)); split; reflexivity|exact Hi|unfold block_size in *; lia].
Qed.
