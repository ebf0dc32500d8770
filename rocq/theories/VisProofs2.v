(* Proofs for C71: the Schur complement graph and single linkage clustering. *)
From Coq Require Import Reals List Arith Bool Lia Lra Permutation.
From Verif Require Import GraphModel GraphProofs GraphProofs2 ForestModel ForestSpec ForestProofs VisModel VisSpec VisProofs.
Import ListNotations.
Open Scope nat_scope.

Definition start (n : nat) (done : list nat) (g : wg) : Prop :=
  wok g /\ (forall v, In v (vertices g) <-> In v done) /\ (forall v, In v done -> vw g v = Some 1%R) /\
  (forall c d, In d (Neighbors g c) <-> c = d /\ In c done) /\ (forall c, In c done -> EdgeWeight g c c = 1%R).
Lemma add_vertices_spec n : forall is done g, start n done g -> NoDup is -> (forall i, In i is -> ~ In i done) -> exists g', add_vertices is g = Some g' /\ start n (rev is ++ done) g'.
Proof.
  induction is as [|i is IH]; intros done g ST ND HD; cbn [add_vertices rev app]; [exists g; split; [reflexivity|exact ST]|]. destruct ST as [W [S1 [S2 [S3 S4]]]]. inversion_clear ND as [|? ? N1 N2].
  destruct (add_edge_spec i i 1 (AddVertex i (Some 1%R) g) (wok_add_vertex _ _ _ W)) as [g' [E [W' [V' [VW' [NB' EW']]]]]]; [apply vertices_add; left; reflexivity|apply vertices_add; left; reflexivity|]. rewrite E.
  destruct (IH (i :: done) g') as [g2 [E2 ST2]].
  - split; [exact W'|]. split; [intro v; rewrite V', vertices_add, S1; cbn [In]; intuition|]. split; [|split].
    + intros v Hv. rewrite VW'. cbn [AddVertex vw]. destruct (Nat.eqb_spec v i) as [->|N]; [reflexivity|]. apply S2. destruct Hv as [->|Hv]; [congruence|exact Hv].
    + intros c d. rewrite NB'. replace (In d (Neighbors (AddVertex i (Some 1%R) g) c)) with (adj (topo (AddVertex i (Some 1%R) g)) c d) by reflexivity. cbn [AddVertex topo]. rewrite (adj_addv i (topo g) c d (proj1 W)). change (adj (topo g) c d) with (In d (Neighbors g c)). rewrite S3. cbn [In]. intuition congruence.
    + intros c Hc. rewrite EW'. destruct (Nat.eq_dec c i) as [->|N]; [reflexivity|]. destruct Hc as [->|Hc]; [congruence|]. change (EdgeWeight (AddVertex i (Some 1%R) g) c c) with (EdgeWeight g c c). apply S4. exact Hc.
  - exact N2.
  - intros j Hj [->|Hd]; [contradiction|]. exact (HD j (or_intror Hj) Hd).
  - exists g2. split; [exact E2|]. rewrite <- app_assoc. exact ST2.
Qed.
Definition paired (vis : list (list nat)) (done : list (nat * nat)) (g : wg) : Prop :=
  wok g /\ (forall v, In v (vertices g) <-> v < length vis) /\ (forall v, v < length vis -> vw g v = Some 1%R) /\
  (forall c d, In d (Neighbors g c) <-> (c = d /\ c < length vis) \/ In (c, d) done \/ In (d, c) done) /\ (forall c, c < length vis -> EdgeWeight g c c = 1%R) /\
  (forall c d, In (c, d) done -> EdgeWeight g c d = similar vis c d).
Lemma edge_weight_sym g a b : EdgeWeight g a b = EdgeWeight g b a.
Proof. unfold EdgeWeight. destruct (Nat.ltb_spec a b); destruct (Nat.ltb_spec b a); try reflexivity; try lia. replace b with a by lia. reflexivity. Qed.
Lemma add_pairs_spec vis : all_increasing vis -> forall keys done g, (forall i j, In (i, j) (keys ++ done) -> i < j /\ j < length vis) -> paired vis done g ->
  exists g', add_pairs vis keys g = Some g' /\ paired vis (rev keys ++ done) g'.
Proof.
  intro AI. induction keys as [|[i j] keys IH]; intros done g HK P; cbn [add_pairs rev app]; [exists g; split; [reflexivity|exact P]|]. destruct P as [W [S1 [S2 [S3 [S4 S5]]]]]. destruct (HK i j (or_introl eq_refl)) as [L1 L2].
  rewrite (count_common vis i j AI L1 L2). fold (similar vis i j).
  destruct (add_edge_spec i j (similar vis i j) g W) as [g' [E [W' [V' [VW' [NB' EW']]]]]]; [apply S1; lia|apply S1; lia|]. rewrite E.
  destruct (IH ((i, j) :: done) g') as [g2 [E2 ST2]].
  - intros a b H. apply HK. apply in_app_or in H. cbn [app In]. destruct H as [H|[H|H]]; [right; apply in_or_app; left; exact H|left; exact H|right; apply in_or_app; right; exact H].
  - split; [exact W'|]. split; [intro v; rewrite V'; apply S1|]. split; [intros v Hv; rewrite VW'; apply S2; exact Hv|]. split; [|split].
    + intros c d. rewrite NB', S3. cbn [In]. intuition congruence.
    + intros c Hc. rewrite EW'. rewrite (S4 c Hc). destruct (Nat.eq_dec c i) as [->|]; [destruct (Nat.eq_dec i j); [lia|reflexivity]|]. destruct (Nat.eq_dec c j) as [->|]; [destruct (Nat.eq_dec j i); [lia|reflexivity]|reflexivity].
    + intros c d [H|H].
      * injection H as -> ->. rewrite EW'. destruct (Nat.eq_dec c c); [|congruence]. destruct (Nat.eq_dec d d); [reflexivity|congruence].
      * destruct (HK c d ltac:(right; apply in_or_app; right; exact H)) as [L3 _]. rewrite EW'. destruct (Nat.eq_dec c i) as [->|N1]; [destruct (Nat.eq_dec d j) as [->|N2]; [reflexivity|]|]; (destruct (Nat.eq_dec _ j) as [E3|N3]; [destruct (Nat.eq_dec d i) as [E4|N4]; [lia|]|]); apply S5; exact H.
  - exists g2. split; [exact E2|]. rewrite <- app_assoc. exact ST2.
Qed.
Lemma common_sym_length vis i j : all_increasing vis -> length (common vis i j) = length (common vis j i).
Proof. intro AI. apply Permutation_length. apply NoDup_Permutation; [apply common_nodup; exact AI|apply common_nodup; exact AI|]. intro p. rewrite !common_in. tauto. Qed.
Lemma similar_sym vis i j : all_increasing vis -> similar vis i j = similar vis j i.
Proof. intro AI. unfold similar. rewrite (common_sym_length vis i j AI), Nat.mul_comm. reflexivity. Qed.
Lemma common_le_l vis i j : length (common vis i j) <= length (nth i vis []).
Proof. unfold common. generalize (nth i vis []) as l. induction l as [|x l IH]; [apply le_n|]. cbn [filter]. destruct (in_dec _ _ _); cbn [length]; lia. Qed.
Lemma similar_range vis i j : all_increasing vis -> (0 <= similar vis i j <= 1)%R.
Proof.
  intro AI. pose proof (common_le_l vis i j) as K1. pose proof (common_le_l vis j i) as K2. rewrite <- (common_sym_length vis i j AI) in K2. unfold similar. set (k := length (common vis i j)) in *. set (a := length (nth i vis [])) in *. set (b := length (nth j vis [])) in *.
  destruct (Nat.eq_dec (a * b) 0) as [Z|Z]; [assert (k = 0) as -> by nia; cbn [INR]; unfold Rdiv; rewrite Rmult_0_l; lra|].
  assert (0 < INR (a * b))%R as P by (apply lt_0_INR; lia). pose proof (sqrt_lt_R0 _ P) as Q. split; [apply Rmult_le_pos; [apply pos_INR|left; apply Rinv_0_lt_compat; exact Q]|].
  apply Rmult_le_reg_r with (sqrt (INR (a * b))); [exact Q|]. unfold Rdiv. rewrite Rmult_assoc, Rinv_l, Rmult_1_r, Rmult_1_l by lra.
  rewrite <- (sqrt_square (INR k)) by apply pos_INR. apply sqrt_le_1_alt. rewrite <- mult_INR. apply le_INR. nia.
Qed.
Lemma similar_pos vis i j : all_increasing vis -> common vis i j <> [] -> (0 < similar vis i j)%R.
Proof.
  intros AI NE. pose proof (common_le_l vis i j) as K1. pose proof (common_le_l vis j i) as K2. rewrite <- (common_sym_length vis i j AI) in K2. unfold similar. assert (0 < length (common vis i j)) as K by (destruct (common vis i j); [congruence|cbn; lia]).
  apply Rmult_lt_0_compat; [apply lt_0_INR; exact K|]. apply Rinv_0_lt_compat, sqrt_lt_R0, lt_0_INR. nia.
Qed.
Lemma schur_graph_spec order vis : all_increasing vis -> (forall l, Permutation (order l) l) -> exists g, CreateSchurComplementGraph order vis = Some g /\ graph_ok g /\
  (forall v, In v (vertices g) <-> v < length vis) /\ (forall v, v < length vis -> vw g v = Some 1%R) /\
  (forall i j, In j (Neighbors g i) <-> i < length vis /\ j < length vis /\ (i = j \/ common vis i j <> [])) /\
  (forall i, i < length vis -> EdgeWeight g i i = 1%R) /\
  forall i j, i < length vis -> j < length vis -> i <> j -> EdgeWeight g i j = similar vis i j.
Proof.
  intros AI HO. unfold CreateSchurComplementGraph.
  destruct (add_vertices_spec (length vis) (seq 0 (length vis)) [] empty) as [g1 [E1 ST]].
  { split; [exact wok_empty|]. split; [intro v; cbn; tauto|]. split; [intros v []|]. split; [|intros c []]. intros c d. split; [intros []|intros [_ []]]. }
  { apply seq_NoDup. } { intros i _ []. } rewrite E1. rewrite app_nil_r in ST. destruct ST as [W [S1 [S2 [S3 S4]]]].
  assert (forall v, In v (rev (seq 0 (length vis))) <-> v < length vis) as RS by (intro v; rewrite <- in_rev, in_seq; lia).
  set (keys := order (nodup pair_dec (counted vis))).
  assert (forall i j, In (i, j) keys <-> i < j /\ j < length vis /\ common vis i j <> []) as KI.
  { intros i j. rewrite <- (counted_in vis i j AI). rewrite <- (nodup_In pair_dec (counted vis)). unfold keys. split; apply Permutation_in; [apply HO|apply Permutation_sym; apply HO]. }
  destruct (add_pairs_spec vis AI keys [] g1) as [g [E2 P]].
  { intros i j H. rewrite app_nil_r in H. apply KI in H. tauto. }
  { split; [exact W|]. split; [intro v; rewrite S1; apply RS|]. split; [intros v Hv; apply S2, RS; exact Hv|]. split; [|split; [intros c Hc; apply S4, RS; exact Hc|intros c d []]]. intros c d. rewrite S3, RS. cbn [In]. tauto. }
  rewrite E2. exists g. split; [reflexivity|]. rewrite app_nil_r in P. destruct P as [W2 [P1 [P2 [P3 [P4 P5]]]]]. pose proof (wok_ok g W2) as OK.
  assert (forall i j, In (i, j) (rev keys) <-> i < j /\ j < length vis /\ common vis i j <> []) as KR by (intros i j; rewrite <- in_rev; apply KI).
  assert (forall i j, common vis i j <> [] <-> common vis j i <> []) as CS.
  { assert (forall i j, common vis i j <> [] -> common vis j i <> []) as H; [|intros i j; split; apply H]. intros i j H E. pose proof (common_sym_length vis i j AI) as L. rewrite E in L. destruct (common vis i j); [congruence|discriminate L]. }
  assert (forall i j, In j (Neighbors g i) <-> i < length vis /\ j < length vis /\ (i = j \/ common vis i j <> [])) as NB.
  { intros i j. rewrite P3, !KR. rewrite (CS j i). split; [intros [A|[A|A]]; intuition (subst; auto; lia)|]. intros [A [B [->|C]]]; [left; auto|]. destruct (Nat.lt_total i j) as [L|[->|L]]; [right; left; auto|left; auto|right; right; auto]. }
  split; [exact OK|]. split; [exact P1|]. split; [exact P2|]. split; [exact NB|]. split; [exact P4|].
  intros i j Hi Hj N.
  destruct (list_eq_dec Nat.eq_dec (common vis i j) []) as [E|E].
  - unfold similar. rewrite E. cbn [length INR]. unfold Rdiv. rewrite Rmult_0_l. apply (ok_zero g OK). rewrite NB. intros [_ [_ [H|H]]]; contradiction.
  - destruct (Nat.lt_total i j) as [L|[->|L]]; [|contradiction|].
    + apply P5. apply KR. auto.
    + rewrite edge_weight_sym, similar_sym by exact AI. apply P5. apply KR. split; [exact L|]. split; [exact Hi|]. apply CS. exact E.
Qed.

(* ---- single linkage *)
Lemma Rltb_true a b : Rltb a b = true <-> (a < b)%R. Proof. unfold Rltb. destruct (Rlt_dec a b); intuition discriminate. Qed.
Lemma Rltb_false a b : Rltb a b = false <-> (b <= a)%R. Proof. unfold Rltb. destruct (Rlt_dec a b); split; intro; try discriminate; try reflexivity; lra. Qed.

Definition linked (P : list (nat * nat)) (a b : nat) : Prop := In (a, b) P \/ In (b, a) P.
Definition joins (V : list nat) (P : list (nat * nat)) (ds : fmap nat) : Prop :=
  UF V ds /\ (forall v, ~ In v V -> ds v = None) /\ forall a b r1 r2, In a V -> In b V -> Root ds a r1 -> Root ds b r2 -> (r1 = r2 <-> path (linked P) a b).
Lemma linked_sym P a b : linked P a b -> linked P b a. Proof. unfold linked. tauto. Qed.
Lemma find_changes V : forall fuel v ds r ds', UF V ds -> In v V -> find_component fuel v ds = Some (r, ds') -> (forall x, ~ In x V -> ds' x = ds x) /\ forall x, ds' x = ds x \/ (ds' x = Some r /\ Root ds x r).
Proof.
  induction fuel as [|fuel IH]; intros v ds r ds' U HV H; [discriminate H|]. cbn [find_component] in H. destruct (ds v) as [p|] eqn:E; [|discriminate H]. destruct (Nat.eqb_spec p v) as [->|N].
  - injection H as <- <-. split; auto.
  - destruct (find_component fuel p ds) as [[r0 ds0]|] eqn:F; [|discriminate H]. injection H as <- <-. destruct (U v HV) as [p' [E' [_ IP]]]. assert (p' = p) as -> by congruence.
    destruct (IH p ds r0 ds0 U IP F) as [I1 I2]. split.
    + intros x Hx. rewrite fput_other by (intros ->; contradiction). apply I1. exact Hx.
    + intro x. destruct (Nat.eq_dec x v) as [->|NX]; [|rewrite fput_other by exact NX; apply I2]. right. rewrite fput_same. split; [reflexivity|].
      assert (Root ds p r0) as RP.
      { clear - F U IP. revert p ds r0 ds0 F U IP. induction fuel as [|fuel IH]; intros p ds r0 ds0 F U IP; [discriminate F|]. cbn [find_component] in F. destruct (ds p) as [q|] eqn:E; [|discriminate F]. destruct (Nat.eqb_spec q p) as [->|N]; [injection F as <- _; constructor; exact E|].
        destruct (find_component fuel q ds) as [[r1 ds1]|] eqn:F1; [|discriminate F]. injection F as <- _. econstructor; [exact E|exact N|]. destruct (U p IP) as [q' [E' [_ IQ]]]. assert (q' = q) as -> by congruence. exact (IH q ds r1 ds1 F1 U IQ). }
      exact (root_up ds v p r0 E N RP).
Qed.
Lemma joins_find V P ds v : joins V P ds -> In v V -> exists r ds', find_component (S v) v ds = Some (r, ds') /\ joins V P ds' /\ Root ds' v r /\ In r V /\ ds' r = Some r /\ (forall x y, In x V -> Root ds x y <-> Root ds' x y) /\ forall x, ds' x = ds x \/ (ds' x = Some r /\ Root ds x r).
Proof.
  intros [U [D J]] HV. destruct (find_ok V (S v) v ds U HV ltac:(lia)) as [r [ds' [F [R [U' Q]]]]]. destruct (find_changes V (S v) v ds r ds' U HV F) as [FC1 FC2]. exists r, ds'. split; [exact F|]. split; [|split; [|split; [|split; [|split; [exact Q|exact FC2]]]]].
  - split; [exact U'|]. split; [intros x Hx; rewrite FC1 by exact Hx; apply D; exact Hx|]. intros a b r1 r2 Ha Hb R1 R2. apply (J a b r1 r2 Ha Hb); apply Q; assumption.
  - apply Q; assumption.
  - destruct (root_ex V ds U v HV) as [z [Z [_ IZ]]]. rewrite <- (root_fun _ _ _ Z r R). exact IZ.
  - apply (root_self ds' v). apply Q; assumption.
Qed.
Lemma joins_union V P ds a b ra rb : joins V P ds -> In a V -> In b V -> Root ds a ra -> Root ds b rb -> In ra V -> In rb V -> ra < rb ->
  forall P', (forall x y, linked P' x y <-> linked P x y \/ (x = a /\ y = b) \/ (x = b /\ y = a)) -> joins V P' (fput ds rb (Some ra)).
Proof.
  intros [U [D J]] Ha Hb Ra Rb Ia Ib L P' HP. pose proof (root_self _ _ _ Ra) as Sa. pose proof (root_self _ _ _ Rb) as Sb. destruct (union_ok V ds ra rb U Ia Ib Sa Sb L) as [U' Q]. split; [exact U'|]. split; [intros x Hx; rewrite fput_other by (intros ->; contradiction); apply D; exact Hx|].
  assert (forall x y, path (linked P) x y -> path (linked P') x y) as MONO by (intros x y; apply path_mono; intros u v H; apply HP; left; exact H).
  assert (path (linked P') a b) as PAB by (apply path_one; apply HP; auto).
  intros x y r1 r2 Hx Hy R1 R2.
  destruct (root_ex V ds U x Hx) as [sx [Sx _]]. destruct (root_ex V ds U y Hy) as [sy [Sy _]].
  pose proof (root_fun _ _ _ R1 _ (Q x sx Hx Sx)) as E1. pose proof (root_fun _ _ _ R2 _ (Q y sy Hy Sy)) as E2. subst r1 r2.
  assert (forall u s, In u V -> Root ds u s -> s = ra -> path (linked P') u a) as TA by (intros u s Hu Su ->; apply MONO; apply (J u a ra ra Hu Ha Su Ra); reflexivity).
  assert (forall u s, In u V -> Root ds u s -> s = rb -> path (linked P') u a) as TB by (intros u s Hu Su ->; apply path_trans with b; [apply MONO; apply (J u b rb rb Hu Hb Su Rb); reflexivity|apply path_sym; [apply linked_sym|exact PAB]]).
  split.
  - intro E. destruct (Nat.eqb_spec sx rb) as [X|X]; destruct (Nat.eqb_spec sy rb) as [Y|Y].
    + apply MONO. apply (J x y sx sy Hx Hy Sx Sy). congruence.
    + apply path_trans with a; [apply (TB x sx); assumption|apply path_sym; [apply linked_sym|apply (TA y sy); congruence]].
    + apply path_trans with a; [apply (TA x sx); congruence|apply path_sym; [apply linked_sym|apply (TB y sy); assumption]].
    + apply MONO. apply (J x y sx sy Hx Hy Sx Sy). exact E.
  - intro PT. destruct (path_add (linked P) (linked P') a b (fun u v H => proj1 (HP u v) H) x y PT) as [A|[[A B]|[A B]]].
    + apply (J x y sx sy Hx Hy Sx Sy) in A. subst sy. reflexivity.
    + apply (J x a sx ra Hx Ha Sx Ra) in A. apply (J b y rb sy Hb Hy Rb Sy) in B. subst sx sy. rewrite Nat.eqb_refl. destruct (Nat.eqb_spec ra rb); [lia|reflexivity].
    + apply (J x b sx rb Hx Hb Sx Rb) in A. apply (J a y ra sy Ha Hy Ra Sy) in B. subst sx sy. rewrite Nat.eqb_refl. destruct (Nat.eqb_spec ra rb); [lia|reflexivity].
Qed.
Lemma joins_same V P P' ds : (forall x y, linked P x y <-> linked P' x y) -> joins V P ds -> joins V P' ds.
Proof. intros H [U [D J]]. split; [exact U|]. split; [exact D|]. intros a b r1 r2 Ha Hb R1 R2. rewrite (J a b r1 r2 Ha Hb R1 R2). split; apply path_mono; intros x y; apply H. Qed.
Lemma joins_known V P ds a b r : joins V P ds -> In a V -> In b V -> Root ds a r -> Root ds b r ->
  forall P', (forall x y, linked P' x y <-> linked P x y \/ (x = a /\ y = b) \/ (x = b /\ y = a)) -> joins V P' ds.
Proof.
  intros [U [D J]] Ha Hb Ra Rb P' HP. split; [exact U|]. split; [exact D|]. intros x y r1 r2 Hx Hy R1 R2. rewrite (J x y r1 r2 Hx Hy R1 R2).
  assert (path (linked P) a b) as PAB by (apply (J a b r r); auto). split; [apply path_mono; intros u v H; apply HP; left; exact H|]. intro PT.
  destruct (path_add (linked P) (linked P') a b (fun u v H => proj1 (HP u v) H) x y PT) as [A|[[A B]|[A B]]]; [exact A| |].
  - apply path_trans with a; [exact A|]. apply path_trans with b; [exact PAB|exact B].
  - apply path_trans with b; [exact A|]. apply path_trans with a; [apply path_sym; [apply linked_sym|exact PAB]|exact B].
Qed.

Section Single.
  Variables (s : R) (g : wg).
  Hypothesis OK : graph_ok g.
  Notation V := (vertices g).
  Definition strongb (v1 v2 : nat) : bool := negb ((v2 <? v1) || Rltb (EdgeWeight g v1 v2) s).
  Lemma link_spec v1 : In v1 V -> forall ns P ds, (forall v, In v ns -> In v V) -> joins V P ds ->
    exists ds', link s g v1 ns ds = Some ds' /\ joins V (map (fun v => (v1, v)) (filter (strongb v1) ns) ++ P) ds'.
  Proof.
    intro H1. induction ns as [|v2 ns IH]; intros P ds HN J; cbn [link filter]; [exists ds; split; [reflexivity|exact J]|]. assert (forall v, In v ns -> In v V) as HN' by (intros v Hv; apply HN; right; exact Hv). pose proof (HN v2 (or_introl eq_refl)) as H2.
    unfold strongb at 1. destruct ((v2 <? v1) || Rltb (EdgeWeight g v1 v2) s); cbn [negb]; [apply IH; assumption|].
    destruct (joins_find V P ds v1 J H1) as [c1 [d1 [F1 [J1 [R1 [I1 [_ [Q1 _]]]]]]]]. rewrite F1. destruct (joins_find V P d1 v2 J1 H2) as [c2 [d2 [F2 [J2 [R2 [I2 [_ [Q2 _]]]]]]]]. rewrite F2. apply Q2 in R1; [|exact H1].
    cbn [map app].
    assert (forall d3, joins V ((v1, v2) :: P) d3 -> exists ds', link s g v1 ns d3 = Some ds' /\ joins V ((v1, v2) :: map (fun v => (v1, v)) (filter (strongb v1) ns) ++ P) ds') as K.
    { intros d3 J3. destruct (IH ((v1, v2) :: P) d3 HN' J3) as [ds' [E J']]. exists ds'. split; [exact E|]. eapply joins_same; [|exact J']. intros x y. unfold linked. cbn [In]. rewrite !in_app_iff. cbn [In]. tauto. }
    assert (forall x y, linked ((v1, v2) :: P) x y <-> linked P x y \/ (x = v1 /\ y = v2) \/ (x = v2 /\ y = v1)) as LP.
    { intros x y. unfold linked. cbn [In]. split; [intros [[E|E]|[E|E]]; try (injection E as -> ->); auto|intros [[E|E]|[[-> ->]|[-> ->]]]; auto]. }
    destruct (Nat.eqb_spec c1 c2) as [->|NE]; [|destruct (Nat.ltb_spec c1 c2) as [L|L]]; apply K.
    - exact (joins_known V P d2 v1 v2 c2 J2 H1 H2 R1 R2 _ LP).
    - exact (joins_union V P d2 v1 v2 c1 c2 J2 H1 H2 R1 R2 I1 I2 L _ LP).
    - apply (joins_union V P d2 v2 v1 c2 c1 J2 H2 H1 R2 R1 I2 I1 ltac:(lia)). intros x y. rewrite LP. tauto.
  Qed.
  Lemma link_all_spec : forall vs P ds, (forall v, In v vs -> In v V) -> joins V P ds ->
    exists ds' P', link_all s g vs ds = Some ds' /\ joins V P' ds' /\ forall a b, In (a, b) P' <-> In (a, b) P \/ (In a vs /\ In b (Neighbors g a) /\ strongb a b = true).
  Proof.
    induction vs as [|v vs IH]; intros P ds HV J; cbn [link_all]; [exists ds, P; split; [reflexivity|]; split; [exact J|]; intros a b; cbn [In]; tauto|].
    destruct (link_spec v (HV v (or_introl eq_refl)) (Neighbors g v) P ds) as [d1 [E1 J1]]; [intros u Hu; exact (proj2 (ok_in g OK v u Hu))|exact J|]. rewrite E1.
    destruct (IH _ d1 ltac:(intros u Hu; apply HV; right; exact Hu) J1) as [d2 [P' [E2 [J2 HP]]]]. exists d2, P'. split; [exact E2|]. split; [exact J2|]. intros a b. rewrite HP, in_app_iff, in_map_iff. cbn [In]. split.
    - intros [[[u [E Hu]]|H]|[H1 H2]]; [injection E as <- <-; apply filter_In in Hu; tauto|auto|tauto].
    - intros [H|[[<-|H] [H1 H2]]]; [tauto|left; left; exists b; split; [reflexivity|apply filter_In; auto]|tauto].
  Qed.
  Lemma init_spec : joins V [] (fold_left (fun m v => fput m v (Some v)) V (fun _ => None)).
  Proof.
    assert (forall vs (m : fmap nat) x, fold_left (fun m v => fput m v (Some v)) vs m x = if in_dec Nat.eq_dec x vs then Some x else m x) as E.
    { induction vs as [|v vs IH]; intros m x; cbn [fold_left]; [destruct (in_dec Nat.eq_dec x []) as [[]|]; reflexivity|]. rewrite IH. destruct (in_dec Nat.eq_dec x vs) as [H|H]; destruct (in_dec Nat.eq_dec x (v :: vs)) as [H'|H']; try reflexivity.
      - exfalso. apply H'. right. exact H.
      - destruct H' as [->|H']; [apply fput_same|contradiction].
      - apply fput_other. intros ->. apply H'. left. reflexivity. }
    split; [|split].
    - intros v Hv. rewrite E. destruct (in_dec Nat.eq_dec v V); [|contradiction]. exists v. auto.
    - intros v Hv. rewrite E. destruct (in_dec Nat.eq_dec v V); [contradiction|reflexivity].
    - intros a b r1 r2 Ha Hb R1 R2.
      assert (forall v r, In v V -> Root (fold_left (fun m v => fput m v (Some v)) V (fun _ => None)) v r -> v = r) as RI.
      { intros v r Hv R. symmetry. refine (root_fun _ v r R v _). constructor. rewrite E. destruct (in_dec Nat.eq_dec v V); [reflexivity|contradiction]. }
      apply RI in R1; [|exact Ha]. apply RI in R2; [|exact Hb]. subst. split; [intros ->; constructor|]. intro P. destruct P as [|a b c [[]|[]] _]. reflexivity.
  Qed.
  Lemma settle_spec P : forall ms ds n, (forall v, In v ms -> In v V) -> joins V P ds -> exists ds',
    settle ms ds n = Some (n + length (filter (fun v => match ds' v with Some c => v =? c | None => false end) ms), ds') /\ joins V P ds' /\
    (forall v, In v ms -> exists r, ds' v = Some r /\ Root ds' v r) /\ (forall x y, In x V -> Root ds x y <-> Root ds' x y) /\
    (forall x r, In x V -> ds x = Some r -> Root ds x r -> ds' x = Some r).
  Proof.
    induction ms as [|v ms IH]; intros ds n HM J; cbn [settle]; [exists ds; split; [cbn; rewrite Nat.add_0_r; reflexivity|]; split; [exact J|]; split; [intros v []|]; split; [tauto|auto]|].
    pose proof (HM v (or_introl eq_refl)) as HV. destruct (joins_find V P ds v J HV) as [c [d1 [F [J1 [R1 [I1 [S1 [Q1 C1]]]]]]]]. rewrite F.
    destruct (compress V d1 v c (proj1 J1) HV R1) as [U2 Q2].
    assert (joins V P (fput d1 v (Some c))) as J2.
    { split; [exact U2|]. split; [intros x Hx; rewrite fput_other by (intros ->; contradiction); apply (proj1 (proj2 J1)); exact Hx|]. intros a b r1 r2 Ha Hb Ra Rb. apply (proj2 (proj2 J1) a b r1 r2 Ha Hb); apply Q2; assumption. }
    assert (forall x r, In x V -> ds x = Some r -> Root ds x r -> fput d1 v (Some c) x = Some r) as KEEP.
    { intros x r Hx E R. destruct (Nat.eq_dec x v) as [->|N].
      - rewrite fput_same. f_equal. apply (root_fun d1 v); [exact R1|apply Q1; assumption].
      - rewrite fput_other by exact N. destruct (C1 x) as [E'|[E' R']]; [congruence|]. rewrite E'. f_equal. exact (root_fun ds x c R' r R). }
    destruct (IH (fput d1 v (Some c)) (if v =? c then n + 1 else n) ltac:(intros u Hu; apply HM; right; exact Hu) J2) as [ds' [E [J' [M [Q K]]]]].
    assert (Root (fput d1 v (Some c)) v c) as RV by (apply Q2; assumption).
    assert (ds' v = Some c) as DV by (apply K; [exact HV|apply fput_same|exact RV]).
    exists ds'. split; [|split; [exact J'|split; [|split]]].
    - rewrite E. cbn [filter]. rewrite DV. destruct (v =? c); cbn [length]; f_equal; f_equal; lia.
    - intros u [<-|Hu]; [exists c; split; [exact DV|apply Q; assumption]|apply M; exact Hu].
    - intros x y Hx. rewrite (Q1 x y Hx), (Q2 x y Hx). apply Q. exact Hx.
    - intros x r Hx Ex Rx. apply K; [exact Hx|apply KEEP; assumption|]. apply Q2; [exact Hx|]. apply Q1; assumption.
  Qed.
  Lemma strong_sym a b : strong s g a b -> strong s g b a.
  Proof. intros [A B]. split; [apply (ok_sym g OK); exact A|rewrite edge_weight_sym; exact B]. Qed.
  Lemma path_in a b : In a V -> path (strong s g) a b -> In b V.
  Proof. intros Ha P. induction P as [a|a b c [E _] P IH]; [exact Ha|]. apply IH. exact (proj2 (ok_in g OK a b E)). Qed.
  Lemma single_spec order : (forall l, Permutation (order l) l) -> exists n m, ComputeSingleLinkageClustering s order g = Some (n, m) /\
    (forall v, ~ In v V -> m v = None) /\
    (forall v, In v V -> exists c, m v = Some c /\ path (strong s g) v c /\ forall u, path (strong s g) v u -> c <= u) /\
    (forall a b, In a V -> In b V -> (m a = m b <-> path (strong s g) a b)) /\
    exists reps, NoDup reps /\ length reps = n /\ forall c, In c reps <-> exists v, In v V /\ m v = Some c.
  Proof.
    intro HO. unfold ComputeSingleLinkageClustering. destruct (link_all_spec V [] _ (fun v H => H) init_spec) as [d1 [P [E1 [J1 HP]]]]. rewrite E1.
    assert (forall x y, linked P x y <-> strong s g x y) as LS.
    { assert (forall a b, strongb a b = true <-> a <= b /\ (s <= EdgeWeight g a b)%R) as SB.
      { intros a b. unfold strongb. rewrite negb_true_iff, orb_false_iff, Nat.ltb_ge, Rltb_false. tauto. }
      intros x y. unfold linked. rewrite !HP, !SB. cbn [In]. unfold strong. split.
      - intros [[[]|[A [B [C D]]]]|[[]|[A [B [C D]]]]]; [auto|]. split; [apply (ok_sym g OK); exact B|rewrite edge_weight_sym; exact D].
      - intros [A B]. destruct (ok_in g OK x y A) as [VX VY]. destruct (Nat.le_ge_cases x y) as [L|L]; [left; right; auto|right; right]. split; [exact VY|]. split; [apply (ok_sym g OK); exact A|]. split; [exact L|rewrite edge_weight_sym; exact B]. }
    assert (forall x y, path (linked P) x y <-> path (strong s g) x y) as PS by (intros x y; split; apply path_mono; intros u v; apply LS).
    destruct (settle_spec P (order V) d1 0) as [m [E2 [[U [D J]] [M _]]]]; [intros v Hv; apply (Permutation_in _ (HO V)); exact Hv|exact J1|]. rewrite E2.
    assert (forall v, In v V -> exists r, m v = Some r /\ Root m v r) as MV by (intros v Hv; apply M; apply (Permutation_in _ (Permutation_sym (HO V))); exact Hv).
    eexists _, m. split; [reflexivity|]. split; [exact D|].
    assert (forall v, In v V -> exists c, m v = Some c /\ In c V /\ m c = Some c /\ path (strong s g) v c /\ forall u, path (strong s g) v u -> c <= u) as CL.
    { intros v Hv. destruct (MV v Hv) as [r [Er Rr]]. exists r. destruct (root_ex V m U v Hv) as [r' [R' [L' I']]]. pose proof (root_fun _ _ _ Rr r' R') as <-. pose proof (root_self _ _ _ Rr) as SR. split; [exact Er|]. split; [exact I'|]. split; [exact SR|]. split.
      - apply PS. apply (J v r r r Hv I' Rr (root_here m r SR)). reflexivity.
      - intros u PU. pose proof (path_in v u Hv PU) as HU. destruct (root_ex V m U u HU) as [ru [Ru [Lu _]]]. apply PS in PU. apply (J v u r ru Hv HU Rr Ru) in PU. subst ru. exact Lu. }
    split; [intros v Hv; destruct (CL v Hv) as [c [A [_ [_ B]]]]; exists c; auto|]. split.
    - intros a b Ha Hb. destruct (MV a Ha) as [ra [Ea Ra]]. destruct (MV b Hb) as [rb [Eb Rb]]. rewrite <- PS, <- (J a b ra rb Ha Hb Ra Rb), Ea, Eb. split; congruence.
    - exists (filter (fun v => match m v with Some c => v =? c | None => false end) (order V)). split; [apply NoDup_filter; apply (Permutation_NoDup (Permutation_sym (HO V))); apply (ok_vertices g OK)|]. split; [reflexivity|]. intro c. rewrite filter_In. split.
      + intros [Hc E]. exists c. split; [apply (Permutation_in _ (HO V)); exact Hc|]. destruct (m c) as [c'|]; [|discriminate E]. apply Nat.eqb_eq in E. congruence.
      + intros [v [Hv E]]. destruct (CL v Hv) as [c' [A [B [C _]]]]. assert (c' = c) as -> by congruence. split; [apply (Permutation_in _ (Permutation_sym (HO V))); exact B|]. rewrite C. apply Nat.eqb_refl.
  Qed.
End Single.
