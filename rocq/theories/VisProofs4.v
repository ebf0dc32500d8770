(* Proofs for C71: the clusters of the cameras. *)
From Coq Require Import Reals List Arith Bool Lia Lra Permutation.
From Verif Require Import GraphModel GraphProofs ForestModel ForestSpec ForestProofs VisModel VisSpec VisProofs VisProofs2 VisProofs3.
Import ListNotations.
Open Scope nat_scope.

Definition indexed (K : list nat) (index : fmap nat) (used : nat) : Prop :=
  NoDup K /\ length K = used /\ (forall x, In x K <-> exists i, index x = Some i) /\ (forall x i, index x = Some i -> i < used) /\ forall x y i, index x = Some i -> index y = Some i -> x = y.
Lemma flatten_spec n U : NoDup U -> length U <= n -> 0 < n -> forall entries K index used membership,
  indexed K index used -> incl K U -> (forall e, In e entries -> fst e < length membership /\ In (effective n e) U) -> NoDup (map fst entries) ->
  exists membership' index' used', flatten n entries index used membership = Some membership' /\ length membership' = length membership /\
    (exists K', indexed K' index' used' /\ incl K' U) /\ (forall x i, index x = Some i -> index' x = Some i) /\
    (forall e, In e entries -> nth (fst e) membership' None = index' (effective n e) /\ index' (effective n e) <> None) /\
    (forall c, ~ In c (map fst entries) -> nth c membership' None = nth c membership None).
Proof.
  intros NU LU NZ. induction entries as [|[camera id] entries IH]; intros K index used membership IX KU HE ND; cbn [flatten].
  - exists membership, index, used. split; [reflexivity|]. split; [reflexivity|]. split; [exists K; auto|]. split; [auto|]. split; [intros e []|auto].
  - destruct (Nat.eqb_spec n 0) as [|_]; [lia|]. destruct (HE _ (or_introl eq_refl)) as [HC HU]. cbn [fst] in HC. unfold effective in HU. cbn [fst snd] in HU.
    set (cluster := match id with None => camera mod n | Some c => c end) in *. destruct IX as [I1 [I2 [I3 [I4 I5]]]].
    assert (used <= length U) as LUS by (rewrite <- I2; apply NoDup_incl_length; assumption).
    cbn [map fst] in ND. inversion_clear ND as [|? ? N1 N2].
    assert (exists i index' used' K', (let i := match index cluster with Some i => i | None => used end in
      let '(index', used') := if i =? used then (fput index cluster (Some i), match index cluster with Some _ => used | None => used + 1 end) else (index, used) in (i, index', used')) = (i, index', used') /\
      i < n /\ indexed K' index' used' /\ incl K' U /\ index' cluster = Some i /\ forall x j, index x = Some j -> index' x = Some j) as [i [index' [used' [K' [E [Li [IX' [KU' [EI EX]]]]]]]]].
    { cbv zeta. destruct (index cluster) as [i|] eqn:EC.
      - pose proof (I4 _ _ EC). exists i, index, used, K. destruct (Nat.eqb_spec i used); [lia|]. split; [reflexivity|]. split; [lia|]. split; [exact (conj I1 (conj I2 (conj I3 (conj I4 I5))))|]. auto.
      - exists used, (fput index cluster (Some used)), (used + 1), (cluster :: K). rewrite Nat.eqb_refl. split; [reflexivity|].
        assert (~ In cluster K) as NK by (intro H; apply I3 in H; destruct H as [i H]; congruence).
        assert (incl (cluster :: K) U) as KU' by (intros x [<-|Hx]; [exact HU|apply KU; exact Hx]).
        assert (NoDup (cluster :: K)) as NK' by (constructor; assumption).
        split; [pose proof (NoDup_incl_length NK' KU') as L; cbn [length] in L; lia|]. split; [|split; [exact KU'|split; [apply fput_same|]]].
        + split; [exact NK'|]. split; [cbn [length]; lia|]. split; [|split].
          * intro x. cbn [In]. destruct (Nat.eq_dec x cluster) as [->|N]; [rewrite fput_same; split; eauto|]. rewrite fput_other by exact N. rewrite <- I3. intuition congruence.
          * intros x j. destruct (Nat.eq_dec x cluster) as [->|N]; [rewrite fput_same; intro H; injection H as <-; lia|]. rewrite fput_other by exact N. intro H. pose proof (I4 _ _ H). lia.
          * intros x y j. destruct (Nat.eq_dec x cluster) as [->|N]; destruct (Nat.eq_dec y cluster) as [->|M]; rewrite ?fput_same, ?fput_other by assumption; [reflexivity| | |apply I5]; intros A B; [injection A as <-; pose proof (I4 _ _ B)|injection B as <-; pose proof (I4 _ _ A)]; lia.
        + intros x j H. rewrite fput_other; [exact H|]. intros ->. congruence. }
    cbv zeta in E |- *. destruct (if _ =? used then _ else _) as [ix us] in E |- *. injection E as E1 E2 E3. rewrite E1. subst ix us.
    destruct (Nat.ltb_spec i n); [|lia]. destruct (Nat.ltb_spec camera (length membership)); [|lia]. cbn [andb].
    destruct (IH K' index' used' (update membership camera (fun _ => Some i)) IX' KU') as [m' [ix' [us' [F1 [F2 [F3 [F4 [F5 F6]]]]]]]].
    { intros e He. rewrite update_length. apply HE. right. exact He. }
    { exact N2. }
    exists m', ix', us'. split; [exact F1|]. split; [rewrite F2; apply update_length|]. split; [exact F3|]. split; [intros x j H'; apply F4, EX; exact H'|]. split.
    + intros e [<-|He]; [|apply F5; exact He]. cbn [fst]. unfold effective. cbn [fst snd]. fold cluster. rewrite (F4 _ _ EI). split; [|discriminate]. rewrite (F6 camera N1). rewrite nth_update, Nat.eqb_refl. destruct (Nat.ltb_spec camera (length membership)); [reflexivity|lia].
    + intros c Hc. cbn [map fst In] in Hc. rewrite F6 by tauto. rewrite nth_update. destruct (Nat.eqb_spec c camera) as [->|]; [tauto|reflexivity].
Qed.

Lemma repeat_none n c : nth c (repeat (@None nat) n) None = None. Proof. revert c. induction n as [|n IH]; intros [|c]; cbn; auto. Qed.
Lemma map_fst_entries (f : nat -> option nat) l : map fst (map (fun v => (v, f v)) l) = l.
Proof. rewrite map_map. apply map_id. Qed.
Lemma flatten_all num_blocks n U (id : nat -> option nat) cameras : NoDup U -> length U <= n -> 0 < n -> NoDup cameras -> (forall v, In v cameras <-> v < num_blocks) -> (forall v, v < num_blocks -> In (effective n (v, id v)) U) ->
  exists membership, FlattenMembershipMap num_blocks n (map (fun v => (v, id v)) cameras) = Some membership /\ length membership = num_blocks /\ (forall v, v < num_blocks -> exists k, nth v membership None = Some k /\ k < n) /\ (forall a b, a < num_blocks -> b < num_blocks -> (nth a membership None = nth b membership None <-> effective n (a, id a) = effective n (b, id b))) /\ ((forall u, In u U -> exists v, v < num_blocks /\ effective n (v, id v) = u) -> forall k, k < length U -> exists v, v < num_blocks /\ nth v membership None = Some k).
Proof.
  intros NU LU NZ NC HC HU. unfold FlattenMembershipMap.
  destruct (flatten_spec n U NU LU NZ (map (fun v => (v, id v)) cameras) [] (fun _ => None) 0 (repeat None num_blocks)) as [m [ix [us [E [L [[K [[I1 [I2 [I3 [I4 I5]]]] KU]] [_ [F _]]]]]]]].
  { split; [constructor|]. split; [reflexivity|]. split; [intro x; split; [intros []|intros [i H]; discriminate H]|]. split; [intros x i H; discriminate H|intros x y i H; discriminate H]. }
  { intros x []. }
  { intros e He. apply in_map_iff in He. destruct He as [v [<- Hv]]. apply HC in Hv. cbn [fst]. rewrite repeat_length. split; [exact Hv|apply HU; exact Hv]. }
  { rewrite map_fst_entries. exact NC. }
  assert (us <= length U) as LUS by (rewrite <- I2; apply NoDup_incl_length; assumption).
  assert (forall v, v < num_blocks -> nth v m None = ix (effective n (v, id v)) /\ ix (effective n (v, id v)) <> None) as F'.
  { intros v Hv. apply (F (v, id v)). apply in_map_iff. exists v. split; [reflexivity|apply HC; exact Hv]. }
  exists m. split; [exact E|]. split; [rewrite L; apply repeat_length|]. split; [|split].
  - intros v Hv. destruct (F' v Hv) as [A B]. rewrite A. destruct (ix (effective n (v, id v))) as [k|] eqn:EK; [|congruence]. exists k. split; [reflexivity|]. pose proof (I4 _ _ EK). lia.
  - intros a b Ha Hb. destruct (F' a Ha) as [A1 A2]. destruct (F' b Hb) as [B1 B2]. rewrite A1, B1. split; [|intros ->; reflexivity]. intro EQ. destruct (ix (effective n (a, id a))) as [k|] eqn:EK; [|congruence]. apply (I5 _ _ k); [exact EK|symmetry; exact EQ].
  - intros ON k Hk.
    assert (incl U K) as UK by (intros u Hu; destruct (ON u Hu) as [v [Hv <-]]; apply I3; destruct (F' v Hv) as [_ N]; destruct (ix (effective n (v, id v))) as [j|]; [exists j; reflexivity|congruence]).
    pose proof (NoDup_incl_length NU UK) as LK. assert (length K = length U) as LE by lia.
    set (val := fun x => match ix x with Some i => i | None => 0 end).
    assert (NoDup (map val K)) as NM.
    { clear - I1 I3 I5. assert (forall l, incl l K -> NoDup l -> NoDup (map val l)) as H; [|apply H; [intros x; auto|exact I1]]. induction l as [|x l IH]; intros HI ND; cbn [map]; [constructor|]. inversion_clear ND as [|? ? N1 N2]. constructor; [|apply IH; [intros y Hy; apply HI; right; exact Hy|exact N2]]. intro H. apply in_map_iff in H. destruct H as [y [EY HY]]. destruct (proj1 (I3 x) (HI x (or_introl eq_refl))) as [i Ei]. destruct (proj1 (I3 y) (HI y (or_intror HY))) as [j Ej]. unfold val in EY. rewrite Ei, Ej in EY. subst j. pose proof (I5 _ _ _ Ei Ej) as ->. contradiction. }
    assert (incl (map val K) (seq 0 us)) as IM by (intros j Hj; apply in_map_iff in Hj; destruct Hj as [x [<- Hx]]; apply I3 in Hx; destruct Hx as [i Ei]; unfold val; rewrite Ei; apply in_seq; pose proof (I4 _ _ Ei); lia).
    assert (length (seq 0 us) <= length (map val K)) as LL by (rewrite map_length, seq_length, I2; apply le_n). pose proof (NoDup_length_incl NM LL IM) as SU. assert (In k (map val K)) as HK by (apply SU, in_seq; lia). apply in_map_iff in HK. destruct HK as [x [EX HX]]. destruct (ON x (KU x HX)) as [v [Hv EV]]. exists v. split; [exact Hv|]. rewrite (proj1 (F' v Hv)), EV. apply I3 in HX. destruct HX as [i Ei]. unfold val in EX. rewrite Ei in EX |- *. congruence.
Qed.

(* the whole: ClusterCameras *)
Lemma cluster_single lowest order1 order2 order3 vis : vis <> [] -> all_increasing vis -> (forall l, Permutation (order1 l) l) -> (forall l, Permutation (order2 l) l) -> (forall l, Permutation (order3 l) l) ->
  exists n membership, ClusterCameras true lowest order1 order2 order3 vis = Some (n, membership) /\ length membership = length vis /\ (forall v, v < length vis -> exists k, nth v membership None = Some k /\ k < n) /\ (forall k, k < n -> exists v, v < length vis /\ nth v membership None = Some k) /\ forall a b, a < length vis -> b < length vis -> (nth a membership None = nth b membership None <-> path (near vis) a b).
Proof.
  intros NE AI H1 H2 H3. unfold ClusterCameras. destruct (schur_graph_spec order1 vis AI H1) as [g [E [OK [VI [_ [NB [EW1 EW2]]]]]]]. rewrite E.
  destruct (single_spec (9 / 10) g OK order2 H2) as [n [m [E2 [_ [MC [MP [reps [R1 [R2 R3]]]]]]]]]. rewrite E2.
  assert (forall a b, strong (9 / 10) g a b <-> near vis a b) as SN.
  { intros a b. unfold strong, near. rewrite NB. split.
    - intros [[A [B [->|C]]] D]; [auto|]. split; [exact A|]. split; [exact B|]. destruct (Nat.eq_dec a b) as [->|N]; [auto|]. right. split; [exact C|]. rewrite <- EW2 by assumption. exact D.
    - intros [A [B [->|[C D]]]]; [rewrite EW1 by exact B; split; [auto|lra]|]. split; [auto|]. destruct (Nat.eq_dec a b) as [->|N]; [rewrite EW1 by exact B; lra|rewrite EW2 by assumption; exact D]. }
  assert (forall a b, path (strong (9 / 10) g) a b <-> path (near vis) a b) as PN by (intros a b; split; apply path_mono; intros x y; apply SN).
  assert (0 < length vis) as LP by (destruct vis; [congruence|cbn; lia]).
  assert (0 < n) as NZ. { destruct (MC 0 ltac:(apply VI; exact LP)) as [c [EC _]]. assert (In c reps) as HI by (apply R3; exists 0; split; [apply VI; exact LP|exact EC]). rewrite <- R2. destruct reps; [destruct HI|cbn; lia]. }
  destruct (Nat.eqb_spec n 0); [lia|].
  assert (forall v, v < length vis -> m v <> None) as MS by (intros v Hv; apply VI in Hv; destruct (MC v Hv) as [c [-> _]]; discriminate).
  assert (forall v c, m v = Some c -> effective n (v, m v) = c) as EF by (intros v c EV; unfold effective; cbn [snd]; rewrite EV; reflexivity).
  destruct (flatten_all (length vis) n reps m (order3 (vertices g)) R1 ltac:(lia) NZ) as [mem [F1 [F2 [F3 [F4 F5]]]]].
  { apply (Permutation_NoDup (Permutation_sym (H3 _))). apply (ok_vertices g OK). }
  { intro v. rewrite <- VI. split; apply Permutation_in; [apply H3|apply Permutation_sym, H3]. }
  { intros v Hv. apply VI in Hv. destruct (MC v Hv) as [c [EC _]]. rewrite (EF v c EC). apply R3. exists v. auto. }
  rewrite F1. exists n, mem. split; [reflexivity|]. split; [exact F2|]. split; [exact F3|]. split.
  - intros k Hk. apply F5; [|lia]. intros u Hu. apply R3 in Hu. destruct Hu as [v [Hv EV]]. exists v. split; [apply VI; exact Hv|apply EF; exact EV].
  - intros a b Ha Hb. rewrite (F4 a b Ha Hb), <- PN, <- (MP a b) by (apply VI; assumption). apply VI in Ha, Hb. destruct (MC a Ha) as [ca [EA _]]. destruct (MC b Hb) as [cb [EB _]]. rewrite (EF a ca EA), (EF b cb EB), EA, EB. split; congruence.
Qed.
Lemma nearest_le g C c v : (nearest g C v <= nearest g (C ++ [c]) v)%R. Proof. rewrite nearest_snoc. apply Rmax_l. Qed.
Lemma total_le {A} (f h : A -> R) : forall l, (forall x, f x <= h x)%R -> (total l f <= total l h)%R.
Proof. intros l H. induction l as [|x l IH]; cbn [total]; [lra|]. pose proof (H x). lra. Qed.
Lemma cluster_canonical lowest order1 order2 order3 vis : (lowest < -3)%R -> vis <> [] -> all_increasing vis -> (forall l, Permutation (order1 l) l) -> (forall l, Permutation (order2 l) l) -> (forall l, Permutation (order3 l) l) ->
  exists g C m membership, ClusterCameras false lowest order1 order2 order3 vis = Some (length C, membership) /\ CreateSchurComplementGraph order1 vis = Some g /\ ComputeCanonicalViewsClustering (mkoptions 3 3 0 0) g lowest order2 = Some (C, m) /\ Nat.min 3 (length vis) <= length C /\ length membership = length vis /\ (forall v, v < length vis -> exists k, nth v membership None = Some k /\ k < length C) /\ forall a b ia ib, a < length vis -> b < length vis -> m a = Some ia -> m b = Some ib ->
      (nth a membership None = nth b membership None <-> effective (length C) (a, ia) = effective (length C) (b, ib)).
Proof.
  intros LO NE AI H1 H2 H3. unfold ClusterCameras. destruct (schur_graph_spec order1 vis AI H1) as [g [E [OK [VI [VW [NB [EW1 EW2]]]]]]]. rewrite E.
  destruct (canonical_spec (mkoptions 3 3 0 0) g lowest OK) with (order := order2) as [C [m [E2 [NC [IC [MV [_ [_ M]]]]]]]]; [intros v Hv; rewrite VW by (apply VI; exact Hv); discriminate| |exact H2|].
  { intros C u _ _ _. unfold objective. cbn [size_penalty_weight similarity_penalty_weight view_score_weight]. rewrite app_length. cbn [length]. rewrite plus_INR. cbn [INR]. pose proof (total_le (nearest g C) (nearest g (C ++ [u])) (vertices g) (nearest_le g C u)). lra. }
  rewrite E2. cbn [min_views] in MV.
  assert (0 < length vis) as LP by (destruct vis; [congruence|cbn; lia]).
  assert (length (vertices g) = length vis) as LV.
  { rewrite <- (seq_length (length vis) 0). apply Permutation_length. apply NoDup_Permutation; [apply (ok_vertices g OK)|apply seq_NoDup|]. intro v. rewrite VI, in_seq. lia. }
  rewrite LV in MV. assert (0 < length C) as NZ by lia. destruct (Nat.eqb_spec (length C) 0); [lia|].
  set (id := fun v => match m v with Some i => i | None => None end).
  destruct (flatten_all (length vis) (length C) (seq 0 (length C)) id (order3 (vertices g)) (seq_NoDup _ _) ltac:(rewrite seq_length; lia) NZ) as [mem [F1 [F2 [F3 [F4 _]]]]].
  { apply (Permutation_NoDup (Permutation_sym (H3 _))). apply (ok_vertices g OK). }
  { intro v. rewrite <- VI. split; apply Permutation_in; [apply H3|apply Permutation_sym, H3]. }
  { intros v Hv. apply VI in Hv. destruct (M v Hv) as [i [EI MI]]. apply in_seq. unfold effective, id. cbn [fst snd]. rewrite EI. destruct i as [k|]; [|pose proof (Nat.mod_upper_bound v (length C)); lia]. destruct MI as [c [NK _]]. assert (k < length C) by (apply nth_error_Some; congruence). lia. }
  unfold id in F1. rewrite F1. fold id in F1. exists g, C, m, mem. split; [reflexivity|]. split; [reflexivity|]. split; [exact E2|]. split; [lia|]. split; [exact F2|]. split; [exact F3|].
  intros a b ia ib Ha Hb EA EB. rewrite (F4 a b Ha Hb). unfold id. rewrite EA, EB. reflexivity.
Qed.
