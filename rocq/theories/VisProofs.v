(* Proofs for C71: visibility and the Schur complement graph. *)
From Coq Require Import Reals List Arith Bool Lia Lra Permutation.
From Verif Require Import GraphModel GraphProofs ForestModel ForestSpec VisModel VisSpec.
Import ListNotations.
Open Scope nat_scope.

(* ---- sets and vectors *)
Lemma sinsert_in x l y : In y (sinsert x l) <-> y = x \/ In y l.
Proof.
  induction l as [|z l IH]; cbn [sinsert]; [cbn; intuition|]. destruct (Nat.ltb_spec x z); [cbn; intuition|]. destruct (Nat.eqb_spec x z) as [->|]; [cbn; intuition|]. cbn [In]. rewrite IH. intuition.
Qed.
Lemma sinsert_inc x l : increasing l -> increasing (sinsert x l).
Proof.
  induction l as [|z l IH]; cbn [sinsert increasing]; [intros _; split; [intros y []|exact I]|]. intros [H1 H2]. destruct (Nat.ltb_spec x z) as [L|L].
  - cbn [increasing]. split; [|split; assumption]. intros y [<-|Hy]; [exact L|]. specialize (H1 y Hy). lia.
  - destruct (Nat.eqb_spec x z) as [->|N]; [split; assumption|]. cbn [increasing]. split; [|apply IH; exact H2]. intros y Hy. apply sinsert_in in Hy. destruct Hy as [->|Hy]; [lia|apply H1; exact Hy].
Qed.
Lemma increasing_nodup l : increasing l -> NoDup l.
Proof. induction l as [|x l IH]; [constructor|]. intros [H1 H2]. constructor; [|apply IH; exact H2]. intro H. specialize (H1 x H). lia. Qed.
Lemma increasing_last l d : increasing l -> forall x, In x l -> x <= last l d.
Proof.
  induction l as [|y l IH]; [intros _ x []|]. intros [H1 H2] x Hx. destruct l as [|z l]; [destruct Hx as [<-|[]]; apply le_n|]. change (last (y :: z :: l) d) with (last (z :: l) d). destruct Hx as [<-|Hx]; [|apply IH; assumption]. specialize (IH H2 z (or_introl eq_refl)). specialize (H1 z (or_introl eq_refl)). lia.
Qed.
Lemma update_length {A} (l : list A) i f : length (update l i f) = length l.
Proof. revert i. induction l as [|x l IH]; intros [|i]; cbn; auto. Qed.
Lemma nth_update {A} (l : list A) i j f d : nth i (update l j f) d = if (i =? j) && (j <? length l) then f (nth i l d) else nth i l d.
Proof.
  revert i j. induction l as [|x l IH]; intros i j; cbn [update].
  - replace (j <? length (@nil A)) with false by (symmetry; apply Nat.ltb_ge; cbn; lia). rewrite andb_false_r. reflexivity.
  - destruct j as [|j]; destruct i as [|i]; cbn [nth length]; try reflexivity. rewrite IH. replace (S i =? S j) with (i =? j) by reflexivity. replace (S j <? S (length l)) with (j <? length l) by reflexivity. reflexivity.
Qed.
Lemma nth_nil_repeat n i : nth i (repeat (@nil nat) n) [] = [].
Proof. revert i. induction n as [|n IH]; intros [|i]; cbn; auto. Qed.

(* ---- ComputeVisibility *)
Lemma see_spec E b : forall cells vis, (forall c, In c cells -> E <= c /\ c - E < length vis) -> exists vis', see E b cells vis = Some vis' /\ length vis' = length vis /\
  (all_increasing vis -> all_increasing vis') /\ forall c p, In p (nth c vis' []) <-> In p (nth c vis []) \/ (p = b /\ In (E + c) cells).
Proof.
  induction cells as [|c0 cells IH]; intros vis H; cbn [see].
  - exists vis. split; [reflexivity|]. split; [reflexivity|]. split; [auto|]. intros c p. cbn [In]. tauto.
  - destruct (H c0 (or_introl eq_refl)) as [H1 H2]. destruct (Nat.leb_spec E c0); [|lia]. destruct (Nat.ltb_spec (c0 - E) (length vis)); [|lia]. cbn [andb].
    destruct (IH (update vis (c0 - E) (sinsert b))) as [vis' [E1 [E2 [E3 E4]]]]; [intros c Hc; rewrite update_length; apply H; right; exact Hc|]. exists vis'. split; [exact E1|]. split; [rewrite E2; apply update_length|]. split.
    + intro AI. apply E3. intro i. rewrite nth_update. destruct (_ && _); [apply sinsert_inc; apply AI|apply AI].
    + intros c p. rewrite E4, nth_update. cbn [In]. destruct (Nat.eqb_spec c (c0 - E)) as [->|N]; cbn [andb].
      * destruct (Nat.ltb_spec (c0 - E) (length vis)); [|lia]. rewrite sinsert_in. replace (E + (c0 - E)) with c0 by lia. tauto.
      * split; [intros [A|[A B]]; auto|]. intros [A|[A [B|B]]]; auto. lia.
Qed.
Definition rows_ok (num_cols E : nat) (rows : list (list nat)) : Prop :=
  forall r, In r rows -> r <> [] /\ forall p cells, r = p :: cells -> p < E -> forall c, In c cells -> E <= c < num_cols.
Lemma visit_spec E n : forall rows vis, length vis = n - E -> rows_ok n E rows -> exists vis', visit E rows vis = Some vis' /\ length vis' = n - E /\
  (all_increasing vis -> all_increasing vis') /\ forall c p, In p (nth c vis' []) <-> In p (nth c vis []) \/ sees E rows c p.
Proof.
  induction rows as [|r rows IH]; intros vis L H; cbn [visit].
  - exists vis. split; [reflexivity|]. split; [exact L|]. split; [auto|]. intros c p. unfold sees. cbn [In]. firstorder.
  - assert (rows_ok n E rows) as H' by (intros r' Hr'; apply H; right; exact Hr'). destruct (H r (or_introl eq_refl)) as [NE HR]. destruct r as [|b cells]; [contradiction|].
    destruct (Nat.leb_spec E b) as [LE|LE].
    + destruct (IH vis L H') as [vis' [E1 [E2 [E3 E4]]]]. exists vis'. split; [exact E1|]. split; [exact E2|]. split; [exact E3|]. intros c p. rewrite E4. unfold sees. split; [intros [A|[cs [A B]]]; [auto|right; exists cs; split; [right; exact A|exact B]]|].
      intros [A|[cs [[A|A] [B1 B2]]]]; [auto|injection A as -> ->; lia|right; exists cs; auto].
    + destruct (see_spec E b cells vis) as [v1 [S1 [S2 [S3 S4]]]]; [intros c Hc; specialize (HR b cells eq_refl LE c Hc); lia|]. rewrite S1.
      destruct (IH v1 ltac:(lia) H') as [vis' [E1 [E2 [E3 E4]]]]. exists vis'. split; [exact E1|]. split; [exact E2|]. split; [auto|]. intros c p. rewrite E4, S4. unfold sees. split.
      * intros [[A|[-> A]]|[cs [A B]]]; [auto|right; exists cells; split; [left; reflexivity|auto]|right; exists cs; split; [right; exact A|exact B]].
      * intros [A|[cs [[A|A] [B1 B2]]]]; [auto|injection A as -> ->; auto|right; exists cs; auto].
Qed.

(* ---- the inverse *)
Lemma num_points_spec vis : all_increasing vis -> forall c p, In p (nth c vis []) -> p < num_points vis.
Proof.
  unfold num_points. intros AI c p H.
  assert (forall l n, (forall s, In s l -> increasing s) -> n <= fold_left (fun n s => match s with [] => n | _ => Nat.max n (last s 0 + 1) end) l n /\ forall s p, In s l -> In p s -> p < fold_left (fun n s => match s with [] => n | _ => Nat.max n (last s 0 + 1) end) l n) as G.
  { induction l as [|s l IH]; intros n HI; cbn [fold_left]; [split; [apply le_n|intros s p' []]|]. destruct (IH (match s with [] => n | _ => Nat.max n (last s 0 + 1) end) ltac:(intros s' Hs'; apply HI; right; exact Hs')) as [I1 I2]. split.
    - eapply Nat.le_trans; [|exact I1]. destruct s; lia.
    - intros s' p' [<-|Hs'] Hp'; [|apply (I2 s' p' Hs' Hp')]. eapply Nat.lt_le_trans; [|exact I1]. destruct s as [|y s]; [destruct Hp'|]. pose proof (increasing_last (y :: s) 0 (HI _ (or_introl eq_refl)) p' Hp'). lia. }
  destruct (G vis 0) as [_ G2].
  { intros s Hs. destruct (In_nth vis s [] Hs) as [i [_ <-]]. apply AI. }
  destruct (Nat.lt_ge_cases c (length vis)) as [L|L]; [|rewrite nth_overflow in H by exact L; destruct H]. apply (G2 (nth c vis [])); [apply nth_In; exact L|exact H].
Qed.
Lemma invert_one i : forall s inv, (forall v, In v s -> v < length inv) ->
  let inv' := fold_left (fun inv v => update inv v (sinsert i)) s inv in
  length inv' = length inv /\ (all_increasing inv -> all_increasing inv') /\ forall p c, In c (nth p inv' []) <-> In c (nth p inv []) \/ (c = i /\ In p s).
Proof.
  induction s as [|v s IH]; intros inv H; cbn [fold_left]; [split; [reflexivity|]; split; [auto|]; intros p c; cbn [In]; tauto|].
  destruct (IH (update inv v (sinsert i))) as [I1 [I2 I3]]; [intros v' Hv'; rewrite update_length; apply H; right; exact Hv'|]. cbn zeta in *. split; [rewrite I1; apply update_length|]. split.
  - intro AI. apply I2. intro k. rewrite nth_update. destruct (_ && _); [apply sinsert_inc; apply AI|apply AI].
  - intros p c. rewrite I3, nth_update. cbn [In]. specialize (H v (or_introl eq_refl)). destruct (Nat.eqb_spec p v) as [->|N]; cbn [andb].
    + destruct (Nat.ltb_spec v (length inv)); [|lia]. rewrite sinsert_in. tauto.
    + split; [intros [A|[A B]]; auto|intros [A|[A [B|B]]]; auto; congruence].
Qed.
Lemma invert_spec vis : all_increasing vis -> length (invert vis) = num_points vis /\ all_increasing (invert vis) /\
  forall p c, In c (nth p (invert vis) []) <-> c < length vis /\ In p (nth c vis []).
Proof.
  intro AI. unfold invert.
  assert (forall is inv, length inv = num_points vis -> all_increasing inv ->
    let inv' := fold_left (fun inv i => fold_left (fun inv v => update inv v (sinsert i)) (nth i vis []) inv) is inv in
    length inv' = num_points vis /\ all_increasing inv' /\ forall p c, In c (nth p inv' []) <-> In c (nth p inv []) \/ (In c is /\ In p (nth c vis []))) as G.
  { induction is as [|i is IH]; intros inv L A; cbn [fold_left]; [split; [exact L|]; split; [exact A|]; intros p c; cbn [In]; tauto|].
    destruct (invert_one i (nth i vis []) inv) as [I1 [I2 I3]]; [intros v Hv; rewrite L; exact (num_points_spec vis AI i v Hv)|]. cbn zeta in I1, I2, I3.
    destruct (IH _ (eq_trans I1 L) (I2 A)) as [J1 [J2 J3]]. cbn zeta in *. split; [exact J1|]. split; [exact J2|]. intros p c. rewrite J3, I3. cbn [In]. split; [intros [[B|[-> B]]|[B C]]; auto|intros [B|[[<-|B] C]]; auto]. }
  destruct (G (seq 0 (length vis)) (repeat [] (num_points vis)) (repeat_length _ _)) as [G1 [G2 G3]]; [intro i; rewrite nth_nil_repeat; exact I|]. cbn zeta in *. split; [exact G1|]. split; [exact G2|]. intros p c. rewrite G3, nth_nil_repeat, in_seq. cbn [In]. intuition lia.
Qed.

(* ---- counting the pairs *)
Lemma count_map_pair i j c s : NoDup s -> count_occ pair_dec (map (fun c2 => (c, c2)) s) (i, j) = if Nat.eq_dec c i then (if in_dec Nat.eq_dec j s then 1 else 0) else 0.
Proof.
  induction s as [|x s IH]; intro ND; cbn [map count_occ]; [destruct (Nat.eq_dec c i); [destruct (in_dec Nat.eq_dec j []) as [[]|]|]; reflexivity|]. inversion_clear ND as [|? ? N1 N2]. specialize (IH N2). rewrite IH.
  destruct (pair_dec (c, x) (i, j)) as [E|E].
  - injection E as -> ->. destruct (Nat.eq_dec i i); [|congruence]. destruct (in_dec Nat.eq_dec j s); [contradiction|]. destruct (in_dec Nat.eq_dec j (j :: s)) as [|N]; [reflexivity|exfalso; apply N; left; reflexivity].
  - destruct (Nat.eq_dec c i) as [->|]; [|reflexivity]. destruct (in_dec Nat.eq_dec j s) as [H|H]; destruct (in_dec Nat.eq_dec j (x :: s)) as [H'|H']; try reflexivity; exfalso; [apply H'; right; exact H|destruct H' as [<-|H']; [apply E; reflexivity|contradiction]].
Qed.
Lemma count_app {A} (dec : forall x y : A, {x = y} + {x <> y}) l1 l2 x : count_occ dec (l1 ++ l2) x = count_occ dec l1 x + count_occ dec l2 x.
Proof. apply count_occ_app. Qed.
Lemma count_pairs i j s : increasing s -> i < j -> count_occ pair_dec (pairs s) (i, j) = if in_dec Nat.eq_dec i s then (if in_dec Nat.eq_dec j s then 1 else 0) else 0.
Proof.
  intros HI L. induction s as [|c s IH]; cbn [pairs]; [cbn [count_occ]; destruct (in_dec Nat.eq_dec i []) as [[]|]; reflexivity|]. destruct HI as [H1 H2]. specialize (IH H2). rewrite count_app, IH, count_map_pair by (apply increasing_nodup; exact H2).
  destruct (in_dec Nat.eq_dec i (c :: s)) as [A|A]; destruct (in_dec Nat.eq_dec j (c :: s)) as [B|B]; destruct (Nat.eq_dec c i) as [E|E]; destruct (in_dec Nat.eq_dec i s) as [A'|A']; destruct (in_dec Nat.eq_dec j s) as [B'|B']; try reflexivity; exfalso; subst; cbn [In] in *; try (specialize (H1 _ A'); lia); try (specialize (H1 _ B'); lia); try tauto; destruct B as [B|B]; try tauto; subst; try specialize (H1 _ A'); lia.
Qed.
Lemma pairs_in s i j : increasing s -> In (i, j) (pairs s) -> i < j /\ In i s /\ In j s.
Proof.
  induction s as [|c s IH]; cbn [pairs]; [intros _ []|]. intros [H1 H2] H. apply in_app_or in H. destruct H as [H|H].
  - apply in_map_iff in H. destruct H as [x [E Hx]]. injection E as -> ->. split; [apply H1; exact Hx|]. split; [left; reflexivity|right; exact Hx].
  - destruct (IH H2 H) as [A [B C]]. split; [exact A|]. split; right; assumption.
Qed.
Definition both (i j : nat) (s : list nat) : bool := if in_dec Nat.eq_dec i s then (if in_dec Nat.eq_dec j s then true else false) else false.
Lemma count_flat i j : i < j -> forall l, (forall s, In s l -> increasing s) -> count_occ pair_dec (flat_map pairs l) (i, j) = length (filter (both i j) l).
Proof.
  intros L. induction l as [|s l IH]; intro HI; [reflexivity|]. cbn [flat_map filter]. rewrite count_app, IH by (intros s' Hs'; apply HI; right; exact Hs'). rewrite count_pairs by (exact L || (apply HI; left; reflexivity)). unfold both at 2. destruct (in_dec Nat.eq_dec i s); [destruct (in_dec Nat.eq_dec j s)|]; reflexivity.
Qed.
Lemma filter_map_S (g : nat -> bool) s : length (filter g (map S s)) = length (filter (fun i => g (S i)) s).
Proof. induction s as [|i s IH]; [reflexivity|]. cbn [map filter]. destruct (g (S i)); cbn [length]; rewrite IH; reflexivity. Qed.
Lemma filter_nth {A} (f : A -> bool) l d : length (filter f l) = length (filter (fun i => f (nth i l d)) (seq 0 (length l))).
Proof.
  induction l as [|x l IH]; [reflexivity|].
  assert (length (filter (fun i => f (nth i (x :: l) d)) (seq 1 (length l))) = length (filter f l)) as E.
  { rewrite IH, <- seq_shift. apply (filter_map_S (fun i => f (nth i (x :: l) d))). }
  transitivity (length (if f x then 0 :: filter (fun i => f (nth i (x :: l) d)) (seq 1 (length l)) else filter (fun i => f (nth i (x :: l) d)) (seq 1 (length l)))); [|reflexivity].
  cbn [filter]. destruct (f x); cbn [length]; rewrite E; reflexivity.
Qed.
Lemma common_in vis i j p : In p (common vis i j) <-> In p (nth i vis []) /\ In p (nth j vis []).
Proof. unfold common. rewrite filter_In. destruct (in_dec Nat.eq_dec p (nth j vis [])); intuition discriminate. Qed.
Lemma common_nodup vis i j : all_increasing vis -> NoDup (common vis i j).
Proof. intro H. apply NoDup_filter. apply increasing_nodup. apply H. Qed.
Lemma count_common vis i j : all_increasing vis -> i < j -> j < length vis -> count_occ pair_dec (counted vis) (i, j) = length (common vis i j).
Proof.
  intros AI L LJ. destruct (invert_spec vis AI) as [V1 [V2 V3]]. unfold counted. rewrite count_flat; [|exact L|intros s Hs; destruct (In_nth _ _ [] Hs) as [k [_ <-]]; apply V2].
  rewrite (filter_nth _ _ []), V1. apply Permutation_length. apply NoDup_Permutation; [apply NoDup_filter; apply seq_NoDup|apply common_nodup; exact AI|]. intro p. rewrite filter_In, common_in, in_seq. unfold both.
  destruct (in_dec Nat.eq_dec i (nth p (invert vis) [])) as [A|A]; rewrite V3 in A.
  - destruct (in_dec Nat.eq_dec j (nth p (invert vis) [])) as [B|B]; rewrite V3 in B; [|split; [intros [_ X]; discriminate X|intros [A1 A2]; exfalso; apply B; split; [lia|exact A2]]]. pose proof (num_points_spec vis AI i p (proj2 A)). intuition lia.
  - split; [intros [_ X]; discriminate X|intros [A1 A2]; exfalso; apply A; split; [lia|exact A1]].
Qed.
Lemma counted_in vis i j : all_increasing vis -> (In (i, j) (counted vis) <-> i < j /\ j < length vis /\ common vis i j <> []).
Proof.
  intro AI. destruct (invert_spec vis AI) as [V1 [V2 V3]]. split.
  - intro H. assert (i < j /\ j < length vis) as [L1 L2].
    { unfold counted in H. apply in_flat_map in H. destruct H as [s [Hs H]]. destruct (In_nth _ _ [] Hs) as [k [_ <-]]. destruct (pairs_in _ _ _ (V2 k) H) as [A [_ B]]. apply V3 in B. tauto. }
    split; [exact L1|]. split; [exact L2|]. intro E. apply (count_occ_In pair_dec) in H. rewrite (count_common vis i j AI L1 L2), E in H. cbn in H. lia.
  - intros [L1 [L2 H]]. apply (count_occ_In pair_dec). rewrite count_common by assumption. destruct (common vis i j); [contradiction|cbn; lia].
Qed.

(* ---- the graph *)
Lemma add_edge_some a b g : In a (g_v g) -> In b (g_v g) -> exists t, add_edge a b g = Some t.
Proof. intros A B. unfold add_edge. apply mem_in in A, B. rewrite A, B. cbn [negb orb]. destruct (mem b (at_ (g_e g) a)); eauto. Qed.
Definition wok (g : wg) : Prop := GInv (topo g) /\ forall a b, ~ adj (topo g) a b -> EdgeWeight g a b = 0%R.
Lemma add_edge_spec a b x g : wok g -> In a (vertices g) -> In b (vertices g) -> exists g', AddEdge a b x g = Some g' /\ wok g' /\ vertices g' = vertices g /\ vw g' = vw g /\
  (forall c d, In d (Neighbors g' c) <-> (c = a /\ d = b) \/ (c = b /\ d = a) \/ In d (Neighbors g c)) /\
  forall c d, EdgeWeight g' c d = if Nat.eq_dec c a then (if Nat.eq_dec d b then x else if Nat.eq_dec c b then (if Nat.eq_dec d a then x else EdgeWeight g c d) else EdgeWeight g c d)
                                  else if Nat.eq_dec c b then (if Nat.eq_dec d a then x else EdgeWeight g c d) else EdgeWeight g c d.
Proof.
  intros [G Z] A B. unfold AddEdge. destruct (add_edge_some a b (topo g) A B) as [t T]. rewrite T. eexists. split; [reflexivity|]. destruct (ginv_adde a b (topo g) t G T) as [G' VG].
  match goal with |- wok ?g' /\ _ => set (g1 := g') end.
  assert (forall c d, In d (Neighbors g1 c) <-> (c = a /\ d = b) \/ (c = b /\ d = a) \/ In d (Neighbors g c)) as NB by (intros c d; exact (adj_adde a b (topo g) t c d G T)).
  assert (forall c d, EdgeWeight g1 c d = if Nat.eq_dec c a then (if Nat.eq_dec d b then x else if Nat.eq_dec c b then (if Nat.eq_dec d a then x else EdgeWeight g c d) else EdgeWeight g c d)
                                  else if Nat.eq_dec c b then (if Nat.eq_dec d a then x else EdgeWeight g c d) else EdgeWeight g c d) as EW.
  { intros c d. unfold EdgeWeight, g1. cbn [ew]. destruct (Nat.ltb_spec c d) as [L|L]; destruct (Nat.ltb_spec a b) as [L'|L'];
    repeat match goal with |- context [?u =? ?v] => destruct (Nat.eqb_spec u v) end; repeat match goal with |- context [Nat.eq_dec ?u ?v] => destruct (Nat.eq_dec u v) end; cbn [andb]; subst; try reflexivity; exfalso; lia. }
  split; [|split; [exact VG|split; [reflexivity|split; [exact NB|exact EW]]]]. split; [exact G'|]. intros c d N. rewrite EW.
  assert (~ adj (topo g) c d) as N' by (intro H; apply N; apply NB; right; right; exact H). specialize (Z c d N').
  destruct (Nat.eq_dec c a) as [->|]; [destruct (Nat.eq_dec d b) as [->|]; [exfalso; apply N; apply NB; left; auto|]|]; (destruct (Nat.eq_dec _ b) as [E|]; [destruct (Nat.eq_dec d a) as [->|]; [exfalso; apply N; apply NB; subst; tauto|]|]); exact Z.
Qed.
Lemma wok_ok g : wok g -> graph_ok g.
Proof.
  intros [G Z]. split.
  - apply (gi_nodup _ G).
  - intro v. apply (gi_set _ G).
  - intros a b H. split; [exact (vert_l (topo g) a b G H)|exact (gi_vert _ G a b H)].
  - intros a b H. exact (gi_sym _ G a b H).
  - exact Z.
Qed.
Lemma wok_empty : wok empty. Proof. split; [exact ginv_empty|]. intros a b _. unfold EdgeWeight, empty. cbn [ew]. destruct (a <? b); reflexivity. Qed.
Lemma wok_add_vertex v x g : wok g -> wok (AddVertex v x g).
Proof. intros [G Z]. split; [exact (ginv_addv v (topo g) G)|]. intros a b N. apply (Z a b). intro H. apply N. apply (adj_addv v (topo g) a b G). exact H. Qed.
Lemma vertices_add v x g u : In u (vertices (AddVertex v x g)) <-> u = v \/ In u (vertices g).
Proof. unfold vertices, AddVertex. cbn [topo]. unfold add_vertex. destruct (mem v (g_v (topo g))) eqn:M; cbn [g_v In]; [apply mem_in in M; split; [auto|intros [->|H]; assumption]|intuition]. Qed.
