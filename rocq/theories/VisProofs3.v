(* Proofs for C71: canonical views clustering. *)
From Coq Require Import Reals List Arith Bool Lia Lra Permutation.
From Verif Require Import GraphModel VisModel VisSpec VisProofs VisProofs2.
Import ListNotations.
Open Scope nat_scope.

Lemma total_app {A} (f : A -> R) : forall l1 l2, total (l1 ++ l2) f = (total l1 f + total l2 f)%R.
Proof. induction l1 as [|x l1 IH]; intro l2; cbn [total app]; [lra|rewrite IH; lra]. Qed.
Lemma total_ext {A} (f h : A -> R) : forall l, (forall x, In x l -> f x = h x) -> total l f = total l h.
Proof. induction l as [|x l IH]; intro H; cbn [total]; [reflexivity|]. rewrite (H x (or_introl eq_refl)), IH; [reflexivity|intros y Hy; apply H; right; exact Hy]. Qed.
Lemma total_minus {A} (f h : A -> R) : forall l, (total l f - total l h)%R = total l (fun x => (f x - h x)%R).
Proof. induction l as [|x l IH]; cbn [total]; [lra|rewrite <- IH; lra]. Qed.
Lemma total_perm {A} (f : A -> R) l l' : Permutation l l' -> total l f = total l' f.
Proof. induction 1; cbn [total]; lra. Qed.
Lemma total_filter {A} (f : A -> R) (p : A -> bool) : forall l, (forall x, In x l -> p x = false -> f x = 0%R) -> total l f = total (filter p l) f.
Proof. induction l as [|x l IH]; intro H; cbn [total filter]; [reflexivity|]. assert (total l f = total (filter p l) f) as E by (apply IH; intros y Hy; apply H; right; exact Hy). destruct (p x) eqn:P; cbn [total]; [rewrite E; reflexivity|rewrite (H x (or_introl eq_refl) P), E; lra]. Qed.
Lemma total_support (f : nat -> R) V ns : NoDup V -> NoDup ns -> incl ns V -> (forall x, In x V -> ~ In x ns -> f x = 0%R) -> total V f = total ns f.
Proof.
  intros NV NN I Z. rewrite (total_filter f (fun x => if in_dec Nat.eq_dec x ns then true else false) V).
  - apply total_perm. apply NoDup_Permutation; [apply NoDup_filter; exact NV|exact NN|]. intro x. rewrite filter_In. destruct (in_dec Nat.eq_dec x ns) as [H|H]; [split; auto|split; [intros [_ E]; discriminate E|contradiction]].
  - intros x Hx E. apply Z; [exact Hx|]. destruct (in_dec Nat.eq_dec x ns); [discriminate E|assumption].
Qed.
Lemma nearest_snoc g v c : forall C, nearest g (C ++ [c]) v = Rmax (nearest g C v) (EdgeWeight g v c).
Proof. induction C as [|x C IH]; cbn [nearest app]; [apply Rmax_comm|]. rewrite IH. apply Rmax_assoc. Qed.
Lemma nearest_nonneg g v : forall C, (0 <= nearest g C v)%R.
Proof. induction C as [|x C IH]; cbn [nearest]; [lra|]. apply Rle_trans with (nearest g C v); [exact IH|apply Rmax_r]. Qed.
Lemma nearest_ge g v : forall C c, In c C -> (EdgeWeight g v c <= nearest g C v)%R.
Proof. induction C as [|x C IH]; intros c []; cbn [nearest]; [subst; apply Rmax_l|]. apply Rle_trans with (nearest g C v); [apply IH; assumption|apply Rmax_r]. Qed.
Lemma overlap_snoc g c : forall C, overlap g (C ++ [c]) = (overlap g C + total C (fun c' => EdgeWeight g c' c))%R.
Proof. induction C as [|x C IH]; cbn [overlap app total]; [lra|]. rewrite IH, total_app. cbn [total]. lra. Qed.

Lemma update_assign g c : forall ns a, NoDup ns -> forall v,
  canonical (fold_left (fun a n => if Rltb (old_similarity a n) (EdgeWeight g n c)
                        then mka (fun v => if v =? n then Some c else canonical a v) (fun v => if v =? n then Some (EdgeWeight g n c) else similarity a v)
                        else a) ns a) v = (if (if in_dec Nat.eq_dec v ns then true else false) && Rltb (old_similarity a v) (EdgeWeight g v c) then Some c else canonical a v) /\
  similarity (fold_left (fun a n => if Rltb (old_similarity a n) (EdgeWeight g n c)
                        then mka (fun v => if v =? n then Some c else canonical a v) (fun v => if v =? n then Some (EdgeWeight g n c) else similarity a v)
                        else a) ns a) v = (if (if in_dec Nat.eq_dec v ns then true else false) && Rltb (old_similarity a v) (EdgeWeight g v c) then Some (EdgeWeight g v c) else similarity a v).
Proof.
  induction ns as [|n ns IH]; intros a ND v; cbn [fold_left]; [destruct (in_dec Nat.eq_dec v []) as [[]|]; split; reflexivity|]. inversion_clear ND as [|? ? N1 N2].
  set (a' := if Rltb (old_similarity a n) (EdgeWeight g n c) then _ else a). destruct (IH a' N2 v) as [I1 I2]. rewrite I1, I2.
  destruct (Nat.eq_dec v n) as [->|N].
  - destruct (in_dec Nat.eq_dec n ns) as [|_]; [contradiction|]. destruct (in_dec Nat.eq_dec n (n :: ns)) as [_|H]; [|exfalso; apply H; left; reflexivity]. cbn [andb]. unfold a'. destruct (Rltb _ _); cbn [canonical similarity]; rewrite ?Nat.eqb_refl; split; reflexivity.
  - assert (canonical a' v = canonical a v /\ similarity a' v = similarity a v) as [E1 E2].
    { unfold a'. destruct (Rltb _ _); cbn [canonical similarity]; [|auto]. destruct (Nat.eqb_spec v n); [contradiction|auto]. }
    assert (old_similarity a' v = old_similarity a v) as E3 by (unfold old_similarity; rewrite E2; reflexivity). rewrite E1, E2, E3.
    destruct (in_dec Nat.eq_dec v ns) as [H|H]; destruct (in_dec Nat.eq_dec v (n :: ns)) as [H'|H']; try (split; reflexivity); exfalso; [apply H'; right; exact H|destruct H' as [->|H']; [congruence|contradiction]].
Qed.

Section Canon.
  Variables (o : options) (g : wg) (lowest : R).
  Hypothesis OK : graph_ok g.
  Hypothesis FIN : forall v, In v (vertices g) -> vw g v <> None.
  Notation V := (vertices g).
  Definition tracks (C : list nat) (a : assignment) : Prop :=
    (forall v, old_similarity a v = nearest g C v) /\
    forall v, match canonical a v with
              | None => forall c, In c C -> (EdgeWeight g v c <= 0)%R
              | Some c => exists k, nth_error C k = Some c /\ closest g C v k
              end.
  Lemma tracks_nil : tracks [] (mka (fun _ => None) (fun _ => None)).
  Proof. split; [intro v; reflexivity|]. intros v c []. Qed.
  Lemma old_of a v x : similarity a v = x -> old_similarity a v = match x with Some y => y | None => 0%R end.
  Proof. intros <-. reflexivity. Qed.
  Lemma update_pick C a c v : tracks C a -> canonical (UpdateCanonicalViewAssignments g c a) v = (if Rltb (nearest g C v) (EdgeWeight g v c) then Some c else canonical a v) /\
    old_similarity (UpdateCanonicalViewAssignments g c a) v = Rmax (nearest g C v) (EdgeWeight g v c).
  Proof.
    intros [T1 T2]. unfold UpdateCanonicalViewAssignments. destruct (update_assign g c (Neighbors g c) a (ok_neighbors g OK c) v) as [U1 U2].
    assert ((if in_dec Nat.eq_dec v (Neighbors g c) then true else false) && Rltb (old_similarity a v) (EdgeWeight g v c) = Rltb (nearest g C v) (EdgeWeight g v c)) as E.
    { rewrite T1. destruct (in_dec Nat.eq_dec v (Neighbors g c)) as [H|H]; [reflexivity|]. cbn [andb]. symmetry. apply Rltb_false. rewrite edge_weight_sym, (ok_zero g OK c v H). apply nearest_nonneg. }
    rewrite E in U1, U2. split; [exact U1|]. rewrite (old_of _ _ _ U2). destruct (Rltb (nearest g C v) (EdgeWeight g v c)) eqn:L; [apply Rltb_true in L; rewrite Rmax_right; lra|]. apply Rltb_false in L. fold (old_similarity a v). rewrite T1, Rmax_left; lra.
  Qed.
  Lemma nth_error_snoc (C : list nat) c : nth_error (C ++ [c]) (length C) = Some c.
  Proof. rewrite nth_error_app2, Nat.sub_diag by lia. reflexivity. Qed.
  Lemma tracks_step C a c : tracks C a -> tracks (C ++ [c]) (UpdateCanonicalViewAssignments g c a).
  Proof.
    intro T. split; [intro v; rewrite nearest_snoc; apply (update_pick C a c v T)|]. intro v. destruct (update_pick C a c v T) as [E _]. rewrite E. clear E. destruct (Rltb (nearest g C v) (EdgeWeight g v c)) eqn:L.
    - apply Rltb_true in L. exists (length C). split; [apply nth_error_snoc|]. exists c. split; [apply nth_error_snoc|]. pose proof (nearest_nonneg g v C). split; [lra|]. split.
      + intros c' H'. apply in_app_or in H'. destruct H' as [H'|[->|[]]]; [|lra]. pose proof (nearest_ge g v C c' H'). lra.
      + intros k' c' LK E. rewrite nth_error_app1 in E by exact LK. apply nth_error_In in E. pose proof (nearest_ge g v C c' E). lra.
    - apply Rltb_false in L. pose proof (proj2 T v) as TV. destruct (canonical a v) as [d|] eqn:ED.
      + destruct TV as [k [E1 [d' [E2 [P [M F]]]]]]. assert (d' = d) as -> by congruence. assert (k < length C) as LK by (apply nth_error_Some; congruence).
        assert (nearest g C v <= EdgeWeight g v d)%R as NM.
        { clear - M P. induction C as [|x C IH]; cbn [nearest]; [lra|]. apply Rmax_lub; [apply M; left; reflexivity|apply IH; intros c' H; apply M; right; exact H]. }
        exists k. split; [rewrite nth_error_app1 by exact LK; exact E1|]. exists d. split; [rewrite nth_error_app1 by exact LK; exact E1|]. split; [exact P|]. split.
        * intros c' H'. apply in_app_or in H'. destruct H' as [H'|[->|[]]]; [apply M; exact H'|]. lra.
        * intros k' c' LK' E. apply (F k' c' LK'). rewrite nth_error_app1 in E by lia. exact E.
      + assert (nearest g C v <= 0)%R as NM by (clear - TV; induction C as [|x C IH]; cbn [nearest]; [lra|]; apply Rmax_lub; [apply TV; left; reflexivity|apply IH; intros c' H; apply TV; right; exact H]).
        intros c' H'. apply in_app_or in H'. destruct H' as [H'|[->|[]]]; [apply TV; exact H'|]. lra.
  Qed.
  Lemma fold_total {A} (f h : A -> R) (test : A -> bool) : (forall x, (if test x then f x else 0%R) = h x) -> forall l x0, fold_left (fun d n => if test n then (d + f n)%R else d) l x0 = (x0 + total l h)%R.
  Proof. intros E. induction l as [|x l IH]; intro x0; cbn [fold_left total]; [lra|]. rewrite IH, <- E. destruct (test x); lra. Qed.
  Lemma fold_sub {A} (f : A -> R) k : forall l x0, fold_left (fun d c => (d - k * f c)%R) l x0 = (x0 - k * total l f)%R.
  Proof. induction l as [|x l IH]; intro x0; cbn [fold_left total]; [lra|]. rewrite IH. lra. Qed.
  Lemma difference_spec C a c : tracks C a -> In c V -> ComputeClusteringQualityDifference o g a c C = Some (objective o g (C ++ [c]) - objective o g C)%R.
  Proof.
    intros [T1 T2] HC. unfold ComputeClusteringQualityDifference. destruct (vw g c) as [w|] eqn:W; [|exfalso; exact (FIN c HC W)]. f_equal.
    rewrite (fold_total (fun n => EdgeWeight g n c - old_similarity a n)%R (fun n => nearest g (C ++ [c]) n - nearest g C n)%R (fun n => Rltb (old_similarity a n) (EdgeWeight g n c))).
    2:{ intro n. rewrite T1, nearest_snoc. destruct (Rltb _ _) eqn:L; [apply Rltb_true in L; rewrite Rmax_right; lra|apply Rltb_false in L; rewrite Rmax_left; lra]. }
    rewrite fold_sub. unfold objective. rewrite app_length, overlap_snoc, (total_app (vertex_weight g)). cbn [length total]. rewrite plus_INR. cbn [INR].
    assert (total (Neighbors g c) (fun n => nearest g (C ++ [c]) n - nearest g C n)%R = total V (nearest g (C ++ [c])) - total V (nearest g C))%R as E.
    { rewrite total_minus. symmetry. apply total_support; [apply (ok_vertices g OK)|apply (ok_neighbors g OK)|intros x Hx; exact (proj2 (ok_in g OK c x Hx))|]. intros x _ Hx. rewrite nearest_snoc, (edge_weight_sym g x c), (ok_zero g OK c x Hx), Rmax_left; [lra|apply nearest_nonneg]. }
    rewrite E. unfold vertex_weight at 1 2 3. rewrite W. fold (vertex_weight g). lra.
  Qed.
  Lemma valid_all : FindValidViews g = V.
  Proof. unfold FindValidViews. generalize (vertices g) as l. induction l as [|v l IH]; [reflexivity|]. cbn [filter]. rewrite IH. unfold neq. destruct (vw g v); reflexivity. Qed.
  Lemma best_spec C a : tracks C a -> (forall u, In u V -> lowest < objective o g (C ++ [u]) - objective o g C)%R -> forall l, l <> [] -> incl l V ->
    let '(d, v) := best o g a C lowest l in In v l /\ d = (objective o g (C ++ [v]) - objective o g C)%R /\ forall u, In u l -> (objective o g (C ++ [u]) - objective o g C <= d)%R.
  Proof.
    intros T LO. assert (forall l b, incl l V -> let '(d, v) := fold_left (fun b view => match ComputeClusteringQualityDifference o g a view C with None => b | Some d => if Rltb (fst b) d then (d, view) else b end) l b in
      ((d, v) = b \/ (In v l /\ d = (objective o g (C ++ [v]) - objective o g C)%R)) /\ (fst b <= d)%R /\ forall u, In u l -> (objective o g (C ++ [u]) - objective o g C <= d)%R) as H.
    { induction l as [|x l IH]; intros b I; cbn [fold_left]; [destruct b as [d v]; cbn [fst]; split; [left; reflexivity|]; split; [lra|intros u []]|].
      rewrite (difference_spec C a x T (I x (or_introl eq_refl))). set (dx := (objective o g (C ++ [x]) - objective o g C)%R). set (b' := if Rltb (fst b) dx then (dx, x) else b).
      pose proof (IH b' (fun y Hy => I y (or_intror Hy))) as IHb. destruct (fold_left _ l b') as [d v]. destruct IHb as [I1 [I2 I3]].
      assert (fst b <= fst b' /\ dx <= fst b')%R as [B1 B2] by (unfold b'; destruct (Rltb (fst b) dx) eqn:L; cbn [fst]; [apply Rltb_true in L; lra|apply Rltb_false in L; lra]).
      split; [|split; [lra|intros u [<-|Hu]; [fold dx; lra|apply I3; exact Hu]]].
      destruct I1 as [E|[E1 E2]]; [|right; split; [right; exact E1|exact E2]]. unfold b' in E. destruct (Rltb (fst b) dx); [right; injection E as -> ->; split; [left; reflexivity|reflexivity]|left; exact E]. }
    intros l NE I. unfold best. pose proof (H l (lowest, 0) I) as Hl. destruct (fold_left _ l (lowest, 0)) as [d v]. destruct Hl as [[E|[E1 E2]] [_ E3]].
    - injection E as -> ->. exfalso. destruct l as [|x l]; [congruence|]. pose proof (E3 x (or_introl eq_refl)). pose proof (LO x (I x (or_introl eq_refl))). lra.
    - auto.
  Qed.
  Definition greedy (C : list nat) : Prop := forall C1 c C2, C = C1 ++ c :: C2 ->
    (forall u, In u V -> ~ In u C1 -> objective o g (C1 ++ [u]) <= objective o g (C1 ++ [c]))%R /\ (min_views o <= length C1 -> (objective o g C1 < objective o g (C1 ++ [c]))%R).
  Lemma snoc_split {A} (C : list A) x C1 c C2 : C ++ [x] = C1 ++ c :: C2 -> (C1 = C /\ c = x /\ C2 = []) \/ exists C3, C = C1 ++ c :: C3.
  Proof. intro E. destruct (exists_last (l := c :: C2) ltac:(discriminate)) as [l [y E2]]. rewrite E2, app_assoc in E. apply app_inj_tail in E. destruct E as [E ->]. destruct l as [|z l]; [injection E2 as -> ->; rewrite app_nil_r in E; auto|]. injection E2 as -> E2. right. exists l. exact E. Qed.
  Hypothesis LOW : forall C u, incl C V -> NoDup C -> In u V -> (lowest < objective o g (C ++ [u]) - objective o g C)%R.
  Lemma choose_spec order : (forall l, Permutation (order l) l) -> forall fuel valid C a, length valid = fuel -> NoDup valid -> (forall v, In v V <-> In v valid \/ In v C) -> (forall v, In v valid -> ~ In v C) ->
    NoDup C -> tracks C a -> greedy C -> exists C' a', choose fuel o g lowest order valid C a = Some (C', a') /\ NoDup C' /\ incl C' V /\ tracks C' a' /\ greedy C' /\
    (incl V C' \/ (min_views o <= length C' /\ forall u, In u V -> ~ In u C' -> (objective o g (C' ++ [u]) <= objective o g C')%R)).
  Proof.
    intro HO. induction fuel as [|fuel IH]; intros valid C a HL NV IV DJ NC T G; assert (incl C V) as IC by (intros x Hx; apply IV; right; exact Hx); cbn [choose].
    - destruct valid; [|discriminate HL]. exists C, a. split; [reflexivity|]. split; [exact NC|]. split; [exact IC|]. split; [exact T|]. split; [exact G|]. left. intros x Hx. apply IV in Hx. destruct Hx as [[]|Hx]; exact Hx.
    - destruct valid as [|x0 valid0] eqn:EV; [discriminate HL|]. rewrite <- EV in *. clear EV x0 valid0.
      assert (order valid <> []) as NE by (intro E; pose proof (Permutation_length (HO valid)) as L; rewrite E in L; cbn [length] in L; lia).
      assert (incl (order valid) V) as IO by (intros x Hx; apply IV; left; apply (Permutation_in _ (HO valid)); exact Hx).
      pose proof (best_spec C a T (fun u Hu => LOW C u IC NC Hu) (order valid) NE IO) as B. destruct (best o g a C lowest (order valid)) as [d v]. destruct B as [B1 [B2 B3]].
      assert (In v valid) as Hv by (apply (Permutation_in _ (HO valid)); exact B1). assert (In v V) as HvV by (apply IV; auto).
      assert (forall u, In u V -> ~ In u C -> (objective o g (C ++ [u]) - objective o g C <= d)%R) as B4.
      { intros u Hu NU. apply B3. apply (Permutation_in _ (Permutation_sym (HO valid))). apply IV in Hu. tauto. }
      assert (Rltb lowest d = true) as LD by (apply Rltb_true; rewrite B2; apply LOW; assumption). rewrite LD. cbn [negb].
      destruct (negb (Rltb 0 d) && (min_views o <=? length C)) eqn:ST.
      + apply andb_true_iff in ST. destruct ST as [S1 S2]. apply negb_true_iff, Rltb_false in S1. apply Nat.leb_le in S2. exists C, a. split; [reflexivity|]. split; [exact NC|]. split; [exact IC|]. split; [exact T|]. split; [exact G|]. right. split; [exact S2|]. intros u Hu NU. pose proof (B4 u Hu NU). lra.
      + assert (~ In v C) as NVC by (apply DJ; exact Hv). assert (NoDup (C ++ [v])) as NC' by (apply (Permutation_NoDup (Permutation_cons_append C v)); constructor; assumption). apply IH.
        * assert (S (length (filter (fun v0 => negb (v0 =? v)) valid)) = length valid) as E; [|lia]. apply (Permutation_length (l := v :: filter (fun v0 => negb (v0 =? v)) valid)). apply NoDup_Permutation.
          -- constructor; [rewrite filter_In, Nat.eqb_refl; intros [_ E]; discriminate E|apply NoDup_filter; exact NV].
          -- exact NV.
          -- intro x. cbn [In]. rewrite filter_In. destruct (Nat.eqb_spec x v) as [->|N]; cbn [negb]; [tauto|]. intuition congruence.
        * apply NoDup_filter. exact NV.
        * intro x. rewrite filter_In, in_app_iff, IV. cbn [In]. destruct (Nat.eqb_spec x v) as [->|N]; cbn [negb]; [tauto|]. intuition congruence.
        * intros x Hx. apply filter_In in Hx. destruct Hx as [H1 H2]. rewrite in_app_iff. intros [H|[->|[]]]; [exact (DJ x H1 H)|]. rewrite Nat.eqb_refl in H2. discriminate H2.
        * exact NC'.
        * apply tracks_step. exact T.
        * intros C1 c C2 E. destruct (snoc_split _ _ _ _ _ E) as [[-> [-> ->]]|[C3 ->]]; [|apply (G C1 c C3); reflexivity]. split.
          -- intros u Hu NU. pose proof (B4 u Hu NU). lra.
          -- intro M. apply andb_false_iff in ST. destruct ST as [S1|S1]; [|apply Nat.leb_gt in S1; lia]. apply negb_false_iff, Rltb_true in S1. lra.
  Qed.
  Lemma cluster_id_spec : forall C i c, NoDup C -> forall k, cluster_id C i c = Some (i + k) <-> nth_error C k = Some c.
  Proof.
    induction C as [|x C IH]; intros i c ND k; cbn [cluster_id]; [destruct k; split; discriminate|]. inversion_clear ND as [|? ? N1 N2]. destruct (cluster_id C (S i) c) as [k'|] eqn:E.
    - assert (exists k2, k' = S i + k2) as [k2 ->].
      { clear - E. revert i k' E. induction C as [|x C IH]; intros i k' E; cbn [cluster_id] in E; [discriminate E|]. destruct (cluster_id C (S (S i)) c) as [k3|] eqn:E3; [injection E as <-; destruct (IH (S i) k3 E3) as [k4 ->]; exists (S k4); lia|]. destruct (x =? c); [injection E as <-; exists 0; lia|discriminate E]. }
      pose proof (proj1 (IH (S i) c N2 k2) E) as Ek. destruct k as [|k]; cbn [nth_error].
      + split; [intro H; injection H as H; lia|]. intro H. injection H as ->. exfalso. apply N1. apply (nth_error_In _ _ Ek).
      + rewrite <- (IH (S i) c N2 k). rewrite E. split; intro H; injection H as H; f_equal; lia.
    - destruct k as [|k]; cbn [nth_error].
      + destruct (Nat.eqb_spec x c) as [->|N]; [split; intros _; [reflexivity|f_equal; lia]|split; [discriminate|congruence]].
      + rewrite <- (IH (S i) c N2 k), E. destruct (Nat.eqb_spec x c) as [->|N]; split; intro H; try discriminate H. injection H as H. lia.
  Qed.
  Lemma canonical_spec order : (forall l, Permutation (order l) l) -> exists C m, ComputeCanonicalViewsClustering o g lowest order = Some (C, m) /\
    NoDup C /\ incl C V /\ Nat.min (min_views o) (length V) <= length C /\ greedy C /\
    (forall u, In u V -> ~ In u C -> (objective o g (C ++ [u]) <= objective o g C)%R) /\
    forall v, In v V -> exists id, m v = Some id /\ match id with None => forall c, In c C -> (EdgeWeight g v c <= 0)%R | Some k => closest g C v k end.
  Proof.
    intro HO. unfold ComputeCanonicalViewsClustering. rewrite valid_all.
    destruct (choose_spec order HO (length V) V [] (mka (fun _ => None) (fun _ => None)) eq_refl (ok_vertices g OK)) as [C [a [E [NC [IC [T [G ST]]]]]]]; [intro v; cbn [In]; tauto|intros v _ []|constructor|exact tracks_nil|intros [|? ?] c C2 EC; discriminate EC|]. rewrite E.
    assert (forall v, exists id, ClusterMembership C a v = Some id /\ match id with None => forall c, In c C -> (EdgeWeight g v c <= 0)%R | Some k => closest g C v k end) as M.
    { intro v. unfold ClusterMembership. pose proof (proj2 T v) as TV. destruct (canonical a v) as [c|]; [|exists None; auto]. destruct TV as [k [K1 K2]]. pose proof (proj2 (cluster_id_spec C 0 c NC k) K1) as K3. rewrite K3. exists (Some k). auto. }
    assert (forallb (fun v => match ClusterMembership C a v with None => false | Some _ => true end) V = true) as F by (apply forallb_forall; intros v _; destruct (M v) as [id [-> _]]; reflexivity). rewrite F.
    exists C, (ClusterMembership C a). split; [reflexivity|]. split; [exact NC|]. split; [exact IC|]. split; [|split; [exact G|split; [|intros v _; apply M]]].
    - destruct ST as [ST|[ST _]]; [|lia]. pose proof (NoDup_incl_length (ok_vertices g OK) ST). lia.
    - intros u Hu NU. destruct ST as [ST|[_ ST]]; [exfalso; apply NU, ST; exact Hu|apply ST; assumption].
  Qed.
End Canon.
