(** Proofs about Graph and the independent set orderings. *)
Require Import List Arith Bool Lia Permutation Sorted.
From Verif Require Import GraphModel.
Import ListNotations.
Open Scope nat_scope.

Lemma mem_in : forall v l, mem v l = true <-> In v l.
Proof. intros. unfold mem. rewrite existsb_exists. split; [intros [x [H E]]; apply Nat.eqb_eq in E; subst; auto|intros H; exists v; split; auto; apply Nat.eqb_refl]. Qed.
Lemma mem_out : forall v l, mem v l = false <-> ~ In v l.
Proof. intros. rewrite <- mem_in. destruct (mem v l); split; congruence. Qed.
Lemma mem_dec : forall (v : nat) l, {In v l} + {~ In v l}.
Proof. intros. destruct (mem v l) eqn:E; [left; apply mem_in; auto|right; apply mem_out; auto]. Qed.
Lemma sput_in : forall v x l, In x (sput v l) <-> x = v \/ In x l.
Proof. intros. unfold sput. destruct (mem v l) eqn:E; simpl; [|intuition]. apply mem_in in E. split; auto. intros [X|X]; subst; auto. Qed.
Lemma sput_nodup : forall v l, NoDup l -> NoDup (sput v l).
Proof. intros. unfold sput. destruct (mem v l) eqn:E; auto. apply mem_out in E. constructor; auto. Qed.
Lemma srem_in : forall v x l, In x (srem v l) <-> In x l /\ x <> v.
Proof. intros. unfold srem. rewrite filter_In, negb_true_iff, Nat.eqb_neq. tauto. Qed.
Lemma srem_nodup : forall v l, NoDup l -> NoDup (srem v l).
Proof. intros. apply NoDup_filter; auto. Qed.
Lemma fput_same : forall A (m : fmap A) k x, fput m k x k = x.
Proof. intros. unfold fput. rewrite Nat.eqb_refl. auto. Qed.
Lemma fput_other : forall A (m : fmap A) k x v, v <> k -> fput m k x v = m v.
Proof. intros. unfold fput. destruct (Nat.eqb_spec v k); [congruence|auto]. Qed.

(** ** Structure of any graph built through the interface. *)
Definition adj (g : graph) (a b : nat) : Prop := In b (at_ (g_e g) a).
Record GInv (g : graph) : Prop := mkGI {
  gi_nodup : NoDup (g_v g);
  gi_dom : forall v, In v (g_v g) <-> g_e g v <> None;
  gi_set : forall v, NoDup (at_ (g_e g) v);
  gi_sym : forall a b, adj g a b -> adj g b a;
  gi_vert : forall a b, adj g a b -> In b (g_v g) }.

Lemma ginv_empty : GInv g_empty.
Proof.
  constructor; simpl; try (intros; contradiction).
  - constructor.
  - intros v. split; [contradiction|congruence].
  - intros v. unfold at_. simpl. constructor.
Qed.

Lemma adj_addv : forall v g a b, GInv g -> adj (add_vertex v g) a b <-> adj g a b.
Proof.
  intros v g a b I. unfold add_vertex. destruct (mem v (g_v g)) eqn:M; [tauto|]. apply mem_out in M.
  unfold adj, at_. simpl. unfold fput. destruct (Nat.eqb_spec a v); [|tauto]. subst. simpl.
  assert (E : g_e g v = None) by (destruct (g_e g v) eqn:E; auto; exfalso; apply M; apply (gi_dom g I); congruence).
  rewrite E. tauto.
Qed.
Lemma ginv_addv : forall v g, GInv g -> GInv (add_vertex v g).
Proof.
  intros v g I. pose proof (fun a b => adj_addv v g a b I) as A. 
  assert (VS : forall u, In u (g_v (add_vertex v g)) <-> u = v \/ In u (g_v g)).
  { intros u. unfold add_vertex. destruct (mem v (g_v g)) eqn:M; simpl; [|intuition]. apply mem_in in M. split; auto. intros [X|X]; subst; auto. }
  constructor.
  - unfold add_vertex. destruct (mem v (g_v g)) eqn:M; [apply gi_nodup; auto|]. apply mem_out in M. simpl. constructor; auto. apply gi_nodup; auto.
  - intros u. rewrite VS. unfold add_vertex. destruct (mem v (g_v g)) eqn:M; simpl.
    + apply mem_in in M. rewrite <- (gi_dom g I u). split; auto. intros [X|X]; subst; auto.
    + unfold fput. destruct (Nat.eqb_spec u v); [subst; split; auto; congruence|]. rewrite <- (gi_dom g I u). split; auto. intros [X|X]; congruence.
  - intros u. unfold add_vertex. destruct (mem v (g_v g)); [apply gi_set; auto|]. unfold at_. simpl. unfold fput. destruct (u =? v); [constructor|].
    apply (gi_set g I u).
  - intros a b H. apply A in H. apply A. apply gi_sym; auto.
  - intros a b H. apply A in H. apply VS. right. eapply gi_vert; eauto.
Qed.

Lemma vert_l : forall g a b, GInv g -> adj g a b -> In a (g_v g).
Proof. intros g a b I H. apply (gi_vert g I b). apply gi_sym; auto. Qed.

Lemma adj_adde : forall a b g g' x y, GInv g -> add_edge a b g = Some g' ->
  adj g' x y <-> (x = a /\ y = b) \/ (x = b /\ y = a) \/ adj g x y.
Proof.
  intros a b g g' x y I H. unfold add_edge in H. destruct (negb _ || negb _); [discriminate|].
  destruct (mem b (at_ (g_e g) a)) eqn:M; inversion H; subst; clear H.
  - apply mem_in in M. split; auto. intros [[? ?]|[[? ?]|?]]; subst; auto. apply (gi_sym g' I). auto.
  - apply mem_out in M. unfold adj. cbn [g_e].
    destruct (Nat.eq_dec a b) as [E|E].
    + subst b. destruct (Nat.eq_dec x a) as [X|X].
      * subst. unfold at_ at 1. rewrite fput_same. rewrite sput_in. unfold at_ at 1. rewrite fput_same. simpl. intuition.
      * unfold at_ at 1. rewrite fput_other by auto. rewrite fput_other by auto. fold (at_ (g_e g) x). intuition.
    + unfold at_ at 1. unfold fput at 1. destruct (Nat.eqb_spec x b) as [X|X].
      * subst. rewrite sput_in. unfold at_ at 1. rewrite fput_other by auto. fold (at_ (g_e g) b). intuition.
      * unfold fput. destruct (Nat.eqb_spec x a) as [Y|Y]; [subst; simpl; intuition|]. fold (at_ (g_e g) x). intuition.
Qed.

Lemma ginv_adde : forall a b g g', GInv g -> add_edge a b g = Some g' -> GInv g' /\ g_v g' = g_v g.
Proof.
  intros a b g g' I H. pose proof (fun x y => adj_adde a b g g' x y I H) as A. unfold add_edge in H.
  destruct (negb _ || negb _) eqn:P; [discriminate|]. apply orb_false_iff in P. destruct P as [Pa Pb].
  apply negb_false_iff in Pa, Pb. apply mem_in in Pa, Pb.
  destruct (mem b (at_ (g_e g) a)) eqn:M; inversion H; subst; clear H; [auto|]. apply mem_out in M. split; [|reflexivity].
  constructor; cbn [g_v g_e].
  - apply gi_nodup; auto.
  - intros v. unfold fput. destruct (Nat.eqb_spec v b); [subst; split; auto; congruence|].
    destruct (Nat.eqb_spec v a); [subst; split; auto; congruence|]. apply gi_dom; auto.
  - intros v. unfold at_ at 1. unfold fput at 1. destruct (Nat.eqb_spec v b).
    + apply sput_nodup. unfold at_. unfold fput. destruct (b =? a); [constructor; auto; apply gi_set; auto|]. apply (gi_set g I b).
    + unfold fput. destruct (Nat.eqb_spec v a); [constructor; auto; apply gi_set; auto|]. apply (gi_set g I v).
  - intros x y H. apply A in H. apply A. destruct H as [[? ?]|[[? ?]|?]]; subst; auto. right; right. apply gi_sym; auto.
  - intros x y H. apply A in H. destruct H as [[? ?]|[[? ?]|?]]; subst; auto. eapply gi_vert; eauto.
Qed.

Lemma fold_rem : forall v l e x, In x l \/ ~ In x l ->
  (In x l -> fold_left (fun e s => fput e s (Some (srem v (at_ e s)))) l e x <> None) /\
  (~ In x l -> fold_left (fun e s => fput e s (Some (srem v (at_ e s)))) l e x = e x) /\
  (In x l -> forall y, In y (at_ (fold_left (fun e s => fput e s (Some (srem v (at_ e s)))) l e) x) <-> In y (at_ e x) /\ y <> v) /\
  (NoDup (at_ e x) -> NoDup (at_ (fold_left (fun e s => fput e s (Some (srem v (at_ e s)))) l e) x)).
Proof.
  intros v l. induction l as [|s l IH]; intros e x _; simpl.
  - repeat split; try tauto.
  - destruct (IH (fput e s (Some (srem v (at_ e s)))) x) as [H1 [H2 [H3 H4]]]; [destruct (mem_dec x l); auto|].
    destruct (mem_dec x l) as [M|M].
    + split; [auto|]. split; [tauto|]. split.
      * intros _ y. rewrite (H3 M). unfold at_ at 1. unfold fput. destruct (Nat.eqb_spec x s); [subst; rewrite srem_in; tauto|]. fold (at_ e x). tauto.
      * intros N. apply H4. unfold at_. unfold fput. destruct (Nat.eqb_spec x s); [apply srem_nodup; subst; auto|auto].
    + assert (F : forall y, In y (at_ (fold_left (fun e s => fput e s (Some (srem v (at_ e s)))) l (fput e s (Some (srem v (at_ e s))))) x) <-> In y (at_ (fput e s (Some (srem v (at_ e s)))) x)).
      { intros y. unfold at_ at 1. rewrite (H2 M). reflexivity. }
      split; [|split; [|split]].
      * intros [X|X]; [|tauto]. subst. rewrite (H2 M), fput_same. discriminate.
      * intros X. rewrite (H2 M). apply fput_other. intro; subst; apply X; auto.
      * intros [X|X]; [|tauto]. subst. intros y. rewrite F. unfold at_ at 1. rewrite fput_same. apply srem_in.
      * intros N. apply H4. unfold at_. unfold fput. destruct (Nat.eqb_spec x s); [apply srem_nodup; subst; auto|auto].
Qed.

Lemma remv_spec : forall v g g' r, GInv g -> remove_vertex v g = Some (g', r) ->
  GInv g' /\ (forall u, In u (g_v g') <-> In u (g_v g) /\ u <> v) /\
  (forall a b, adj g' a b <-> adj g a b /\ a <> v /\ b <> v) /\ (r = true <-> In v (g_v g)) /\
  (In v (g_v g) -> Permutation (g_v g) (v :: g_v g')).
Proof.
  intros v g g' r I H. unfold remove_vertex in H. destruct (mem v (g_v g)) eqn:M; simpl in H.
  - apply mem_in in M. destruct (mem v (at_ (g_e g) v)) eqn:SL; [discriminate|]. apply mem_out in SL.
    inversion H; subst; clear H. set (sinks := at_ (g_e g) v) in *.
    set (e := fold_left (fun e s => fput e s (Some (srem v (at_ e s)))) sinks (g_e g)).
    pose proof (fun x => fold_rem v sinks (g_e g) x) as F. fold e in F.
    assert (A : forall a b, adj (mkG (srem v (g_v g)) (fput e v None)) a b <-> adj g a b /\ a <> v /\ b <> v).
    { intros a b. unfold adj. cbn [g_e]. unfold at_ at 1. unfold fput. destruct (Nat.eqb_spec a v) as [X|X]; [subst; simpl; tauto|].
      fold (at_ e a). destruct (F a) as [F1 [F2 [F3 _]]]; [destruct (mem_dec a sinks); auto|].
      destruct (mem_dec a sinks) as [MA|MA]; [rewrite (F3 MA); tauto|]. unfold at_ at 1. rewrite (F2 MA). fold (at_ (g_e g) a).
      split; [|tauto]. intros Y. split; auto. split; auto. intros Z; subst b. apply MA. apply (gi_sym g I) in Y. exact Y. }
    split; [|split; [intros u; apply srem_in|split; [exact A|split; [split; auto|]]]].
    + constructor; cbn [g_v g_e].
      * apply srem_nodup. apply gi_nodup; auto.
      * intros u. rewrite srem_in. unfold fput. destruct (Nat.eqb_spec u v); [subst; split; [tauto|congruence]|].
        destruct (F u) as [F1 [F2 _]]; [destruct (mem_dec u sinks); auto|].
        destruct (mem_dec u sinks) as [MU|MU].
        { split; [auto|]. intros _. split; auto. apply (gi_vert g I v). exact MU. }
        { rewrite (F2 MU), <- (gi_dom g I). tauto. }
      * intros u. unfold at_. unfold fput. destruct (u =? v); [constructor|]. destruct (F u) as [_ [_ [_ F4]]]; [destruct (mem_dec u sinks); auto|].
        apply F4. apply gi_set; auto.
      * intros a b X. apply A in X. apply A. destruct X as [X [Y Z]]. split; auto. apply gi_sym; auto.
      * intros a b X. apply A in X. apply srem_in. destruct X as [X [Y Z]]. split; auto. eapply gi_vert; eauto.
    + intros _. cbn [g_v]. pose proof (gi_nodup g I) as ND. clear - ND M. induction (g_v g) as [|x l IH]; [contradiction|].
      inversion ND; subst. unfold srem. simpl. destruct (Nat.eqb_spec x v).
      * subst. simpl. constructor. replace (filter _ l) with l; auto. symmetry. clear - H1. induction l as [|y l IH]; auto. simpl.
        destruct (Nat.eqb_spec y v); [subst; exfalso; apply H1; left; auto|]. simpl. rewrite IH; auto. intro; apply H1; right; auto.
      * simpl. destruct M; [congruence|]. fold (srem v l). rewrite (IH H H2) at 1. apply perm_swap.
  - inversion H; subst. apply mem_out in M. split; auto. split; [|split; [|split; [split; [discriminate|tauto]|tauto]]].
    + intros u. split; [|tauto]. intros X. split; auto. intro; subst; auto.
    + intros a b. split; [|tauto]. intros X. split; auto. split; intro; subst; apply M; [eapply vert_l; eauto|eapply gi_vert; eauto].
Qed.

(** ** Sorting. *)
Section SortP.
  Variable A : Type.
  Variable lt : A -> A -> bool.
  Lemma sinsert_perm : forall x l, Permutation (sinsert lt x l) (x :: l).
  Proof. induction l as [|y r IH]; simpl; auto. destruct (lt y x); auto. rewrite IH. apply perm_swap. Qed.
  Lemma ssort_perm : forall l, Permutation (ssort lt l) l.
  Proof. induction l; simpl; auto. rewrite sinsert_perm. auto. Qed.
  (** [le] is "not greater". *)
  Hypothesis total : forall x y, lt y x = true -> lt x y = false.
  Lemma sinsert_hd : forall x y l, lt x y = false -> HdRel (fun a b => lt b a = false) y l -> HdRel (fun a b => lt b a = false) y (sinsert lt x l).
  Proof. intros x y l H HD. destruct l as [|z r]; simpl; [constructor; auto|]. inversion HD; subst. destruct (lt z x); constructor; auto. Qed.
  Lemma ssort_sorted : forall l, Sorted (fun a b => lt b a = false) (ssort lt l).
  Proof.
    induction l as [|x l IH]; simpl; [constructor|]. induction (ssort lt l) as [|y r IHr]; simpl; [repeat constructor|].
    inversion IH; subst. destruct (lt y x) eqn:E.
    - constructor; [apply IHr; auto|]. apply sinsert_hd; auto.
    - constructor; auto.
  Qed.
End SortP.

(** ** The two passes. *)
Definition isolated_loops (g : graph) : Prop := forall v, ~ adj g v v.

Lemma greys : forall ns c v, fold_left (fun c n => cset c n 1) ns c v = if mem v ns then 1 else c v.
Proof.
  induction ns as [|n ns IH]; intros c v; simpl; auto. rewrite IH. unfold mem. simpl. fold (mem v ns).
  destruct (mem v ns); [rewrite orb_true_r; auto|]. rewrite orb_false_r. reflexivity.
Qed.

Record P1 (g : graph) (done : list nat) (c : colour) (ord : list nat) : Prop := mkP1 {
  p1_black : forall v, c v = 2 <-> In v ord;
  p1_done : forall v, In v done -> c v <> 0;
  p1_grey : forall v, c v = 1 -> exists u, In u ord /\ adj g u v;
  p1_adj : forall u v, In u ord -> adj g u v -> c v = 1;
  p1_ord : ord = filter (fun v => c v =? 2) done }.

Lemma pass1_ok : forall g queue done c ord, GInv g -> isolated_loops g -> NoDup (done ++ queue) ->
  (forall v, In v queue -> In v (g_v g)) -> (forall v, In v ord -> In v done) -> (forall v, c v <= 2) -> P1 g done c ord ->
  exists c' ord', pass1 g queue c ord = Some (c', ord') /\ P1 g (done ++ queue) c' ord' /\ (forall v, c' v <= 2).
Proof.
  intros g queue. induction queue as [|v q IH]; intros done c ord I L ND VQ OD C2 P; simpl.
  - exists c, ord. rewrite app_nil_r. auto.
  - assert (NV : ~ In v done).
    { intros X. apply NoDup_remove_2 in ND. apply ND. apply in_or_app; auto. }
    assert (ND' : NoDup ((done ++ [v]) ++ q)) by (rewrite <- app_assoc; auto).
    assert (EQ : done ++ v :: q = (done ++ [v]) ++ q) by (rewrite <- app_assoc; auto). rewrite EQ.
    destruct (Nat.eqb_spec (c v) 0) as [W|W]; simpl.
    + unfold neighbors. destruct (g_e g v) as [ns|] eqn:NS; [|exfalso; apply (gi_dom g I v); [apply VQ; left; auto|auto]].
      assert (AD : forall x, In x ns <-> adj g v x) by (intros x; unfold adj, at_; rewrite NS; tauto).
      set (c1 := fold_left (fun c n => cset c n 1) ns (cset c v 2)).
      assert (C1 : forall x, c1 x = if mem x ns then 1 else if x =? v then 2 else c x) by (intros x; apply greys).
      assert (NB : forall x, In x ord -> c1 x = 2).
      { intros x X. rewrite C1. destruct (mem x ns) eqn:MX.
        - exfalso. apply mem_in in MX. apply AD in MX. apply (gi_sym g I) in MX. apply (p1_adj g done c ord P) in MX; auto. lia.
        - destruct (x =? v); auto. apply (p1_black g done c ord P); auto. }
      assert (V2 : c1 v = 2).
      { rewrite C1, Nat.eqb_refl. destruct (mem v ns) eqn:MX; auto. exfalso. apply mem_in in MX. apply AD in MX. exact (L v MX). }
      apply (IH (done ++ [v]) c1 (ord ++ [v])); auto.
      * intros x X. apply VQ. right; auto.
      * intros x X. apply in_app_or in X. apply in_or_app. destruct X; auto.
      * intros x. rewrite C1. destruct (mem x ns); [lia|]. destruct (x =? v); auto.
      * constructor.
        { intros x. split.
          - intros X. rewrite C1 in X. apply in_or_app. destruct (mem x ns); [discriminate|]. destruct (Nat.eqb_spec x v); [subst; right; left; auto|].
            left. apply (p1_black g done c ord P); auto.
          - intros X. apply in_app_or in X. destruct X as [X|[X|[]]]; [apply NB; auto|subst; auto]. }
        { intros x X. rewrite C1. destruct (mem x ns); [lia|]. destruct (Nat.eqb_spec x v); [lia|]. apply in_app_or in X. destruct X as [X|[X|[]]]; [|congruence].
          apply (p1_done g done c ord P); auto. }
        { intros x X. rewrite C1 in X. destruct (mem x ns) eqn:MX.
          - exists v. split; [apply in_or_app; right; left; auto|]. apply mem_in in MX. apply AD; auto.
          - destruct (Nat.eqb_spec x v); [lia|]. destruct (p1_grey g done c ord P x X) as [u [U1 U2]]. exists u. split; auto. apply in_or_app; auto. }
        { intros u x X Y. apply in_app_or in X. rewrite C1. destruct (mem x ns) eqn:MX; auto. destruct X as [X|[X|[]]].
          - pose proof (p1_adj g done c ord P u x X Y) as Z. destruct (Nat.eqb_spec x v); [subst; lia|auto].
          - subst u. apply mem_out in MX. exfalso. apply MX. apply AD; auto. }
        { rewrite filter_app. simpl. rewrite V2. simpl. f_equal. rewrite (p1_ord g done c ord P) at 1.
          apply filter_ext_in. intros x X. destruct (Nat.eqb_spec (c x) 2) as [E|E].
          - apply (p1_black g done c ord P) in E. rewrite (NB x E). auto.
          - symmetry. apply Nat.eqb_neq. rewrite C1. destruct (mem x ns); [lia|]. destruct (Nat.eqb_spec x v); [subst; contradiction|auto]. }
    + apply (IH (done ++ [v]) c ord); auto.
      * intros x X. apply VQ. right; auto.
      * intros x X. apply in_or_app. left. auto.
      * destruct P as [B D G J O]. constructor; auto.
        { intros x X. apply in_app_or in X. destruct X as [X|[X|[]]]; [auto|subst; auto]. }
        { rewrite filter_app. simpl. replace (c v =? 2) with false; [rewrite app_nil_r; auto|].
          symmetry. apply Nat.eqb_neq. intros E. apply B in E. apply NV. auto. }
Qed.

Lemma filter_perm : forall (f : nat -> bool) l, Permutation (filter f l ++ filter (fun x => negb (f x)) l) l.
Proof.
  induction l as [|x l IH]; simpl; auto. destruct (f x); simpl.
  - constructor; auto.
  - rewrite <- Permutation_middle. constructor; auto.
Qed.

(** What the caller gets from a queue holding the graph's vertices. *)
Record OQ (g : graph) (queue ordering : list nat) (k : nat) : Prop := mkOQ {
  oq_perm : Permutation ordering (g_v g);
  oq_k : k <= length ordering;
  oq_split : exists f, firstn k ordering = filter f queue /\ skipn k ordering = filter (fun x => negb (f x)) queue;
  oq_indep : forall a b, In a (firstn k ordering) -> In b (firstn k ordering) -> ~ adj g a b;
  oq_max : forall b, In b (skipn k ordering) -> exists a, In a (firstn k ordering) /\ adj g a b }.

Lemma order_queue_ok : forall g queue, GInv g -> isolated_loops g -> Permutation queue (g_v g) ->
  exists ordering k, order_queue g queue = Some (ordering, k) /\ OQ g queue ordering k.
Proof.
  intros g queue I L PQ. assert (ND : NoDup queue) by (eapply Permutation_NoDup; [symmetry; exact PQ|apply gi_nodup; auto]).
  destruct (pass1_ok g queue [] (fun _ => 0) []) as [c [ord [E [P C2]]]]; auto.
  - intros v X. eapply Permutation_in; eauto.
  - constructor; simpl; auto; try (intros; contradiction).
    + intros v; split; [discriminate|contradiction].
    + intros; discriminate.
  - simpl in P. unfold order_queue. rewrite E.
    assert (PP : Permutation (ord ++ filter (fun v => negb (c v =? 2)) queue) (g_v g)).
    { rewrite <- PQ. rewrite (p1_ord _ _ _ _ P). apply filter_perm. }
    replace (length _ =? length (g_v g)) with true by (symmetry; apply Nat.eqb_eq; apply Permutation_length; auto).
    exists (ord ++ filter (fun v => negb (c v =? 2)) queue), (length ord). split; auto.
    assert (FN : firstn (length ord) (ord ++ filter (fun v => negb (c v =? 2)) queue) = ord).
    { rewrite firstn_app, firstn_all, Nat.sub_diag. simpl. apply app_nil_r. }
    assert (SN : skipn (length ord) (ord ++ filter (fun v => negb (c v =? 2)) queue) = filter (fun v => negb (c v =? 2)) queue).
    { rewrite skipn_app, skipn_all, Nat.sub_diag. reflexivity. }
    constructor; auto.
    + rewrite app_length. lia.
    + exists (fun v => c v =? 2). rewrite FN, SN. split; auto. apply (p1_ord _ _ _ _ P).
    + rewrite FN. intros a b A B X. apply (p1_adj _ _ _ _ P a b A) in X. apply (p1_black _ _ _ _ P) in B. lia.
    + rewrite SN, FN. intros b B. apply filter_In in B. destruct B as [B1 B2]. apply negb_true_iff in B2. apply Nat.eqb_neq in B2.
      apply (p1_grey _ _ _ _ P). pose proof (p1_done _ _ _ _ P b B1). specialize (C2 b). lia.
Qed.
