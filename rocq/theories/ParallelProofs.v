Require Import ZArith List Lia Bool Permutation.
From Verif Require Import ParallelModel.
Import ListNotations.
Open Scope Z_scope.

Lemma zrange_length : forall a b, length (zrange a b) = Z.to_nat (b - a).
Proof. intros. unfold zrange. rewrite map_length, seq_length. auto. Qed.
Lemma zrange_in : forall a b i, In i (zrange a b) <-> a <= i < b.
Proof.
  intros. unfold zrange. rewrite in_map_iff. split.
  - intros [k [E H]]. apply in_seq in H. lia.
  - intros H. exists (Z.to_nat (i - a)). split; [lia|]. apply in_seq. lia.
Qed.
Lemma zrange_nodup : forall a b, NoDup (zrange a b).
Proof.
  intros. unfold zrange. apply FinFun.Injective_map_NoDup; [|apply seq_NoDup]. intros x y H. lia.
Qed.
Lemma zrange_nil : forall a, zrange a a = [].
Proof. intros. unfold zrange. rewrite Z.sub_diag. auto. Qed.
Lemma map_seq_shift : forall n k a, map (fun j => a + Z.of_nat j) (seq k n) = map (fun j => a + Z.of_nat k + Z.of_nat j) (seq 0 n).
Proof.
  intros n; induction n as [|n IH]; intros k a; simpl; auto. f_equal; [lia|]. rewrite (IH (S k) a), (IH 1%nat (a + Z.of_nat k)).
  apply map_ext. intros. lia.
Qed.
Lemma zrange_app : forall a b c, a <= b <= c -> zrange a b ++ zrange b c = zrange a c.
Proof.
  intros a b c H. unfold zrange. replace (Z.to_nat (c - a)) with (Z.to_nat (b - a) + Z.to_nat (c - b))%nat by lia.
  rewrite seq_app, map_app. f_equal. simpl. rewrite (map_seq_shift _ (Z.to_nat (b - a))). apply map_ext. intros. lia.
Qed.

(** A well-formed call. *)
Record wf (c : cfg) : Prop := mkWf {
  w_thr : 1 <= c_threads c;
  w_min : 1 <= c_min c;
  w_len : c_min c <= c_end c - c_start c;
  w_seg : forall a b d, c_start c <= a -> a <= b -> b <= d -> d <= c_end c -> c_seg c a b ++ c_seg c b d = c_seg c a d }.

Section Call.
Variable c : cfg.
Hypothesis W : wf c.

Lemma blocks_pos : 1 <= num_blocks c <= c_end c - c_start c.
Proof.
  destruct W as [H1 H2 H3 _]. unfold num_blocks.
  assert (1 <= (c_end c - c_start c) / c_min c) by (apply Z.div_le_lower_bound; lia).
  assert ((c_end c - c_start c) / c_min c <= c_end c - c_start c) by (apply Z.div_le_upper_bound; nia).
  lia.
Qed.

Lemma sizes : c_end c - c_start c = num_blocks c * base_size c + num_p1 c /\ 0 <= num_p1 c < num_blocks c /\ 1 <= base_size c.
Proof.
  pose proof blocks_pos as B. unfold base_size, num_p1.
  split; [apply Z.div_mod; lia|]. split; [apply Z.mod_pos_bound; lia|]. apply Z.div_le_lower_bound; lia.
Qed.

Lemma curr_end_next : forall k, curr_end c k = curr_start c (k + 1).
Proof.
  intros k. unfold curr_end, curr_start. destruct (Z.ltb_spec k (num_p1 c)); lia.
Qed.
Lemma curr_start_0 : curr_start c 0 = c_start c.
Proof. pose proof sizes. unfold curr_start. lia. Qed.
Lemma curr_start_last : curr_start c (num_blocks c) = c_end c.
Proof. pose proof sizes. unfold curr_start. lia. Qed.
Lemma curr_start_mono : forall k, curr_start c k < curr_start c (k + 1).
Proof. intros k. pose proof sizes. unfold curr_start. lia. Qed.
Lemma curr_start_le : forall k, 0 <= k <= num_blocks c -> c_start c <= curr_start c k <= c_end c.
Proof. intros k H. pose proof sizes. unfold curr_start. nia. Qed.

Lemma seg_nil : forall a, c_start c <= a <= c_end c -> c_seg c a a = [].
Proof.
  intros a H. pose proof (w_seg c W a a a) as E. apply (f_equal (@length Z)) in E; try lia. rewrite app_length in E.
  destruct (c_seg c a a); auto. simpl in E. lia.
Qed.

Notation nb := (num_blocks c).
(** blocks handed out so far *)
Definition out (s : st) : Z := Z.min (nblk s) nb.

Definition tid_of (p : pc) : option Z :=
  match p with PFetchId => None | PTest t | PAdd t | PFetchBlock t _ | PRun t _ _ | PFinish t _ | PDone t => Some t end.
Definition jobs_of (p : pc) : Z := match p with PFetchBlock _ j | PRun _ j _ | PFinish _ j => j | _ => 0 end.
Definition todo_of (p : pc) : list Z := match p with PRun _ _ l => l | _ => [] end.
Definition active (p : pc) : bool := match p with PTest _ | PAdd _ | PFetchBlock _ _ | PRun _ _ _ | PFinish _ _ => true | _ => false end.
Definition tids (l : list pc) : list Z := flat_map (fun p => match tid_of p with Some t => [t] | None => [] end) l.
Definition sumz (f : pc -> Z) (l : list pc) : Z := fold_right (fun p a => f p + a) 0 l.

Definition pc_ok (s : st) (p : pc) : Prop :=
  match p with
  | PFetchId => True
  | PTest t | PAdd t => 0 <= t < c_threads c
  | PFetchBlock t j => 0 <= t < c_threads c /\ 0 <= j
  | PRun t j _ => 0 <= t < c_threads c /\ 1 <= j
  | PFinish t j => 0 <= t < c_threads c /\ 0 <= j /\ nb <= nblk s
  | PDone t => t < c_threads c -> nb <= nblk s
  end.

Record PInv (s : st) : Prop := mkPInv {
  v_pc : Forall (pc_ok s) (thr s);
  v_tid : NoDup (tids (thr s));
  v_tlt : forall t, In t (tids (thr s)) -> 0 <= t < nid s;
  v_nid : 0 <= nid s;
  v_blk : 0 <= nblk s;
  v_fin : fin s + sumz jobs_of (thr s) = out s;
  v_finp : 0 <= fin s;
  v_tr : Permutation (map snd (trace s) ++ flat_map todo_of (thr s)) (c_seg c (c_start c) (curr_start c (out s)));
  v_trt : forall e, In e (trace s) -> 0 <= fst e < c_threads c;
  v_chk : check_failed s = false;
  v_first : thr s <> [] /\ (nid s = 0 -> thr s = [PFetchId] /\ qd s = 0%nat);
  v_zero : nth_error (thr s) 0 = Some PFetchId -> nid s = 0;
  v_ztid : forall t p, nth_error (thr s) 0 = Some p -> tid_of p = Some t -> t = 0;
  v_cal : match cal s with
          | CTask => True
          | CTest => exists t, nth_error (thr s) 0 = Some (PDone t)
          | CSleep => (exists t, nth_error (thr s) 0 = Some (PDone t)) /\ fin s <> nb
          | CReturned => fin s = nb
          end }.

Lemma inv_init : PInv init.
Proof.
  pose proof blocks_pos as B. constructor; cbn [thr nid nblk fin trace check_failed cal qd init]; try lia; try reflexivity.
  - repeat constructor.
  - constructor.
  - intros t [].
  - unfold out; simpl. lia.
  - unfold out; simpl. rewrite Z.min_l by lia. rewrite curr_start_0, seg_nil; [constructor|]. pose proof B. lia.
  - intros e [].
  - split; [discriminate|auto].
  - intros t p E T. simpl in E. inversion E; subst. discriminate.
Qed.

(** list update *)
Fixpoint upd (l : list pc) (n : nat) (p : pc) : list pc :=
  match l, n with [], _ => [] | _ :: l', O => p :: l' | x :: l', S n' => x :: upd l' n' p end.
Lemma set_thr_eq : forall s t p, set_thr s t p = mkSt (upd (thr s) t p) (qd s) (nid s) (nblk s) (fin s) (cal s) (trace s) (check_failed s).
Proof.
  intros. unfold set_thr. f_equal. generalize (thr s). intros l; revert t; induction l as [|x l IH]; intros [|t]; simpl; auto. f_equal. apply IH.
Qed.
Lemma upd_split : forall l t q p, nth_error l t = Some q -> exists l1 l2, l = l1 ++ q :: l2 /\ upd l t p = l1 ++ p :: l2 /\ length l1 = t.
Proof.
  induction l as [|x l IH]; intros [|t] q p H; simpl in H; try discriminate.
  - inversion H; subst. exists [], l. auto.
  - destruct (IH t q p H) as [l1 [l2 [E1 [E2 E3]]]]. exists (x :: l1), l2. subst. simpl. rewrite E2. auto.
Qed.
Lemma tids_app : forall l1 l2, tids (l1 ++ l2) = tids l1 ++ tids l2.
Proof. intros. unfold tids. apply flat_map_app. Qed.
Lemma tids_cons : forall p l, tids (p :: l) = (match tid_of p with Some t => [t] | None => [] end) ++ tids l.
Proof. auto. Qed.
Lemma sumz_app : forall f l1 l2, sumz f (l1 ++ l2) = sumz f l1 + sumz f l2.
Proof. intros f l1 l2; induction l1 as [|x l IH]; simpl; auto. rewrite IH. lia. Qed.
Lemma sumz_cons : forall f p l, sumz f (p :: l) = f p + sumz f l.
Proof. auto. Qed.

Lemma nth0_split : forall (l1 l2 : list pc) q p r, nth_error (l1 ++ p :: l2) 0 = Some r ->
  (l1 = [] /\ r = p) \/ (l1 <> [] /\ nth_error (l1 ++ q :: l2) 0 = Some r).
Proof. intros [|x l1] l2 q p r H; simpl in *; [left; inversion H; auto|right; split; [discriminate|auto]]. Qed.

(** Threads other than the stepping one keep their condition when nblk grows. *)
Lemma pc_ok_mono : forall s s' p, nblk s <= nblk s' -> pc_ok s p -> pc_ok s' p.
Proof. intros s s' p H. destruct p; simpl; auto; try (intros; intuition lia). Qed.

(** Generic preservation: one thread moves from [q] to [p], same thread id. *)
Lemma keep_tid : forall s t q p s', PInv s -> nth_error (thr s) t = Some q -> tid_of p = tid_of q -> q <> PFetchId ->
  thr s' = upd (thr s) t p -> nid s' = nid s ->
  NoDup (tids (thr s')) /\ (forall t, In t (tids (thr s')) -> 0 <= t < nid s') /\
  (thr s' <> [] /\ (nid s' = 0 -> thr s' = [PFetchId] /\ qd s' = 0%nat)) /\
  (nth_error (thr s') 0 = Some PFetchId -> nid s' = 0) /\
  (forall t p, nth_error (thr s') 0 = Some p -> tid_of p = Some t -> t = 0).
Proof.
  intros s t q p s' I H T NQ E N. destruct (upd_split _ _ _ p H) as [l1 [l2 [E1 [E2 _]]]].
  assert (TT : tids (thr s') = tids (thr s)). { rewrite E, E2, E1, !tids_app, !tids_cons, T. auto. }
  rewrite TT, N. destruct I. split; auto. split; auto.
  assert (Q : exists x, tid_of q = Some x) by (destruct q; simpl; eauto; congruence). destruct Q as [x Q].
  split; [|split].
  - split; [rewrite E, E2; destruct l1; discriminate|]. intros Z. destruct v_first0 as [_ V]. destruct (V Z) as [V1 _].
    rewrite V1 in E1. exfalso. destruct l1 as [|y [|z l1]]; simpl in E1; inversion E1; congruence.
  - rewrite E, E2. intros G. apply nth0_split with (q := q) in G. destruct G as [[G1 G2]|[G1 G2]].
    + subst p. rewrite Q in T. discriminate.
    + rewrite <- E1 in G2. auto.
  - intros t0 p0 G1 G2. rewrite E, E2 in G1. apply nth0_split with (q := q) in G1. destruct G1 as [[G1 G3]|[G1 G3]].
    + subst p0. rewrite T in G2. eapply v_ztid0; [|exact G2]. rewrite E1, G1. auto.
    + rewrite <- E1 in G3. eauto.
Qed.

Lemma done0 : forall s t q p, PInv s -> nth_error (thr s) t = Some q -> (forall x, q <> PDone x) ->
  (exists x, nth_error (thr s) 0 = Some (PDone x)) -> exists x, nth_error (upd (thr s) t p) 0 = Some (PDone x).
Proof.
  intros s t q p I H NQ [x E]. exists x. destruct t as [|t]; [exfalso; rewrite E in H; inversion H; eapply NQ; eauto|].
  destruct (thr s) as [|y l]; simpl in *; auto.
Qed.

Lemma inv_step : forall a s s', PInv s -> step c a s = Some s' -> PInv s'.
Proof.
  pose proof blocks_pos as BP.
  intros a s s' I E. destruct a as [t| | |]; simpl in E.
  - unfold thread_step in E. destruct (nth_error (thr s) t) as [q|] eqn:H; [|discriminate].
    destruct (upd_split _ _ _ PFetchId H) as [l1 [l2 [E1 _]]].
    assert (OKq : pc_ok s q) by (eapply Forall_forall; [exact (v_pc s I)|rewrite E1; apply in_or_app; right; left; auto]).
    destruct q as [|tid|tid|tid jobs|tid jobs todo|tid jobs|tid].
    + (* fetch id *)
      inversion E; subst s'; clear E. rewrite set_thr_eq. simpl. set (p := if nid s >=? c_threads c then PDone (nid s) else PTest (nid s)).
      destruct (upd_split _ _ _ p H) as [m1 [m2 [F1 [F2 F3]]]].
      assert (TP : tid_of p = Some (nid s)) by (unfold p; destruct (nid s >=? c_threads c); auto).
      assert (JP : jobs_of p = 0) by (unfold p; destruct (nid s >=? c_threads c); auto).
      assert (DP : todo_of p = []) by (unfold p; destruct (nid s >=? c_threads c); auto).
      assert (T0 : tids (thr s) = tids m1 ++ tids m2) by (rewrite F1, tids_app, tids_cons; auto).
      destruct I. constructor; cbn [thr nid nblk fin trace check_failed cal qd]; rewrite ?F2; auto.
      * rewrite F1 in v_pc0. apply Forall_app in v_pc0. destruct v_pc0 as [A1 A2]. inversion A2; subst.
        apply Forall_app. split; [eapply Forall_impl; [|exact A1]; intros; eapply pc_ok_mono; [|eassumption]; simpl; lia|].
        constructor; [|eapply Forall_impl; [|exact H3]; intros; eapply pc_ok_mono; [|eassumption]; simpl; lia].
        unfold p. destruct (Z.geb_spec (nid s) (c_threads c)); simpl; lia.
      * rewrite tids_app, tids_cons, TP. rewrite T0 in v_tid0.
        apply (Permutation_NoDup (l := nid s :: tids m1 ++ tids m2)); [apply Permutation_middle|]. constructor; auto.
        intros X. rewrite <- T0 in X. apply v_tlt0 in X. lia.
      * intros x Hx. rewrite tids_app, tids_cons, TP in Hx. apply in_app_or in Hx. simpl in Hx.
        destruct Hx as [Hx|[Hx|Hx]]; [assert (0 <= x < nid s) by (apply v_tlt0; rewrite T0; apply in_or_app; auto); lia|lia|
          assert (0 <= x < nid s) by (apply v_tlt0; rewrite T0; apply in_or_app; auto); lia].
      * lia.
      * rewrite sumz_app, sumz_cons, JP. rewrite F1, sumz_app, sumz_cons in v_fin0. simpl in v_fin0. unfold out in *. simpl. lia.
      * rewrite F1 in v_tr0. rewrite flat_map_app in *. simpl in *. rewrite DP. simpl. exact v_tr0.
      * split; [destruct m1; discriminate|lia].
      * intros X. destruct m1 as [|y m1]; simpl in X; [inversion X as [X1]; unfold p in X1; destruct (nid s >=? c_threads c); discriminate|].
        exfalso. assert (nid s = 0) by (apply v_zero0; rewrite F1; simpl; auto). destruct v_first0 as [_ V]. destruct (V H0) as [V1 _]. rewrite V1 in F1. destruct m1; discriminate.
      * intros t0 p0 X1 X2. destruct m1 as [|y m1]; simpl in X1.
        { inversion X1; subst p0. rewrite TP in X2. inversion X2. apply v_zero0. rewrite F1. auto. }
        { eapply v_ztid0; [|exact X2]. rewrite F1. auto. }
      * destruct (cal s) eqn:C; auto.
        { destruct v_cal0 as [x V]. exists x. rewrite F1 in V. destruct m1; simpl in *; [discriminate|auto]. }
        { destruct v_cal0 as [[x V] V2]. split; auto. exists x. rewrite F1 in V. destruct m1; simpl in *; [discriminate|auto]. }
    + (* test *)
      inversion E; subst s'; clear E. set (p := if (tid + 1 <? c_threads c) && (nblk s <? nb) then PAdd tid else PFetchBlock tid 0). rewrite set_thr_eq.
      assert (TP : tid_of p = Some tid) by (unfold p; destruct ((tid + 1 <? c_threads c) && (nblk s <? nb)); auto).
      assert (JP : jobs_of p = 0) by (unfold p; destruct ((tid + 1 <? c_threads c) && (nblk s <? nb)); auto).
      assert (DP : todo_of p = []) by (unfold p; destruct ((tid + 1 <? c_threads c) && (nblk s <? nb)); auto).
      match goal with |- PInv ?x => destruct (keep_tid s t _ p x I H TP ltac:(discriminate) eq_refl eq_refl) as [K1 [K2 [K3 [K4 K5]]]] end.
      destruct (upd_split _ _ _ p H) as [m1 [m2 [F1 [F2 F3]]]]. pose proof (done0 s t _ p I H ltac:(intros; discriminate)) as D0.
      destruct I. constructor; cbn [thr nid nblk fin trace check_failed cal qd] in *; rewrite ?F2 in *; auto.
      * rewrite F1 in v_pc0. apply Forall_app in v_pc0. destruct v_pc0 as [A1 A2]. inversion A2; subst.
        apply Forall_app. split; [auto|]. constructor; [|auto].
        unfold p. destruct ((tid + 1 <? c_threads c) && (nblk s <? nb)); simpl in *; lia.
      * rewrite sumz_app, sumz_cons, JP. rewrite F1, sumz_app, sumz_cons in v_fin0. simpl in v_fin0. unfold out in *. simpl. lia.
      * rewrite F1 in v_tr0. rewrite flat_map_app in *. simpl in *. rewrite DP. simpl. exact v_tr0.
      * destruct (cal s); auto. destruct v_cal0; auto.
    + (* add task *)
      inversion E; subst s'; clear E. rewrite set_thr_eq. simpl.
      match goal with |- PInv ?x => destruct (keep_tid s t _ (PFetchBlock tid 0) x I H eq_refl ltac:(discriminate) eq_refl eq_refl) as [K1 [K2 [K3 [K4 K5]]]] end.
      destruct (upd_split _ _ _ (PFetchBlock tid 0) H) as [m1 [m2 [F1 [F2 F3]]]]. pose proof (done0 s t _ (PFetchBlock tid 0) I H ltac:(intros; discriminate)) as D0.
      destruct I. constructor; cbn [thr nid nblk fin trace check_failed cal qd] in *; rewrite ?F2 in *; auto.
      * rewrite F1 in v_pc0. apply Forall_app in v_pc0. destruct v_pc0 as [A1 A2]. inversion A2; subst.
        apply Forall_app. split; [auto|]. constructor; [|auto]. simpl in *; lia.
      * rewrite sumz_app, sumz_cons. rewrite F1, sumz_app, sumz_cons in v_fin0. simpl in *. unfold out in *. simpl. lia.
      * rewrite F1 in v_tr0. rewrite flat_map_app in *. simpl in *. exact v_tr0.
      * destruct (cal s); auto. destruct v_cal0; auto.
    + (* fetch block *)
      inversion E; subst s'; clear E. rewrite set_thr_eq. simpl.
      set (p := if nblk s >=? nb then PFinish tid jobs else PRun tid (jobs + 1) (c_seg c (curr_start c (nblk s)) (curr_end c (nblk s)))).
      assert (TP : tid_of p = Some tid) by (unfold p; destruct (nblk s >=? nb); auto).
      match goal with |- PInv ?x => destruct (keep_tid s t _ p x I H TP ltac:(discriminate) eq_refl eq_refl) as [K1 [K2 [K3 [K4 K5]]]] end.
      destruct (upd_split _ _ _ p H) as [m1 [m2 [F1 [F2 F3]]]]. pose proof (done0 s t _ p I H ltac:(intros; discriminate)) as D0.
      destruct I. constructor; cbn [thr nid nblk fin trace check_failed cal qd] in *; rewrite ?F2 in *; auto.
      * rewrite F1 in v_pc0. apply Forall_app in v_pc0. destruct v_pc0 as [A1 A2]. inversion A2; subst.
        apply Forall_app. split; [eapply Forall_impl; [|exact A1]; intros; eapply pc_ok_mono; [|eassumption]; simpl; lia|].
        constructor; [|eapply Forall_impl; [|exact H3]; intros; eapply pc_ok_mono; [|eassumption]; simpl; lia].
        unfold p. destruct (Z.geb_spec (nblk s) nb); simpl in *; lia.
      * lia.
      * rewrite sumz_app, sumz_cons. rewrite F1, sumz_app, sumz_cons in v_fin0. simpl in v_fin0. unfold out in *. simpl.
        unfold p. destruct (Z.geb_spec (nblk s) nb); simpl; lia.
      * rewrite F1 in v_tr0. rewrite flat_map_app in *. simpl in *. unfold out in *. simpl.
        unfold p. destruct (Z.geb_spec (nblk s) nb); simpl.
        { rewrite Z.min_r in * by lia. exact v_tr0. }
        { rewrite Z.min_l in * by lia. rewrite curr_end_next.
          rewrite <- (w_seg c W (c_start c) (curr_start c (nblk s)) (curr_start c (nblk s + 1))); try lia.
          2:{ destruct (curr_start_le (nblk s)); lia. } 2:{ pose proof (curr_start_mono (nblk s)); lia. } 2:{ destruct (curr_start_le (nblk s + 1)); lia. }
          eapply Permutation_trans; [|apply Permutation_app_tail; exact v_tr0].
          set (A := map snd (trace s)). set (B := flat_map todo_of m1). set (C := flat_map todo_of m2). set (D := c_seg c _ _).
          rewrite <- !app_assoc. apply Permutation_app_head, Permutation_app_head. apply Permutation_app_comm. }
      * destruct (cal s); auto. destruct v_cal0; auto.
    + (* run *)
      destruct todo as [|i todo].
      * inversion E; subst s'; clear E. rewrite set_thr_eq. simpl.
        match goal with |- PInv ?x => destruct (keep_tid s t _ (PFetchBlock tid jobs) x I H eq_refl ltac:(discriminate) eq_refl eq_refl) as [K1 [K2 [K3 [K4 K5]]]] end.
        destruct (upd_split _ _ _ (PFetchBlock tid jobs) H) as [m1 [m2 [F1 [F2 F3]]]]. pose proof (done0 s t _ (PFetchBlock tid jobs) I H ltac:(intros; discriminate)) as D0.
        destruct I. constructor; cbn [thr nid nblk fin trace check_failed cal qd] in *; rewrite ?F2 in *; auto.
        { rewrite F1 in v_pc0. apply Forall_app in v_pc0. destruct v_pc0 as [A1 A2]. inversion A2; subst.
          apply Forall_app. split; [auto|]. constructor; [|auto]. simpl in *; lia. }
        { rewrite sumz_app, sumz_cons. rewrite F1, sumz_app, sumz_cons in v_fin0. simpl in *. unfold out in *. simpl. lia. }
        { rewrite F1 in v_tr0. rewrite flat_map_app in *. simpl in *. exact v_tr0. }
        { destruct (cal s); auto. destruct v_cal0; auto. }
      * inversion E; subst s'; clear E. rewrite set_thr_eq. simpl.
        match goal with |- PInv ?x => destruct (keep_tid s t _ (PRun tid jobs todo) x I H eq_refl ltac:(discriminate) eq_refl eq_refl) as [K1 [K2 [K3 [K4 K5]]]] end.
        destruct (upd_split _ _ _ (PRun tid jobs todo) H) as [m1 [m2 [F1 [F2 F3]]]]. pose proof (done0 s t _ (PRun tid jobs todo) I H ltac:(intros; discriminate)) as D0.
        destruct I. constructor; cbn [thr nid nblk fin trace check_failed cal qd] in *; rewrite ?F2 in *; auto.
        { rewrite F1 in v_pc0. apply Forall_app in v_pc0. destruct v_pc0 as [A1 A2]. inversion A2; subst.
          apply Forall_app. split; [auto|]. constructor; [|auto]. simpl in *; lia. }
        { rewrite sumz_app, sumz_cons. rewrite F1, sumz_app, sumz_cons in v_fin0. simpl in *. unfold out in *. simpl. lia. }
        { rewrite F1 in v_tr0. rewrite flat_map_app in *. simpl in *. unfold out in *. simpl. rewrite map_app. simpl.
          eapply Permutation_trans; [|exact v_tr0]. rewrite <- app_assoc. apply Permutation_app_head. simpl.
          apply Permutation_middle. }
        { intros e He. apply in_app_or in He. destruct He as [He|[<-|[]]]; auto. simpl in *. lia. }
        { destruct (cal s); auto. destruct v_cal0; auto. }
    + (* finish *)
      inversion E; subst s'; clear E.
      assert (FN : fin s + jobs <= nb).
      { pose proof (v_fin s I) as V. assert (P : 0 <= sumz jobs_of l1 /\ 0 <= sumz jobs_of l2).
        { pose proof (v_pc s I) as PP. rewrite E1 in PP. apply Forall_app in PP. destruct PP as [P1 P2]. inversion P2 as [|? ? P3 P4]; subst. clear - P1 P4.
          assert (G : forall l, Forall (pc_ok s) l -> 0 <= sumz jobs_of l).
          { induction l as [|x l IH]; intros F; simpl; [lia|]. inversion F; subst. specialize (IH H2). destruct x; simpl in *; lia. }
          split; apply G; auto. }
        rewrite E1, sumz_app, sumz_cons in V. simpl in V. unfold out in V. lia. }
      unfold finished. destruct (Z.eqb_spec jobs 0) as [J|J].
      * subst jobs. rewrite set_thr_eq. simpl.
        match goal with |- PInv ?x => destruct (keep_tid s t _ (PDone tid) x I H eq_refl ltac:(discriminate) eq_refl eq_refl) as [K1 [K2 [K3 [K4 K5]]]] end.
        destruct (upd_split _ _ _ (PDone tid) H) as [m1 [m2 [F1 [F2 F3]]]]. pose proof (done0 s t _ (PDone tid) I H ltac:(intros; discriminate)) as D0.
        destruct I. constructor; cbn [thr nid nblk fin trace check_failed cal qd] in *; rewrite ?F2 in *; auto.
        { rewrite F1 in v_pc0. apply Forall_app in v_pc0. destruct v_pc0 as [A1 A2]. inversion A2; subst.
          apply Forall_app. split; [auto|]. constructor; [|auto]. simpl in *; lia. }
        { rewrite sumz_app, sumz_cons. rewrite F1, sumz_app, sumz_cons in v_fin0. simpl in *. unfold out in *. simpl. lia. }
        { rewrite F1 in v_tr0. rewrite flat_map_app in *. simpl in *. exact v_tr0. }
        { destruct (cal s); auto. destruct v_cal0; auto. }
      * rewrite set_thr_eq. simpl.
        match goal with |- PInv ?x => destruct (keep_tid s t _ (PDone tid) x I H eq_refl ltac:(discriminate) eq_refl eq_refl) as [K1 [K2 [K3 [K4 K5]]]] end.
        destruct (upd_split _ _ _ (PDone tid) H) as [m1 [m2 [F1 [F2 F3]]]]. pose proof (done0 s t _ (PDone tid) I H ltac:(intros; discriminate)) as D0.
        destruct I. constructor; cbn [thr nid nblk fin trace check_failed cal qd] in *; rewrite ?F2 in *; auto.
        { rewrite F1 in v_pc0. apply Forall_app in v_pc0. destruct v_pc0 as [A1 A2]. inversion A2; subst.
          apply Forall_app. split; [auto|]. constructor; [|auto]. simpl in *; lia. }
        { rewrite sumz_app, sumz_cons. rewrite F1, sumz_app, sumz_cons in v_fin0. simpl in *. unfold out in *. simpl. lia. }
        { simpl in OKq. lia. }
        { rewrite F1 in v_tr0. rewrite flat_map_app in *. simpl in *. exact v_tr0. }
        { rewrite v_chk0. destruct (Z.leb_spec (fin s + jobs) nb); simpl; auto. lia. }
        { destruct (Z.eqb_spec (fin s + jobs) nb); destruct (cal s); auto; simpl in OKq;
            solve [lia | destruct v_cal0; auto | destruct v_cal0; split; auto]. }
    + discriminate.
  - (* start *)
    unfold start_step in E. destruct (qd s) as [|n] eqn:Q; [discriminate|]. inversion E; subst s'; clear E.
    assert (NZ : nid s <> 0). { intros Z. destruct (v_first s I) as [_ V]. destruct (V Z). congruence. }
    destruct I. constructor; cbn [thr nid nblk fin trace check_failed cal qd]; auto.
    + apply Forall_app. split; [auto|]. constructor; simpl; auto.
    + rewrite tids_app. simpl. rewrite app_nil_r. auto.
    + intros t0. rewrite tids_app. simpl. rewrite app_nil_r. auto.
    + rewrite sumz_app. simpl. unfold out in *. simpl. lia.
    + rewrite flat_map_app. simpl. rewrite app_nil_r. auto.
    + split; [destruct (thr s); discriminate|]. congruence.
    + intros X. destruct (thr s) as [|y l] eqn:T; [destruct v_first0 as [V _]; congruence|]. simpl in X. apply v_zero0. auto.
    + intros t0 p0 X1 X2. destruct (thr s) as [|y l] eqn:T; [destruct v_first0 as [V _]; congruence|]. simpl in X1. eapply v_ztid0; [|exact X2]. auto.
    + assert (D : forall x, nth_error (thr s) 0 = Some (PDone x) -> nth_error (thr s ++ [PFetchId]) 0 = Some (PDone x)) by (intros x; destruct (thr s); simpl; [discriminate|auto]).
      destruct (cal s); auto. { destruct v_cal0 as [x V]. eauto. } { destruct v_cal0 as [[x V] V2]. eauto. }
  - (* caller *)
    unfold caller_step in E. destruct (cal s) eqn:C; try discriminate.
    + destruct (nth_error (thr s) 0) as [[| | | | | |x]|] eqn:T; try discriminate. inversion E; subst s'; clear E.
      destruct I. constructor; cbn [thr nid nblk fin trace check_failed cal qd set_cal]; auto. eauto.
    + inversion E; subst s'; clear E. destruct I. rewrite C in v_cal0.
      constructor; cbn [thr nid nblk fin trace check_failed cal qd set_cal]; auto.
      destruct (Z.eqb_spec (fin s) nb); auto.
  - unfold spurious_step in E. destruct (cal s) eqn:C; try discriminate. inversion E; subst s'; clear E.
    destruct I. rewrite C in v_cal0. constructor; cbn [thr nid nblk fin trace check_failed cal qd set_cal]; auto. apply v_cal0.
Qed.

Lemma inv_exec : forall acts s s', PInv s -> exec c acts s = Some s' -> PInv s'.
Proof.
  induction acts as [|a acts IH]; intros s s' I E; simpl in E; [inversion E; subst; auto|].
  destruct (step c a s) eqn:H; [|discriminate]. eapply IH; [|exact E]. eapply inv_step; eauto.
Qed.
End Call.
