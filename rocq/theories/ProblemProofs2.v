(** Invariant of ProblemImpl and its preservation by every edit. *)
Require Import ZArith List Lia Bool Permutation.
From Verif Require Import ZMap Dbl ProblemModel ProblemSpec ProblemProofs1.
Import ListNotations.
Open Scope Z_scope.

Definition rcore (rb : rblock) : Z * Z * list Z := (r_cost rb, r_loss rb, r_params rb).
Definition pidx (s : problem) (p : Z) : option Z := option_map b_index (zfind p (p_pheap s)).
Definition ridx (s : problem) (r : Z) : option Z := option_map r_index (zfind r (p_rheap s)).
Definition ncost (c : Z) (s : problem) : nat := zcount (fun rb => r_cost rb =? c) (p_rheap s).
Definition nloss (l : Z) (s : problem) : nat := zcount (fun rb => (r_loss rb =? l) && negb (l =? 0)) (p_rheap s).

Definition refs_ok (m : zmap Z) (n : Z -> nat) : Prop :=
  forall c, zfind c m = if Nat.eqb (n c) 0 then None else Some (Z.of_nat (n c)).

Record Inv (s : problem) : Prop := mkInv {
  i_sp : zsorted (p_pheap s);
  i_sr : zsorted (p_rheap s);
  i_sm : zsorted (p_pmap s);
  i_ss : zsorted (p_rset s);
  i_sc : zsorted (p_cref s);
  i_sl : zsorted (p_lref s);
  i_pv : indexed (p_pvec s) (pidx s);
  i_rv : indexed (p_rvec s) (ridx s);
  i_pm : forall a p, zfind a (p_pmap s) = Some p <-> exists b, zfind p (p_pheap s) = Some b /\ b_addr b = a;
  i_rp : forall r rb, zfind r (p_rheap s) = Some rb ->
         NoDup (r_params rb) /\ r <> 0 /\ forall p, In p (r_params rb) -> zfind p (p_pheap s) <> None;
  i_dep : forall p b, zfind p (p_pheap s) = Some b ->
          if o_fast (p_opts s)
          then exists d, b_deps b = Some d /\ zsorted d /\
               forall r, In r (zkeys d) <-> exists rb, zfind r (p_rheap s) = Some rb /\ In p (r_params rb)
          else b_deps b = None;
  i_rs : if o_fast (p_opts s) then forall r, In r (zkeys (p_rset s)) <-> zfind r (p_rheap s) <> None
         else p_rset s = [];
  i_cr : if o_cost_own (p_opts s) then refs_ok (p_cref s) (fun c => ncost c s) else p_cref s = [];
  i_lr : if o_loss_own (p_opts s) then refs_ok (p_lref s) (fun l => nloss l s) else p_lref s = [];
  i_ch : forall p b p' b', zfind p (p_pheap s) = Some b -> zfind p' (p_pheap s) = Some b' ->
         b_addr b < b_addr b' -> b_addr b + b_size b <= b_addr b';
  i_nx : forall p, zfind p (p_pheap s) <> None -> p < p_next s;
  i_bl : forall p b, zfind p (p_pheap s) = Some b -> b_addr b <> 0 /\
         (forall l, b_lo b = Some l -> length l = Z.to_nat (b_size b)) /\
         (forall l, b_hi b = Some l -> length l = Z.to_nat (b_size b)) }.

Lemma inv_new : forall o, Inv (new_problem o).
Proof.
  intros o. constructor; simpl; try (constructor; fail); try (intros; discriminate); try (intros; congruence).
  - split; [intros [|i] p H; discriminate | intros p z H; discriminate].
  - split; [intros [|i] p H; discriminate | intros p z H; discriminate].
  - intros a p. split; [discriminate|]. intros [b [H _]]. discriminate.
  - destruct (o_fast o); auto. intros r. split; [contradiction|congruence].
  - destruct (o_cost_own o); auto. intros c. reflexivity.
  - destruct (o_loss_own o); auto. intros c. reflexivity.
Qed.

(** Two live blocks at one address are the same. *)
Lemma addr_unique : forall s p b p' b', Inv s -> zfind p (p_pheap s) = Some b -> zfind p' (p_pheap s) = Some b' ->
  b_addr b = b_addr b' -> p = p' /\ b = b'.
Proof.
  intros s p b p' b' I H H' E.
  assert (A : zfind (b_addr b) (p_pmap s) = Some p) by (apply (i_pm s I); eauto).
  assert (B : zfind (b_addr b) (p_pmap s) = Some p') by (apply (i_pm s I); eauto).
  assert (p = p') by congruence. subst. split; congruence.
Qed.

(** ** Correspondence with the specification state *)
Definition view (v : Z) (s : problem) : option pblock :=
  match zfind v (p_pmap s) with Some p => zfind p (p_pheap s) | None => None end.
Definition addr_of (s : problem) (p : Z) : Z :=
  match zfind p (p_pheap s) with Some b => b_addr b | None => 0 end.
Definition rview (r : Z) (s : problem) : option (Z * Z * list Z) :=
  match zfind r (p_rheap s) with
  | Some rb => Some (r_cost rb, r_loss rb, map (addr_of s) (r_params rb))
  | None => None
  end.
Definition lo_at (b : pblock) (k : Z) : dbl :=
  match b_lo b with None => DBL_LOWEST | Some l => nth (Z.to_nat k) l NaN end.
Definition hi_at (b : pblock) (k : Z) : dbl :=
  match b_hi b with None => DBL_MAX | Some l => nth (Z.to_nat k) l NaN end.

Definition prel (ob : option pblock) (oi : option pinfo) : Prop :=
  match ob, oi with
  | None, None => True
  | Some b, Some i => b_size b = i_size i /\ b_const b = i_const i /\ b_man b = i_man i /\
       (forall k, 0 <= k < b_size b -> reports_lo (i_lo i k) (lo_at b k) /\ reports_hi (i_hi i k) (hi_at b k))
  | _, _ => False
  end.

Definition Rel (s : problem) (a : pspec) : Prop :=
  (forall v, prel (view v s) (a_par a v)) /\ (forall r, rview r s = a_res a r).

Lemma rel_new : forall o, Rel (new_problem o) empty_spec.
Proof. intros o. split; intros; simpl; auto. Qed.

Lemma view_pm : forall s v b, Inv s -> (view v s = Some b <-> exists p, zfind p (p_pheap s) = Some b /\ b_addr b = v).
Proof.
  intros s v b I. unfold view. split.
  - destruct (zfind v (p_pmap s)) as [p|] eqn:E; [|discriminate]. intros H. exists p. split; auto.
    apply (i_pm s I) in E. destruct E as [b' [E1 E2]]. congruence.
  - intros [p [H1 H2]]. assert (E : zfind v (p_pmap s) = Some p) by (apply (i_pm s I); eauto). rewrite E. auto.
Qed.

Lemma view_find : forall s v p, Inv s -> zfind v (p_pmap s) = Some p ->
  exists b, zfind p (p_pheap s) = Some b /\ b_addr b = v /\ view v s = Some b.
Proof.
  intros s v p I H. pose proof H as H'. apply (i_pm s I) in H'. destruct H' as [b [H1 H2]].
  exists b. split; auto. split; auto. unfold view. rewrite H. auto.
Qed.

Lemma view_none : forall s v, Inv s -> (view v s = None <-> zfind v (p_pmap s) = None).
Proof.
  intros s v I. unfold view. destruct (zfind v (p_pmap s)) as [p|] eqn:E; [|intuition].
  destruct (view_find s v p I E) as [b [H1 [H2 _]]]. rewrite H1. split; discriminate.
Qed.

Lemma rel_par_none : forall s a v, Rel s a -> (view v s = None <-> a_par a v = None).
Proof.
  intros s a v [R _]. specialize (R v). unfold prel in R.
  destruct (view v s), (a_par a v); intuition congruence.
Qed.

(** ** Replacing one parameter block by one with the same identity *)
Definition same_frame (b b' : pblock) : Prop :=
  b_addr b' = b_addr b /\ b_size b' = b_size b /\ b_index b' = b_index b /\
  b_deps b' = b_deps b /\
  (forall l, b_lo b' = Some l -> length l = Z.to_nat (b_size b)) /\
  (forall l, b_hi b' = Some l -> length l = Z.to_nat (b_size b)).

Lemma inv_update : forall s p b b', Inv s -> zfind p (p_pheap s) = Some b -> same_frame b b' ->
  Inv (set_pheap s (zput p b' (p_pheap s))).
Proof.
  intros s p b b' I H [F1 [F2 [F3 [F4 [F6 F7]]]]].
  assert (G : forall q c, zfind q (zput p b' (p_pheap s)) = Some c ->
     exists c0, zfind q (p_pheap s) = Some c0 /\ b_addr c = b_addr c0 /\ b_size c = b_size c0 /\ b_deps c = b_deps c0).
  { intros q c Hq. rewrite zfind_put in Hq. destruct (Z.eqb_spec q p).
    - inversion Hq; subst. exists b. auto.
    - exists c. auto. }
  assert (N : forall q, zfind q (zput p b' (p_pheap s)) <> None <-> zfind q (p_pheap s) <> None).
  { intros q. rewrite zfind_put. destruct (Z.eqb_spec q p); [subst; rewrite H; split; discriminate|tauto]. }
  destruct I; constructor; simpl; auto.
  - apply zsorted_put; auto.
  - eapply indexed_ext; [|exact i_pv0]. intros q. unfold pidx. simpl. rewrite zfind_put.
    destruct (Z.eqb_spec q p); auto. subst. rewrite H. simpl. congruence.
  - intros a q. rewrite i_pm0. rewrite zfind_put. destruct (Z.eqb_spec q p); [|tauto]. subst.
    split; intros [c [C1 C2]].
    + exists b'. split; auto. congruence.
    + inversion C1; subst. exists b. auto.
  - intros r rb Hr. destruct (i_rp0 r rb Hr) as [A [B C]]. split; auto. split; auto. intros q Hq. rewrite N. auto.
  - intros q c Hq. destruct (G q c Hq) as [c0 [C0 [C1 [C2 C3]]]]. rewrite C3. exact (i_dep0 q c0 C0).
  - intros q c q' c' Hq Hq'. destruct (G q c Hq) as [c0 [C0 [C1 [C2 _]]]].
    destruct (G q' c' Hq') as [c0' [C0' [C1' [C2' _]]]]. rewrite C1, C1', C2. apply (i_ch0 q c0 q' c0'); auto.
  - intros q Hq. apply i_nx0. apply N. auto.
  - intros q c Hq. rewrite zfind_put in Hq. destruct (Z.eqb_spec q p).
    + inversion Hq; subst. destruct (i_bl0 p b H) as [B _]. rewrite F1, F2. auto.
    + exact (i_bl0 q c Hq).
Qed.

Lemma view_update : forall s p b b' v, Inv s -> zfind p (p_pheap s) = Some b -> b_addr b' = b_addr b ->
  view v (set_pheap s (zput p b' (p_pheap s))) = if v =? b_addr b then Some b' else view v s.
Proof.
  intros s p b b' v I H E. unfold view. simpl.
  destruct (Z.eqb_spec v (b_addr b)).
  - subst v. assert (P : zfind (b_addr b) (p_pmap s) = Some p) by (apply (i_pm s I); eauto).
    rewrite P, zfind_put_same. auto.
  - destruct (zfind v (p_pmap s)) as [q|] eqn:Q; auto. rewrite zfind_put.
    destruct (Z.eqb_spec q p); auto. subst. apply (i_pm s I) in Q. destruct Q as [c [C1 C2]]. congruence.
Qed.

Lemma addr_of_update : forall s p b b' q, zfind p (p_pheap s) = Some b -> b_addr b' = b_addr b ->
  addr_of (set_pheap s (zput p b' (p_pheap s))) q = addr_of s q.
Proof.
  intros. unfold addr_of. simpl. rewrite zfind_put. destruct (Z.eqb_spec q p); auto. subst. rewrite H. auto.
Qed.

Lemma rview_update : forall s p b b' r, zfind p (p_pheap s) = Some b -> b_addr b' = b_addr b ->
  rview r (set_pheap s (zput p b' (p_pheap s))) = rview r s.
Proof.
  intros. unfold rview. simpl. destruct (zfind r (p_rheap s)); auto. f_equal. f_equal.
  apply map_ext. intros. eapply addr_of_update; eauto.
Qed.

Lemma rel_update : forall s a p b b' f, Inv s -> Rel s a -> zfind p (p_pheap s) = Some b -> b_addr b' = b_addr b ->
  (forall i, a_par a (b_addr b) = Some i -> prel (Some b) (Some i) -> prel (Some b') (Some (f i))) ->
  Rel (set_pheap s (zput p b' (p_pheap s))) (upd_par (b_addr b) f a).
Proof.
  intros s a p b b' f I [R1 R2] H E F.
  assert (V : view (b_addr b) s = Some b) by (apply view_pm; eauto).
  pose proof (R1 (b_addr b)) as R1b. rewrite V in R1b.
  destruct (a_par a (b_addr b)) as [i|] eqn:A; [|contradiction].
  unfold upd_par. rewrite A. split.
  - intros v. rewrite (view_update s p b b' v I H E). simpl. unfold fupd.
    destruct (Z.eqb_spec v (b_addr b)); [apply F; auto|apply R1].
  - intros r. rewrite (rview_update s p b b' r H E). apply R2.
Qed.

(** ** InternalAddParameterBlock *)
Definition noconflict (s : problem) (v size : Z) : Prop :=
  forall p b, zfind p (p_pheap s) = Some b -> apart (b_addr b) (b_size b) v size.

Lemma alias_apart : forall a sa v s, regions_alias a sa v s = false <-> apart a sa v s.
Proof.
  intros. unfold regions_alias, apart. destruct (Z.ltb_spec a v); rewrite Z.ltb_ge; lia.
Qed.

Lemma alias_check : forall s v size, Inv s -> zfind v (p_pmap s) = None ->
  let r := bind (check_no_alias s (prev_entry v (p_pmap s)) v size)
                (fun _ => check_no_alias s (lower_bound v (p_pmap s)) v size) in
  (r = Ok tt /\ noconflict s v size) \/ (r = Abort /\ ~ noconflict s v size).
Proof.
  intros s v size I Hv.
  pose proof (prev_entry_spec Z v (p_pmap s) (i_sm s I)) as P.
  pose proof (lower_bound_spec Z v (p_pmap s) (i_sm s I)) as L.
  assert (KEY : forall a p, zfind a (p_pmap s) = Some p -> exists b, zfind p (p_pheap s) = Some b /\ b_addr b = a).
  { intros a p. apply (i_pm s I). }
  assert (LIVE : forall p b, zfind p (p_pheap s) = Some b -> zfind (b_addr b) (p_pmap s) = Some p).
  { intros p b Hb. apply (i_pm s I). eauto. }
  unfold check_no_alias. cbv zeta.
  destruct (prev_entry v (p_pmap s)) as [[a1 p1]|].
  - destruct P as [P1 [P2 P3]]. destruct (KEY _ _ P1) as [b1 [B1 E1]]. rewrite B1. cbn [deref bind check].
    destruct (regions_alias a1 (b_size b1) v size) eqn:RA.
    + right. cbn. split; auto. intros N. specialize (N _ _ B1). rewrite E1 in N. apply alias_apart in N. congruence.
    + cbn. apply alias_apart in RA.
      destruct (lower_bound v (p_pmap s)) as [[a2 p2]|].
      * destruct L as [L1 [L2 L3]]. destruct (KEY _ _ L1) as [b2 [B2 E2]]. rewrite B2. cbn.
        destruct (regions_alias a2 (b_size b2) v size) eqn:RA2.
        -- right. split; auto. intros N. specialize (N _ _ B2). rewrite E2 in N. apply alias_apart in N. congruence.
        -- left. split; auto. apply alias_apart in RA2. intros p b Hb. pose proof (LIVE _ _ Hb) as Lb.
           assert (b_addr b <> v) by congruence.
           unfold apart in *. split; intros C.
           ++ assert (b_addr b <= a1) by (apply P3; [congruence|lia]).
              destruct (Z.eq_dec (b_addr b) a1) as [E|E].
              ** assert (b = b1) by (eapply (proj2 (addr_unique s p b p1 b1 I Hb B1 ltac:(congruence)))). subst. lia.
              ** assert (b_addr b + b_size b <= b_addr b1) by (apply (i_ch s I p b p1 b1); auto; lia). lia.
           ++ assert (a2 <= b_addr b) by (apply L3; [congruence|lia]). lia.
      * left. split; auto. intros p b Hb. pose proof (LIVE _ _ Hb) as Lb.
        assert (b_addr b < v) by (apply L; congruence).
        unfold apart in *. split; intros C; [|lia].
        assert (b_addr b <= a1) by (apply P3; [congruence|lia]).
        destruct (Z.eq_dec (b_addr b) a1) as [E|E].
        ** assert (b = b1) by (eapply (proj2 (addr_unique s p b p1 b1 I Hb B1 ltac:(congruence)))). subst. lia.
        ** assert (b_addr b + b_size b <= b_addr b1) by (apply (i_ch s I p b p1 b1); auto; lia). lia.
  - cbn. destruct (lower_bound v (p_pmap s)) as [[a2 p2]|].
    + destruct L as [L1 [L2 L3]]. destruct (KEY _ _ L1) as [b2 [B2 E2]]. rewrite B2. cbn.
      destruct (regions_alias a2 (b_size b2) v size) eqn:RA2.
      -- right. split; auto. intros N. specialize (N _ _ B2). rewrite E2 in N. apply alias_apart in N. congruence.
      -- left. split; auto. apply alias_apart in RA2. intros p b Hb. pose proof (LIVE _ _ Hb) as Lb.
         assert (v <= b_addr b) by (apply P; congruence).
         assert (b_addr b <> v) by congruence.
         unfold apart in *. split; intros C; [lia|].
         assert (a2 <= b_addr b) by (apply L3; [congruence|lia]). lia.
    + left. split; auto. intros p b Hb. pose proof (LIVE _ _ Hb) as Lb.
      assert (v <= b_addr b) by (apply P; congruence).
      assert (b_addr b < v) by (apply L; congruence). lia.
Qed.
