(** Removal of residual blocks and parameter blocks: whole calls. *)
Require Import ZArith List Lia Bool Permutation.
From Verif Require Import ZMap Dbl ProblemModel ProblemSpec ProblemProofs1 ProblemProofs2 ProblemProofs3 ProblemProofs4.
Import ListNotations.
Open Scope Z_scope.

(** Number of times an object must have been freed when its use count goes
    from [n] to [n'] without ever going up. *)
Definition dies (own : bool) (n n' : nat) : nat := if own && Nat.ltb 0 n && Nat.eqb n' 0 then 1%nat else 0%nat.

Definition frees (s s' : problem) : Prop :=
  exists l, p_log s' = p_log s ++ l /\
     (forall c, nfreed (FCost c) l = dies (o_cost_own (p_opts s)) (ncost c s) (ncost c s')) /\
     (forall c, nfreed (FLoss c) l = dies (o_loss_own (p_opts s)) (nloss c s) (nloss c s')) /\
     (forall m, nfreed (FManifold m) l = 0%nat).

Record shrink (D : Z -> bool) (s s' : problem) : Prop := mkShr {
  sh_opts : p_opts s' = p_opts s;
  sh_pmap : p_pmap s' = p_pmap s;
  sh_pvec : p_pvec s' = p_pvec s;
  sh_mdel : p_mdel s' = p_mdel s;
  sh_next : p_next s' = p_next s;
  sh_heap : same_but_deps (p_pheap s) (p_pheap s');
  sh_rheap : forall q, option_map rcore (zfind q (p_rheap s')) =
                       if D q then None else option_map rcore (zfind q (p_rheap s));
  sh_log : frees s s';
  sh_nc : forall c, (ncost c s' <= ncost c s)%nat;
  sh_nl : forall c, (nloss c s' <= nloss c s)%nat }.

Lemma shrink_removed : forall r s s', removed r s s' -> shrink (fun q => q =? r) s s'.
Proof. intros r s s' R. destruct R. constructor; auto. Qed.

Lemma dies_same : forall b n, dies b n n = 0%nat.
Proof. intros b n. unfold dies. destruct b; auto. destruct n; reflexivity. Qed.

Lemma dies_trans : forall b n1 n2 n3, (n2 <= n1)%nat -> (n3 <= n2)%nat -> (dies b n1 n2 + dies b n2 n3 = dies b n1 n3)%nat.
Proof.
  intros b n1 n2 n3 H1 H2. unfold dies. destruct b; simpl; auto.
  destruct (Nat.ltb_spec 0 n1), (Nat.ltb_spec 0 n2), (Nat.eqb_spec n2 0), (Nat.eqb_spec n3 0); simpl; lia.
Qed.

Lemma nfreed_app : forall x l l', nfreed x (l ++ l') = (nfreed x l + nfreed x l')%nat.
Proof. intros. apply count_occ_app. Qed.

Lemma shrink_refl : forall s, shrink (fun _ => false) s s.
Proof.
  intros s. constructor; auto.
  - apply same_but_deps_refl.
  - exists []. split; [rewrite app_nil_r; auto|]. split; [|split]; intros; rewrite ?dies_same; reflexivity.
Qed.

Lemma shrink_trans : forall D1 D2 s1 s2 s3, shrink D1 s1 s2 -> shrink D2 s2 s3 -> shrink (fun q => D1 q || D2 q) s1 s3.
Proof.
  intros D1 D2 s1 s2 s3 A B. destruct A, B. constructor; try congruence.
  - eapply same_but_deps_trans; eauto.
  - intros q. rewrite sh_rheap1, sh_rheap0. destruct (D1 q), (D2 q); auto.
  - destruct sh_log0 as [l1 [L1 [C1 [N1 M1]]]]. destruct sh_log1 as [l2 [L2 [C2 [N2 M2]]]].
    exists (l1 ++ l2). split; [rewrite L2, L1, app_assoc; auto|]. split; [|split].
    + intros c. rewrite nfreed_app, C1, C2. rewrite sh_opts0. apply dies_trans; auto.
    + intros c. rewrite nfreed_app, N1, N2. rewrite sh_opts0. apply dies_trans; auto.
    + intros m. rewrite nfreed_app, M1, M2. auto.
  - intros c. etransitivity; eauto.
  - intros c. etransitivity; eauto.
Qed.

Lemma shrink_ext : forall D D' s s', (forall q, D q = D' q) -> shrink D s s' -> shrink D' s s'.
Proof. intros D D' s s' E H. destruct H; constructor; auto. intros q. rewrite <- E. auto. Qed.

(** Outside the live residual blocks [D] does not matter. *)
Lemma shrink_ext_live : forall D D' s s', (forall q, zfind q (p_rheap s) <> None -> D q = D' q) -> shrink D s s' -> shrink D' s s'.
Proof.
  intros D D' s s' E H. destruct H; constructor; auto. intros q. rewrite sh_rheap0.
  destruct (zfind q (p_rheap s)) eqn:F.
  - rewrite E; auto. congruence.
  - simpl. destruct (D q), (D' q); auto.
Qed.

Lemma shrink_view : forall D s s' v, shrink D s s' ->
  match view v s, view v s' with
  | Some b, Some b' => b_addr b' = b_addr b /\ b_size b' = b_size b /\ b_lo b' = b_lo b /\ b_hi b' = b_hi b /\ b_const b' = b_const b /\ b_man b' = b_man b
  | None, None => True
  | _, _ => False
  end.
Proof.
  intros D s s' v H. destruct H. destruct sh_heap0 as [g [G1 G2]]. unfold view. rewrite sh_pmap0.
  destruct (zfind v (p_pmap s)) as [p|]; auto. rewrite G1. destruct (zfind p (p_pheap s)) as [b|]; simpl; auto.
  destruct (G2 p b) as [A1 [A2 [A3 [A4 [A5 [A6 [A7 A8]]]]]]]. auto 10.
Qed.

Lemma shrink_addr : forall D s s' p, shrink D s s' -> addr_of s' p = addr_of s p.
Proof.
  intros D s s' p H. destruct H. destruct sh_heap0 as [g [G1 G2]]. unfold addr_of. rewrite G1.
  destruct (zfind p (p_pheap s)) as [b|]; simpl; auto. apply G2.
Qed.

Lemma shrink_rview : forall D s s' r, shrink D s s' -> rview r s' = if D r then None else rview r s.
Proof.
  intros D s s' r H. unfold rview. pose proof (sh_rheap D s s' H r) as E.
  destruct (zfind r (p_rheap s')) as [rb'|], (zfind r (p_rheap s)) as [rb|], (D r); simpl in E; try discriminate; auto.
  unfold rcore in E. inversion E. f_equal. f_equal. apply map_ext. intros p. eapply shrink_addr; eauto.
Qed.

Lemma rel_shrink : forall D s s' a, shrink D s s' -> Rel s a ->
  Rel s' (mkS (a_par a) (fun r => if D r then None else a_res a r)).
Proof.
  intros D s s' a H [R1 R2]. split.
  - intros v. simpl. specialize (R1 v). pose proof (shrink_view D s s' v H) as V. unfold prel in *.
    destruct (view v s) as [b|], (view v s') as [b'|], (a_par a v) as [i|]; auto; try contradiction.
    destruct V as [V1 [V2 [V3 [V4 [V5 V6]]]]]. destruct R1 as [A1 [A2 [A3 A4]]].
    split; [congruence|]. split; [congruence|]. split; [congruence|].
    intros k Hk. unfold lo_at, hi_at in *. rewrite V3, V4. apply A4. lia.
  - intros r. simpl. rewrite (shrink_rview D s s' r H), R2. auto.
Qed.

Lemma rel_ext : forall s a a', (forall v, a_par a v = a_par a' v) -> (forall r, a_res a r = a_res a' r) -> Rel s a -> Rel s a'.
Proof. intros s a a' E1 E2 [R1 R2]. split; intros; [rewrite <- E1|rewrite <- E2]; auto. Qed.

(** ** RemoveResidualBlock *)
Lemma live_iff : forall s r, Inv s -> (In r (p_rvec s) <-> zfind r (p_rheap s) <> None).
Proof.
  intros s r I. rewrite (indexed_in _ _ r (i_rv s I)). unfold ridx. destruct (zfind r (p_rheap s)); simpl; split; congruence.
Qed.

Lemma plive_iff : forall s p, Inv s -> (In p (p_pvec s) <-> zfind p (p_pheap s) <> None).
Proof.
  intros s p I. rewrite (indexed_in _ _ p (i_pv s I)). unfold pidx. destruct (zfind p (p_pheap s)); simpl; split; congruence.
Qed.

Lemma rel_res_none : forall s a r, Rel s a -> (zfind r (p_rheap s) = None <-> a_res a r = None).
Proof.
  intros s a r [_ R]. specialize (R r). unfold rview in R. destruct (zfind r (p_rheap s)).
  - rewrite <- R. split; discriminate.
  - rewrite <- R. tauto.
Qed.

Lemma remove_residual_ok : forall s a r, Inv s -> Rel s a ->
  match remove_residual r s with
  | Ok s' => a_res a r <> None /\ Inv s' /\ Rel s' (set_res r None a) /\ shrink (fun q => q =? r) s s'
  | Abort => a_res a r = None
  | _ => False
  end.
Proof.
  intros s a r I R. unfold remove_residual.
  assert (L : negb (r =? 0) = true /\ (if o_fast (p_opts s) then zsmem r (p_rset s) else existsb (Z.eqb r) (p_rvec s)) = true <-> zfind r (p_rheap s) <> None).
  { split.
    - intros [_ H]. pose proof (i_rs s I) as X. destruct (o_fast (p_opts s)).
      + apply X. apply zsmem_true; auto.
      + apply live_iff; auto. apply existsb_eqb; auto.
    - intros H. split.
      + destruct (zfind r (p_rheap s)) as [rb|] eqn:E; [|congruence]. destruct (i_rp s I r rb E) as [_ [N _]].
        destruct (Z.eqb_spec r 0); auto.
      + pose proof (i_rs s I) as X. destruct (o_fast (p_opts s)).
        * apply zsmem_true. apply X; auto.
        * apply existsb_eqb. apply live_iff; auto. }
  destruct (negb (r =? 0)) eqn:E0; cbn [check bind].
  2:{ apply (rel_res_none s a r R). destruct (zfind r (p_rheap s)); auto. exfalso. destruct L as [_ L]. destruct L; congruence. }
  replace (if o_fast (p_opts s) then check (zsmem r (p_rset s)) else check (existsb (Z.eqb r) (p_rvec s)))
    with (check (if o_fast (p_opts s) then zsmem r (p_rset s) else existsb (Z.eqb r) (p_rvec s))) by (destruct (o_fast (p_opts s)); auto).
  destruct (if o_fast (p_opts s) then zsmem r (p_rset s) else existsb (Z.eqb r) (p_rvec s)) eqn:E1; cbn [check bind].
  2:{ apply (rel_res_none s a r R). destruct (zfind r (p_rheap s)); auto. exfalso. destruct L as [_ L]. destruct L; congruence. }
  assert (LV : zfind r (p_rheap s) <> None) by (apply L; auto).
  destruct (internal_remove_ok s r I LV) as [s' [-> [I' RM]]].
  split; [rewrite <- (rel_res_none s a r R); auto|]. split; auto.
  apply shrink_removed in RM. split; auto.
  eapply rel_ext; [| |eapply rel_shrink; eauto]; auto.
Qed.

(** ** The residual blocks using a parameter block *)
Definition uses (p : Z) (s : problem) (q : Z) : bool :=
  match zfind q (p_rheap s) with Some rb => existsb (Z.eqb p) (r_params rb) | None => false end.

Lemma uses_core : forall p s q, uses p s q = match option_map rcore (zfind q (p_rheap s)) with Some (_, _, ps) => existsb (Z.eqb p) ps | None => false end.
Proof. intros. unfold uses, rcore. destruct (zfind q (p_rheap s)); auto. Qed.

Lemma scan_remove_ok : forall p n s, Inv s -> (n <= length (p_rvec s))%nat ->
  (forall i r, (n <= i)%nat -> nth_error (p_rvec s) i = Some r -> uses p s r = false) ->
  exists s', scan_remove p n s = Ok s' /\ Inv s' /\ shrink (uses p s) s s'.
Proof.
  intros p; induction n as [|n IH]; intros s I Hn Hd.
  - exists s. split; auto. split; auto. eapply shrink_ext_live; [|apply shrink_refl].
    intros q Hq. apply live_iff in Hq; auto. apply In_nth_error in Hq. destruct Hq as [i Hi].
    symmetry. eapply Hd; [|eauto]. lia.
  - cbn [scan_remove]. destruct (nth_error (p_rvec s) n) as [r|] eqn:EN; [|apply nth_error_None in EN; lia].
    cbn [deref bind]. destruct (zfind r (p_rheap s)) as [rb|] eqn:ER.
    2:{ exfalso. assert (In r (p_rvec s)) by (eapply nth_error_In; eauto). apply live_iff in H; auto. }
    cbn [deref bind]. destruct (existsb (Z.eqb p) (r_params rb)) eqn:EU.
    + destruct (internal_remove_ok s r I) as [s1 [-> [I1 RM]]]; [congruence|]. cbn [bind].
      pose proof (shrink_removed r s s1 RM) as SH.
      destruct (rm_rvec r s s1 RM) as [rb' [tmp [E1 [E2 E3]]]]. assert (rb' = rb) by congruence. subst rb'.
      assert (IX : Z.to_nat (r_index rb) = n).
      { destruct (i_rv s I) as [X _]. specialize (X n r EN). unfold ridx in X. rewrite ER in X. simpl in X. inversion X. lia. }
      rewrite IX in E3.
      assert (U1 : forall q, uses p s1 q = if q =? r then false else uses p s q).
      { intros q. rewrite !uses_core. rewrite (rm_rheap r s s1 RM q). destruct (q =? r); auto. }
      destruct (IH s1 I1) as [s2 [A1 [A2 A3]]].
      * rewrite E3, vremove_length. lia.
      * intros i q Hi Hq. rewrite E3, vremove_nth in Hq.
        destruct (Nat.ltb_spec i (length (p_rvec s) - 1)); [|discriminate].
        assert (exists j, (S n <= j)%nat /\ nth_error (p_rvec s) j = Some q).
        { destruct (Nat.eqb_spec i n).
          - inversion Hq; subst q. exists (length (p_rvec s) - 1)%nat. split; [lia|].
            rewrite <- hd_rev_last; auto. intros C. rewrite C in Hn. simpl in Hn. lia.
          - exists i. split; auto. lia. }
        destruct H0 as [j [J1 J2]]. rewrite U1. destruct (q =? r); auto. eapply Hd; eauto.
      * exists s2. split; auto. split; auto. eapply shrink_ext; [|eapply shrink_trans; eauto].
        intros q. cbv beta. rewrite U1. destruct (Z.eqb_spec q r); auto. subst. unfold uses. rewrite ER. auto.
    + cbn [bind]. apply IH; auto; [lia|].
      intros i q Hi Hq. destruct (Nat.eq_dec i n); [subst; assert (q = r) by congruence; subst; unfold uses; rewrite ER; auto|].
      eapply Hd; [|eauto]. lia.
Qed.

Lemma foreach_remove_ok : forall rs s, Inv s -> NoDup rs -> (forall r, In r rs -> zfind r (p_rheap s) <> None) ->
  exists s', foreach internal_remove_residual rs s = Ok s' /\ Inv s' /\ shrink (fun q => existsb (Z.eqb q) rs) s s'.
Proof.
  induction rs as [|r rs IH]; intros s I ND H.
  - exists s. split; auto. split; auto. apply shrink_refl.
  - cbn [foreach]. inversion ND; subst.
    destruct (internal_remove_ok s r I (H r (or_introl eq_refl))) as [s1 [-> [I1 RM]]]. cbn [bind].
    pose proof (shrink_removed r s s1 RM) as SH.
    destruct (IH s1 I1) as [s2 [A1 [A2 A3]]]; auto.
    { intros q Hq. pose proof (rm_rheap r s s1 RM q) as X. destruct (Z.eqb_spec q r); [subst; contradiction|].
      specialize (H q (or_intror Hq)). destruct (zfind q (p_rheap s)); [|congruence]. destruct (zfind q (p_rheap s1)); discriminate. }
    exists s2. split; auto. split; auto. eapply shrink_ext; [|eapply shrink_trans; eauto]. auto.
Qed.


Definition same_info (o o' : option pblock) : Prop :=
  match o, o' with
  | Some b, Some b' => b_addr b' = b_addr b /\ b_size b' = b_size b /\ b_lo b' = b_lo b /\ b_hi b' = b_hi b /\ b_const b' = b_const b /\ b_man b' = b_man b
  | None, None => True
  | _, _ => False
  end.

(** ** Removing the parameter block itself *)
Lemma delete_parameter_ok : forall s p b, Inv s -> zfind p (p_pheap s) = Some b ->
  (forall q, uses p s q = false) ->
  exists s', delete_parameter_in_vector p s = Ok s' /\ Inv s' /\
    p_opts s' = p_opts s /\ p_rheap s' = p_rheap s /\ p_log s' = p_log s /\ p_mdel s' = p_mdel s /\ p_rvec s' = p_rvec s /\
    (forall v, same_info (if v =? b_addr b then None else view v s) (view v s')) /\
    (forall q, q <> p -> addr_of s' q = addr_of s q).
Proof.
  intros s p b I B U.
  assert (PI : pidx s p = Some (b_index b)) by (unfold pidx; rewrite B; auto).
  destruct (indexed_remove (p_pvec s) (pidx s) p (b_index b) (i_pv s I) PI) as [tmp [zt [V1 [V2 [V3 [V4 V5]]]]]].
  unfold delete_parameter_in_vector. rewrite B. cbn [deref bind]. rewrite V1. cbn [deref bind]. rewrite Z.eqb_refl.
  cbn [check bind]. rewrite V2. cbn [deref bind]. unfold pidx in V3.
  destruct (zfind tmp (p_pheap s)) as [tb|] eqn:ET; [|discriminate]. cbn [deref bind].
  set (h2 := zput tmp (with_index tb (b_index b)) (p_pheap s)).
  assert (SH2 : zsorted h2) by (apply zsorted_put; exact (i_sp s I)).
  assert (P2 : exists b2, zfind p h2 = Some b2 /\ b_addr b2 = b_addr b).
  { unfold h2. rewrite zfind_put. destruct (Z.eqb_spec p tmp); [subst|eauto].
    eexists. split; [reflexivity|]. simpl. congruence. }
  destruct P2 as [b2 [P2 P2a]]. unfold delete_parameter. simpl p_pheap. rewrite P2. cbn [deref bind].
  match goal with |- context [Ok ?X] => set (s' := X) end. exists s'. split; auto.
  set (g := fun q c => if q =? tmp then with_index c (b_index b) else c).
  assert (HF : forall q, zfind q (p_pheap s') = if q =? p then None else option_map (g q) (zfind q (p_pheap s))).
  { intros q. unfold s'. simpl. rewrite zfind_erase by auto. destruct (Z.eqb_spec q p); auto.
    unfold h2, g. rewrite zfind_put. destruct (Z.eqb_spec q tmp); [subst; rewrite ET; auto|].
    destruct (zfind q (p_pheap s)); auto. }
  assert (GA : forall q c, b_addr (g q c) = b_addr c /\ b_size (g q c) = b_size c /\ b_deps (g q c) = b_deps c /\
     b_user (g q c) = b_user c /\ b_lo (g q c) = b_lo c /\ b_hi (g q c) = b_hi c /\ b_const (g q c) = b_const c /\ b_man (g q c) = b_man c).
  { intros q c. unfold g. destruct (q =? tmp); simpl; auto 10. }
  assert (GI : forall q c', zfind q (p_pheap s') = Some c' -> q <> p /\ exists c, zfind q (p_pheap s) = Some c /\ c' = g q c).
  { intros q c' H. rewrite HF in H. destruct (Z.eqb_spec q p); [discriminate|]. split; auto.
    destruct (zfind q (p_pheap s)) as [c|]; [|discriminate]. inversion H. eauto. }
  assert (MF : forall v, zfind v (p_pmap s') = if v =? b_addr b then None else zfind v (p_pmap s)).
  { intros v. unfold s'. simpl. rewrite P2a. apply zfind_erase. exact (i_sm s I). }
  assert (NU : forall r rb, zfind r (p_rheap s) = Some rb -> ~ In p (r_params rb)).
  { intros r rb Hr. apply existsb_eqb_false. specialize (U r). unfold uses in U. rewrite Hr in U. auto. }
  split; [|split; [|split; [|split; [|split; [|split; [|split]]]]]]; try reflexivity.
  - constructor.
    + unfold s'; simpl. apply zsorted_erase; auto.
    + exact (i_sr s I).
    + unfold s'; simpl. apply zsorted_erase. exact (i_sm s I).
    + exact (i_ss s I).
    + exact (i_sc s I).
    + exact (i_sl s I).
    + eapply indexed_ext; [|exact V5]. intros q. cbv beta. unfold pidx at 2. rewrite HF.
      destruct (Z.eqb_spec q p); auto. unfold pidx. destruct (Z.eqb_spec q tmp).
      * subst. rewrite ET. unfold g. rewrite Z.eqb_refl. auto.
      * destruct (zfind q (p_pheap s)) as [c|] eqn:Eq; simpl; auto. unfold g. destruct (Z.eqb_spec q tmp); [contradiction|auto].
    + exact (i_rv s I).
    + intros v q. rewrite MF. destruct (Z.eqb_spec v (b_addr b)).
      * split; [discriminate|]. intros [c' [C1 C2]]. destruct (GI _ _ C1) as [Nq [c [C3 ->]]].
        destruct (GA q c) as [GA1 _]. exfalso. apply Nq. eapply (addr_unique s q c p b); eauto. congruence.
      * rewrite (i_pm s I). split.
        -- intros [c [C1 C2]]. exists (g q c). rewrite HF. destruct (Z.eqb_spec q p).
           { subst. exfalso. apply n. congruence. }
           rewrite C1. simpl. split; auto. destruct (GA q c). congruence.
        -- intros [c' [C1 C2]]. destruct (GI _ _ C1) as [Nq [c [C3 ->]]]. exists c. split; auto. destruct (GA q c). congruence.
    + intros r rb Hr. destruct (i_rp s I r rb Hr) as [A1 [A2 A3]]. split; auto. split; auto.
      intros q Hq. specialize (A3 q Hq). rewrite HF. destruct (Z.eqb_spec q p).
      * subst. exfalso. exact (NU r rb Hr Hq).
      * destruct (zfind q (p_pheap s)); [discriminate|congruence].
    + intros q c' C1. destruct (GI _ _ C1) as [Nq [c [C3 ->]]]. destruct (GA q c) as [_ [_ [G3 _]]]. rewrite G3.
      exact (i_dep s I q c C3).
    + exact (i_rs s I).
    + exact (i_cr s I).
    + exact (i_lr s I).
    + intros q c' q2 c2' C1 C2. destruct (GI _ _ C1) as [Nq [c [C3 ->]]]. destruct (GI _ _ C2) as [Nq2 [c2 [C4 ->]]].
      destruct (GA q c) as [G1 [G2 _]]. destruct (GA q2 c2) as [G3 _]. rewrite G1, G2, G3. exact (i_ch s I q c q2 c2 C3 C4).
    + intros q Hq. apply (i_nx s I). rewrite HF in Hq. destruct (q =? p); [congruence|].
      destruct (zfind q (p_pheap s)); [discriminate|auto].
    + intros q c' C1. destruct (GI _ _ C1) as [Nq [c [C3 ->]]].
      destruct (GA q c) as [G1 [G2 [_ [G4 [G5 [G6 _]]]]]]. rewrite G1, G2, G5, G6. exact (i_bl s I q c C3).
  - intros v. unfold view. rewrite MF. destruct (Z.eqb_spec v (b_addr b)); [simpl; auto|].
    destruct (zfind v (p_pmap s)) as [q|] eqn:EQ; [|simpl; auto]. rewrite HF.
    destruct (view_find s v q I EQ) as [c [C1 [C2 _]]]. destruct (Z.eqb_spec q p).
    + subst. exfalso. apply n. congruence.
    + rewrite C1. simpl. destruct (GA q c) as [G1 [G2 [_ [_ [G5 [G6 [G7 G8]]]]]]]. auto 10.
  - intros q Nq. unfold addr_of. rewrite HF. destruct (Z.eqb_spec q p); [contradiction|].
    destruct (zfind q (p_pheap s)); simpl; auto. apply GA.
Qed.

Lemma prel_same : forall o o' i, same_info o o' -> prel o i -> prel o' i.
Proof.
  intros o o' i S P. unfold same_info, prel in *. destruct o as [b|], o' as [b'|], i as [i|]; auto; try contradiction.
  destruct S as [V1 [V2 [V3 [V4 [V5 V6]]]]]. destruct P as [A1 [A2 [A3 A4]]].
  split; [congruence|]. split; [congruence|]. split; [congruence|].
  intros k Hk. unfold lo_at, hi_at in *. rewrite V3, V4. apply A4. lia.
Qed.

Lemma ncost_rheap : forall s s' c, p_rheap s' = p_rheap s -> ncost c s' = ncost c s.
Proof. intros s s' c H. unfold ncost. rewrite H. auto. Qed.
Lemma nloss_rheap : forall s s' c, p_rheap s' = p_rheap s -> nloss c s' = nloss c s.
Proof. intros s s' c H. unfold nloss. rewrite H. auto. Qed.

Section Removal.
Variable hash_order : list Z -> list Z.
Hypothesis Hperm : forall l, Permutation (hash_order l) l.

(** RemoveParameterBlock.  [s1] is the state when all residual blocks of the
    parameter block are gone. *)
Lemma remove_parameter_ok : forall s a v, Inv s -> Rel s a ->
  match remove_parameter hash_order v s with
  | Ok s' => a_par a v <> None /\ Inv s' /\ Rel s' (effect (fun _ => []) (ORemoveParameter v) a) /\
             p_opts s' = p_opts s /\ p_mdel s' = p_mdel s /\ frees s s'
  | Abort => a_par a v = None
  | _ => False
  end.
Proof.
  intros s a v I R. unfold remove_parameter.
  destruct (zfind v (p_pmap s)) as [p|] eqn:EV.
  2:{ apply (rel_par_none s a v R). apply view_none; auto. }
  destruct (view_find s v p I EV) as [b [B1 [B2 B3]]].
  assert (X : exists s1, (if o_fast (p_opts s) then
                 do b <- deref (zfind p (p_pheap s));
                 do d <- deref (b_deps b);
                 foreach internal_remove_residual (hash_order (zkeys d)) s
               else scan_remove p (length (p_rvec s)) s) = Ok s1 /\ Inv s1 /\ shrink (uses p s) s s1).
  { destruct (o_fast (p_opts s)) eqn:OF.
    - rewrite B1. cbn [deref bind]. pose proof (i_dep s I p b B1) as D. rewrite OF in D. destruct D as [d [D1 [D2 D3]]].
      rewrite D1. cbn [deref bind].
      destruct (foreach_remove_ok (hash_order (zkeys d)) s I) as [s1 [A1 [A2 A3]]].
      + eapply Permutation_NoDup; [apply Permutation_sym, Hperm|]. apply zsorted_nodup; auto.
      + intros r Hr. eapply Permutation_in in Hr; [|apply Hperm]. apply D3 in Hr. destruct Hr as [rb [H _]]. congruence.
      + exists s1. split; auto. split; auto. eapply shrink_ext; [|exact A3]. intros q. cbv beta.
        assert (Q : In q (hash_order (zkeys d)) <-> uses p s q = true).
        { transitivity (In q (zkeys d)).
          - split; apply Permutation_in; [|apply Permutation_sym]; auto.
          - rewrite D3. unfold uses. split.
            + intros [rb [H1 H2]]. rewrite H1. apply existsb_eqb; auto.
            + destruct (zfind q (p_rheap s)) as [rb|] eqn:E; [|discriminate]. intros H. exists rb. split; auto. apply existsb_eqb; auto. }
        rewrite <- existsb_eqb in Q. destruct (existsb (Z.eqb q) (hash_order (zkeys d))), (uses p s q); auto; intuition congruence.
    - apply scan_remove_ok; auto. intros i r Hi Hr. assert (i < length (p_rvec s))%nat by (apply nth_error_Some; congruence). lia. }
  destruct X as [s1 [X1 [I1 SH]]]. rewrite X1. cbn [bind].
  assert (U1 : forall q, uses p s1 q = false).
  { intros q. rewrite uses_core. rewrite (sh_rheap _ _ _ SH q). destruct (uses p s q) eqn:E; auto.
    rewrite uses_core in E. exact E. }
  assert (B1' : exists b1, zfind p (p_pheap s1) = Some b1 /\ b_addr b1 = v).
  { destruct (sh_heap _ _ _ SH) as [g [G1 G2]]. rewrite G1, B1. simpl. eexists. split; [reflexivity|].
    destruct (G2 p b) as [G3 _]. congruence. }
  destruct B1' as [b1 [B1' B2']].
  destruct (delete_parameter_ok s1 p b1 I1 B1' U1) as [s2 [A1 [A2 [A3 [A4 [A5 [A6 [A6' [A7 A8]]]]]]]]].
  rewrite A1. split.
  { intros C. apply (rel_par_none s a v R) in C. congruence. }
  split; auto. destruct (rel_shrink _ _ _ _ SH R) as [R1 R2]. split; [|split; [|split]].
  - split.
    + intros v'. simpl. unfold fupd. specialize (A7 v'). rewrite B2' in A7. specialize (R1 v'). simpl in R1.
      destruct (v' =? v); [|eapply prel_same; eauto].
      destruct (view v' s2); simpl in *; auto.
    + intros r. simpl. specialize (R2 r). simpl in R2. 
      assert (E : rview r s2 = rview r s1).
      { unfold rview. rewrite A4. destruct (zfind r (p_rheap s1)) as [rb|] eqn:ER; auto. f_equal. f_equal.
        apply map_ext_in. intros q Hq. apply A8. intros ->. specialize (U1 r). unfold uses in U1. rewrite ER in U1.
        apply existsb_eqb_false in U1. contradiction. }
      rewrite E, R2. destruct R as [_ R]. specialize (R r). rewrite <- R. unfold uses, rview.
      destruct (zfind r (p_rheap s)) as [rb|] eqn:ER; auto.
      destruct (in_dec Z.eq_dec v (map (addr_of s) (r_params rb))) as [J|J].
      * apply in_map_iff in J. destruct J as [q [J1 J2]].
        destruct (i_rp s I r rb ER) as [_ [_ LV]]. specialize (LV q J2).
        unfold addr_of in J1. destruct (zfind q (p_pheap s)) as [c|] eqn:EC; [|congruence].
        assert (q = p) by (eapply (addr_unique s q c p b); eauto; congruence). subst q.
        assert (EX : existsb (Z.eqb p) (r_params rb) = true) by (apply existsb_eqb; auto). rewrite EX. auto.
      * destruct (existsb (Z.eqb p) (r_params rb)) eqn:EX; auto. exfalso. apply J. apply existsb_eqb in EX.
        apply in_map_iff. exists p. split; auto. unfold addr_of. rewrite B1. auto.
  - rewrite A3. apply (sh_opts _ _ _ SH).
  - rewrite A6. apply (sh_mdel _ _ _ SH).
  - destruct (sh_log _ _ _ SH) as [l [L1 [L2 [L3 L4]]]]. exists l. rewrite A5. split; auto. split; [|split; auto].
    + intros c. rewrite (ncost_rheap s1 s2 c A4). auto.
    + intros c. rewrite (nloss_rheap s1 s2 c A4). auto.
Qed.
End Removal.
