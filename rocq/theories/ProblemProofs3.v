(** Adding blocks. *)
Require Import ZArith List Lia Bool Permutation.
From Verif Require Import ZMap Dbl ProblemModel ProblemSpec ProblemProofs1 ProblemProofs2.
Import ListNotations.
Open Scope Z_scope.

Lemma rel_conflict : forall s a v size, Inv s -> Rel s a ->
  (noconflict s v size <-> forall v' i, a_par a v' = Some i -> apart v' (i_size i) v size).
Proof.
  intros s a v size I [R _]. split.
  - intros N v' i Hi. specialize (R v'). rewrite Hi in R. unfold prel in R.
    destruct (view v' s) as [b|] eqn:V; [|contradiction]. destruct R as [Rs _].
    apply (view_pm s v' b I) in V. destruct V as [p [P1 P2]]. specialize (N _ _ P1). rewrite <- Rs, <- P2. auto.
  - intros H p b Hb. assert (V : view (b_addr b) s = Some b) by (apply view_pm; eauto).
    specialize (R (b_addr b)). rewrite V in R. unfold prel in R.
    destruct (a_par a (b_addr b)) as [i|] eqn:A; [|contradiction]. destruct R as [Rs _].
    rewrite Rs. apply H; auto.
Qed.

(** Parts of the state not touched when parameter blocks are added. *)
Definition ext (s s' : problem) : Prop :=
  p_opts s' = p_opts s /\ p_rheap s' = p_rheap s /\ p_rvec s' = p_rvec s /\ p_rset s' = p_rset s /\
  p_cref s' = p_cref s /\ p_lref s' = p_lref s /\ p_mdel s' = p_mdel s /\ p_log s' = p_log s /\
  forall q b, zfind q (p_pheap s) = Some b -> zfind q (p_pheap s') = Some b.

Lemma ext_refl : forall s, ext s s.
Proof. intros; unfold ext; auto 20. Qed.

Lemma ext_trans : forall s1 s2 s3, ext s1 s2 -> ext s2 s3 -> ext s1 s3.
Proof. unfold ext; intros s1 s2 s3 H1 H2. intuition (try congruence; auto). Qed.

Definition fresh_pb (s : problem) (v size : Z) : pblock :=
  mkPB v size (Z.of_nat (length (p_pvec s))) false 0 None None (if o_fast (p_opts s) then Some [] else None) true.
Definition added (s : problem) (v size : Z) : problem :=
  mkP (p_opts s) (zput (p_next s) (fresh_pb s v size) (p_pheap s)) (p_rheap s) (p_pvec s ++ [p_next s])
      (p_rvec s) (zput v (p_next s) (p_pmap s)) (p_rset s) (p_cref s) (p_lref s) (p_mdel s) (p_next s + 1) (p_log s).

Lemma inv_added : forall s v size, Inv s -> zfind v (p_pmap s) = None -> v <> 0 -> noconflict s v size ->
  Inv (added s v size).
Proof.
  intros s v size I Hv Hnz NC.
  assert (FR : zfind (p_next s) (p_pheap s) = None).
  { destruct (zfind (p_next s) (p_pheap s)) eqn:E; auto.
    assert (p_next s < p_next s) by (apply (i_nx s I); congruence). lia. }
  assert (NF : forall q c, zfind q (p_pheap s) = Some c -> q <> p_next s) by (intros q c H E; congruence).
  assert (NE : forall q, zfind q (p_pheap s) <> None -> zfind q (zput (p_next s) (fresh_pb s v size) (p_pheap s)) <> None).
  { intros q H. rewrite zfind_put. destruct (q =? p_next s); [discriminate|auto]. }
  constructor; simpl; auto using (i_sr s I), (i_ss s I), (i_sc s I), (i_sl s I), (i_rv s I), (i_rs s I), (i_cr s I), (i_lr s I).
  - apply zsorted_put; exact (i_sp s I).
  - apply zsorted_put; exact (i_sm s I).
  - eapply indexed_ext; [|eapply indexed_push; [exact (i_pv s I)|]].
    + intros q. unfold pidx. simpl. rewrite zfind_put. destruct (Z.eqb_spec q (p_next s)); auto.
    + unfold pidx. rewrite FR. auto.
  - intros a q. rewrite !zfind_put. destruct (Z.eqb_spec a v).
    + subst a. split.
      * intros E. inversion E; subst. rewrite Z.eqb_refl. exists (fresh_pb s v size). auto.
      * intros [b [B1 B2]]. destruct (Z.eqb_spec q (p_next s)); [congruence|].
        assert (zfind v (p_pmap s) = Some q) by (apply (i_pm s I); eauto). congruence.
    + rewrite (i_pm s I). split; intros [b [B1 B2]].
      * exists b. destruct (Z.eqb_spec q (p_next s)); [subst; congruence|auto].
      * destruct (Z.eqb_spec q (p_next s)); [|eauto]. inversion B1; subst b. simpl in B2. congruence.
  - intros r rb Hr. destruct ((i_rp s I) r rb Hr) as [A [B C]]. auto.
  - intros q b Hb. rewrite zfind_put in Hb. destruct (Z.eqb_spec q (p_next s)).
    + inversion Hb; subst b q. simpl. destruct (o_fast (p_opts s)); auto.
      exists []. split; auto. split; [constructor|]. intros r. split; [intros []|].
      intros [rb [R1 R2]]. destruct ((i_rp s I) r rb R1) as [_ [_ C]]. specialize (C _ R2). congruence.
    + exact ((i_dep s I) q b Hb).
  - exact (i_rs s I).
  - exact (i_cr s I).
  - exact (i_lr s I).
  - intros p b p' b' Hb Hb'. rewrite zfind_put in Hb, Hb'.
    destruct (Z.eqb_spec p (p_next s)); destruct (Z.eqb_spec p' (p_next s)).
    + inversion Hb; inversion Hb'; subst. simpl. lia.
    + inversion Hb; subst b. simpl. intros L. destruct (NC _ _ Hb') as [A B]. apply B. lia.
    + inversion Hb'; subst b'. simpl. intros L. destruct (NC _ _ Hb) as [A B]. apply A. lia.
    + apply ((i_ch s I) p b p' b'); auto.
  - intros q Hq. rewrite zfind_put in Hq. destruct (Z.eqb_spec q (p_next s)); [lia|]. pose proof (i_nx s I q Hq). lia.
  - intros q b Hb. rewrite zfind_put in Hb. destruct (Z.eqb_spec q (p_next s)).
    + inversion Hb; subst. simpl. split; auto. split; intros; discriminate.
    + exact ((i_bl s I) q b Hb).
Qed.

Lemma rel_added : forall s a v size, Inv s -> Rel s a -> zfind v (p_pmap s) = None ->
  Rel (added s v size) (set_par v (Some (fresh_info size)) a).
Proof.
  intros s a v size I [R1 R2] Hv.
  assert (FR : zfind (p_next s) (p_pheap s) = None).
  { destruct (zfind (p_next s) (p_pheap s)) eqn:E; auto.
    assert (p_next s < p_next s) by (apply (i_nx s I); congruence). lia. }
  split.
  - intros v'. unfold view. simpl. unfold fupd. rewrite zfind_put. destruct (Z.eqb_spec v' v).
    + rewrite zfind_put_same. simpl. split; auto. split; auto. split; auto.
      intros k Hk. split; left; reflexivity.
    + specialize (R1 v'). unfold view in R1. destruct (zfind v' (p_pmap s)) as [p|] eqn:E; auto.
      destruct (view_find s v' p I E) as [b [B1 [B2 B3]]]. rewrite zfind_put.
      destruct (Z.eqb_spec p (p_next s)); [congruence|auto].
  - intros r. simpl a_res. rewrite <- R2. unfold rview. simpl. destruct (zfind r (p_rheap s)) as [rb|] eqn:E; auto.
    f_equal. f_equal. apply map_ext_in. intros p Hp. unfold addr_of. simpl. rewrite zfind_put.
    destruct (Z.eqb_spec p (p_next s)); auto. subst. destruct (i_rp s I r rb E) as [_ [_ C]]. specialize (C _ Hp). congruence.
Qed.

Lemma ext_added : forall s v size, Inv s -> ext s (added s v size).
Proof.
  intros s v size I. unfold ext; simpl. repeat (split; [reflexivity|]).
  intros q b H. rewrite zfind_put. destruct (Z.eqb_spec q (p_next s)); auto. subst.
  assert (p_next s < p_next s) by (apply (i_nx s I); congruence). lia.
Qed.

Lemma internal_add_ok : forall s a v size, Inv s -> Rel s a -> o_nochecks (p_opts s) = false ->
  match internal_add v size s with
  | Ok (s', p) => fits a v size /\ Inv s' /\ Rel s' (add1 v size a) /\ ext s s' /\
      (zfind v (p_pmap s) = None -> s' = added s v size) /\
      (zfind v (p_pmap s) <> None -> s' = s) /\
      zfind v (p_pmap s') = Some p /\ exists b, zfind p (p_pheap s') = Some b /\ b_addr b = v /\ b_size b = size
  | Abort => ~ fits a v size
  | _ => False
  end.
Proof.
  intros s a v size I R NCh. unfold internal_add. rewrite NCh.
  destruct (Z.eqb_spec v 0) as [->|NZ]; cbn [check negb bind].
  { intros [F _]. congruence. }
  destruct (zfind v (p_pmap s)) as [p|] eqn:E.
  - destruct (view_find s v p I E) as [b [B1 [B2 B3]]]. rewrite B1. cbn [deref bind].
    pose proof (proj1 R v) as Rv. rewrite B3 in Rv. unfold prel in Rv.
    destruct (a_par a v) as [i|] eqn:A; [|contradiction]. destruct Rv as [Rs _].
    destruct (Z.eqb_spec size (b_size b)) as [S|S]; cbn [check bind].
    + unfold fits, add1. rewrite A. split; [split; auto; congruence|].
      split; auto. split; auto. split; [apply ext_refl|]. split; [congruence|]. split; auto. split; auto.
      exists b. auto.
    + unfold fits. rewrite A. intros [_ F]. congruence.
  - destruct (alias_check s v size I E) as [[C N]|[C N]]; rewrite C; cbn [bind].
    + match goal with |- _ /\ Inv ?S /\ _ => change S with (added s v size) end.
      assert (AN : a_par a v = None).
      { apply (rel_par_none s a v R). apply view_none; auto. }
      unfold fits, add1. rewrite AN.
      split; [split; auto; apply (rel_conflict s a v size I R); auto|].
      split; [apply inv_added; auto|]. split; [apply rel_added; auto|]. split; [apply ext_added; auto|].
      split; [reflexivity|]. split; [congruence|]. split; [simpl; apply zfind_put_same|].
      exists (fresh_pb s v size). simpl. rewrite zfind_put_same. auto.
    + unfold fits. rewrite (proj1 (rel_par_none s a v R) (proj2 (view_none s v I) E)).
      intros [_ F]. apply N. apply (rel_conflict s a v size I R). auto.
Qed.

Lemma add_all_ok : forall vs szs s a, Inv s -> Rel s a -> o_nochecks (p_opts s) = false -> length vs = length szs ->
  match add_all vs szs s with
  | Ok (s', ps) => all_fit vs szs a /\ Inv s' /\ Rel s' (add_many vs szs a) /\ ext s s' /\
      length ps = length vs /\ map (addr_of s') ps = vs /\
      (forall p, In p ps -> zfind p (p_pheap s') <> None) /\ check_sizes ps szs s' = Ok tt
  | Abort => ~ all_fit vs szs a
  | _ => False
  end.
Proof.
  induction vs as [|v vs IH]; intros szs s a I R NCh HL.
  - destruct szs; [|discriminate]. simpl. auto 20 using ext_refl.
  - destruct szs as [|z szs]; [discriminate|]. cbn [add_all all_fit add_many].
    pose proof (internal_add_ok s a v z I R NCh) as K.
    destruct (internal_add v z s) as [[s1 p]| | |]; cbn [bind]; try contradiction.
    2:{ intros [F _]; auto. }
    destruct K as [K1 [K2 [K3 [K4 [_ [_ [K5 [b [B1 [B2 B3]]]]]]]]]].
    assert (NCh1 : o_nochecks (p_opts s1) = false) by (rewrite (proj1 K4); auto).
    pose proof (IH szs s1 (add1 v z a) K2 K3 NCh1 ltac:(simpl in HL; lia)) as J.
    destruct (add_all vs szs s1) as [[s2 ps]| | |]; cbn [bind]; try contradiction.
    2:{ intros [_ F]; auto. }
    destruct J as [J1 [J2 [J3 [J4 [J5 [J6 [J7 J8]]]]]]].
    assert (PB : zfind p (p_pheap s2) = Some b) by (apply (proj2 (proj2 (proj2 (proj2 (proj2 (proj2 (proj2 (proj2 J4)))))))); auto).
    split; auto. split; auto. split; auto. split; [eapply ext_trans; eauto|].
    split; [simpl; auto|]. split.
    { cbn [map]. rewrite J6. unfold addr_of. rewrite PB. congruence. }
    split.
    { intros q [<-|Hq]; [congruence|auto]. }
    cbn [check_sizes]. rewrite PB. cbn [deref bind]. rewrite B3, Z.eqb_refl. cbn. auto.
Qed.

(** ParameterBlock::AddResidualBlock over a list of blocks. *)
Definition adddep (r : Z) (ps : list Z) (q : Z) (b : pblock) : pblock :=
  if existsb (Z.eqb q) ps
  then match b_deps b with Some d => with_deps b (Some (zsadd r d)) | None => b end else b.

Lemma add_deps_ok : forall r ps s, zsorted (p_pheap s) ->
  (forall p, In p ps -> exists b d, zfind p (p_pheap s) = Some b /\ b_deps b = Some d) -> NoDup ps ->
  exists h, foreach (pb_add_residual r) ps s = Ok (set_pheap s h) /\ zsorted h /\
    forall q, zfind q h = option_map (adddep r ps q) (zfind q (p_pheap s)).
Proof.
  intros r; induction ps as [|p ps IH]; intros s Hs H ND.
  - exists (p_pheap s). split; [destruct s; reflexivity|]. split; auto.
    intros q. destruct (zfind q (p_pheap s)); reflexivity.
  - cbn [foreach]. destruct (H p (or_introl eq_refl)) as [b [d [B D]]].
    unfold pb_add_residual at 1. rewrite B. cbn [deref bind]. rewrite D. cbn [bind].
    set (s1 := set_pheap s (zput p (with_deps b (Some (zsadd r d))) (p_pheap s))).
    assert (Hs1 : zsorted (p_pheap s1)) by (simpl; apply zsorted_put; auto).
    inversion ND as [|? ? NI ND']; subst.
    destruct (IH s1 Hs1) as [h [A1 [A2 A3]]]; auto.
    { intros q Hq. destruct (H q (or_intror Hq)) as [b' [d' [B' D']]]. exists b', d'. split; auto.
      simpl. rewrite zfind_put. destruct (Z.eqb_spec q p); [subst; contradiction|auto]. }
    exists h. split; [rewrite A1; reflexivity|]. split; auto.
    intros q. rewrite A3. simpl. rewrite zfind_put. unfold adddep. cbn [existsb].
    destruct (Z.eqb_spec q p).
    + subst q. rewrite B. simpl. assert (E : existsb (Z.eqb p) ps = false) by (apply existsb_eqb_false; auto).
      rewrite E. rewrite D. auto.
    + simpl. auto.
Qed.

Lemma zkeys_sadd : forall r d x, In x (zkeys (zsadd r d)) <-> x = r \/ In x (zkeys d).
Proof. intros. unfold zsadd. apply zkeys_put_in. Qed.

Lemma refs_increment : forall m n c, zsorted m -> refs_ok m n ->
  zsorted (increment c m) /\ refs_ok (increment c m) (fun k => if k =? c then S (n c) else n k).
Proof.
  intros m n c Hs H. unfold increment. pose proof (H c) as Hc.
  destruct (zfind c m) as [x|] eqn:E.
  - destruct (Nat.eqb_spec (n c) 0) as [Z0|Z0]; [discriminate|]. inversion Hc; subst x.
    split; [apply zsorted_put; auto|]. intros k. rewrite zfind_put. destruct (Z.eqb_spec k c).
    + subst. destruct (Nat.eqb_spec (S (n c)) 0); [lia|]. f_equal. lia.
    + apply H.
  - destruct (Nat.eqb_spec (n c) 0) as [Z0|Z0]; [|discriminate].
    split; [apply zsorted_put; auto|]. intros k. rewrite zfind_put. destruct (Z.eqb_spec k c).
    + subst. rewrite Z0. reflexivity.
    + apply H.
Qed.

Lemma refs_ext : forall m n n', (forall c, n c = n' c) -> refs_ok m n -> refs_ok m n'.
Proof. intros m n n' E H c. rewrite <- E. apply H. Qed.

Section A.
Variable cf_sizes : Z -> list Z.

Lemma add_residual_ok : forall s a r c l vs, Inv s -> Rel s a -> o_nochecks (p_opts s) = false ->
  r <> 0 -> a_res a r = None ->
  match add_residual cf_sizes r c l vs s with
  | Ok s' => (c <> 0 /\ length vs = length (cf_sizes c) /\ NoDup vs /\ all_fit vs (cf_sizes c) a) /\
      Inv s' /\ Rel s' (set_res r (Some (c, l, vs)) (add_many vs (cf_sizes c) a)) /\
      p_opts s' = p_opts s /\ p_log s' = p_log s /\ p_mdel s' = p_mdel s
  | Abort => ~ (c <> 0 /\ length vs = length (cf_sizes c) /\ NoDup vs /\ all_fit vs (cf_sizes c) a)
  | _ => False
  end.
Proof.
  intros s a r c l vs I R NCh NZ AR. unfold add_residual.
  assert (RH : zfind r (p_rheap s) = None).
  { pose proof (proj2 R r) as Q. rewrite AR in Q. unfold rview in Q. destruct (zfind r (p_rheap s)); [discriminate|auto]. }
  unfold zmem. rewrite RH. destruct (Z.eqb_spec r 0); [contradiction|]. cbn [orb].
  destruct (Z.eqb_spec c 0) as [C0|C0]; cbn [negb check bind]; [tauto|].
  destruct (Z.eqb_spec (Z.of_nat (length vs)) (Z.of_nat (length (cf_sizes c)))) as [LN|LN]; cbn [check bind].
  2:{ intros [_ [F _]]. rewrite F in LN. contradiction. }
  rewrite NCh. destruct (nodupb vs) eqn:ND; cbn [check bind].
  2:{ intros [_ [_ [F _]]]. apply nodupb_ok in F. congruence. }
  apply nodupb_ok in ND. assert (LN' : length vs = length (cf_sizes c)) by lia.
  pose proof (add_all_ok vs (cf_sizes c) s a I R NCh LN') as K.
  destruct (add_all vs (cf_sizes c) s) as [[s1 ps]| | |]; cbn [bind]; try contradiction.
  2:{ intros [_ [_ [_ F]]]; auto. }
  destruct K as [K1 [K2 [K3 [K4 [K5 [K6 [K7 K8]]]]]]].
  assert (O1 : p_opts s1 = p_opts s) by apply K4.
  rewrite O1, NCh, K8. cbn [bind].
  assert (RH1 : zfind r (p_rheap s1) = None) by (destruct K4 as [_ [E _]]; rewrite E; auto).
  assert (NDP : NoDup ps).
  { rewrite <- K6 in ND. eapply NoDup_map_inv; eauto. }
  set (rb := mkRB c l ps (Z.of_nat (length (p_rvec s1)))).
  (* the dependency sets *)
  assert (DEP : exists h, (if o_fast (p_opts (set_rheap s1 (zput r rb (p_rheap s1)))) then foreach (pb_add_residual r) ps (set_rheap s1 (zput r rb (p_rheap s1))) else Ok (set_rheap s1 (zput r rb (p_rheap s1))))
            = Ok (set_pheap (set_rheap s1 (zput r rb (p_rheap s1))) h) /\ zsorted h /\
            forall q, zfind q h = option_map (if o_fast (p_opts s) then adddep r ps q else (fun b => b)) (zfind q (p_pheap s1))).
  { simpl p_opts. rewrite O1. destruct (o_fast (p_opts s)) eqn:OF.
    - apply (add_deps_ok r ps (set_rheap s1 (zput r rb (p_rheap s1)))); auto.
      + exact (i_sp s1 K2).
      + intros p Hp. specialize (K7 p Hp). destruct (zfind p (p_pheap s1)) as [b|] eqn:E; [|congruence].
        pose proof (i_dep s1 K2 p b E) as D. rewrite O1, OF in D. destruct D as [d [D1 _]]. exists b, d. auto.
    - exists (p_pheap s1). split; [destruct s1; reflexivity|]. split; [exact (i_sp s1 K2)|].
      intros q. destruct (zfind q (p_pheap s1)); auto. }
  destruct DEP as [h [DE [DS DF]]].
  match goal with |- context[bind ?X _] => replace X with (Ok (set_pheap (set_rheap s1 (zput r rb (p_rheap s1))) h)) end.
  cbn [bind].
  set (g := fun q => if o_fast (p_opts s) then adddep r ps q else (fun b : pblock => b)).
  assert (DF' : forall q, zfind q h = option_map (g q) (zfind q (p_pheap s1))).
  { intros q. rewrite DF. unfold g. destruct (o_fast (p_opts s)); auto. }
  assert (GA : forall q b, b_addr (g q b) = b_addr b /\ b_size (g q b) = b_size b /\ b_index (g q b) = b_index b /\
     b_user (g q b) = b_user b /\ b_lo (g q b) = b_lo b /\ b_hi (g q b) = b_hi b /\ b_const (g q b) = b_const b /\ b_man (g q b) = b_man b).
  { intros q b. unfold g, adddep. destruct (o_fast (p_opts s)); [|auto 10].
    destruct (existsb (Z.eqb q) ps); [|auto 10]. destruct (b_deps b); simpl; auto 10. }
  assert (GI : forall q b', zfind q h = Some b' -> exists b, zfind q (p_pheap s1) = Some b /\ b' = g q b).
  { intros q b' H. rewrite DF' in H. destruct (zfind q (p_pheap s1)) as [b|]; [|discriminate].
    inversion H; subst. eauto. }
  assert (GN : forall q, zfind q h <> None <-> zfind q (p_pheap s1) <> None).
  { intros q. rewrite DF'. destruct (zfind q (p_pheap s1)); simpl; split; congruence. }
  match goal with |- _ /\ Inv ?S /\ _ => set (s3 := S) end.
  assert (F1 : p_opts s3 = p_opts s /\ p_pheap s3 = h /\ p_rheap s3 = zput r rb (p_rheap s1) /\ p_pvec s3 = p_pvec s1 /\
    p_rvec s3 = p_rvec s1 ++ [r] /\ p_pmap s3 = p_pmap s1 /\
    p_rset s3 = (if o_fast (p_opts s) then zsadd r (p_rset s1) else p_rset s1) /\
    p_cref s3 = (if o_cost_own (p_opts s) then increment c (p_cref s1) else p_cref s1) /\
    p_lref s3 = (if o_loss_own (p_opts s) && negb (l =? 0) then increment l (p_lref s1) else p_lref s1) /\
    p_mdel s3 = p_mdel s /\ p_next s3 = p_next s1 /\ p_log s3 = p_log s).
  { destruct K4 as [E1 [E2 [E3 [E4 [E5 [E6 [E7 [E8 _]]]]]]]].
    unfold s3. simpl p_opts. rewrite O1.
    destruct (o_fast (p_opts s)); simpl; rewrite ?O1;
    destruct (o_cost_own (p_opts s)); simpl; rewrite ?O1;
    destruct (o_loss_own (p_opts s)); destruct (negb (l =? 0)); simpl; rewrite ?O1;
      repeat (split; [auto; reflexivity|]); auto. }
  clearbody s3. destruct F1 as [F1 [F2 [F3 [F4 [F5 [F6 [F7 [F8 [F9 [F10 [F11 F12]]]]]]]]]]].
  split; [auto|]. split; [|split; [|auto]].
  - (* invariant *)
    constructor; rewrite ?F1, ?F2, ?F3, ?F4, ?F5, ?F6, ?F7, ?F8, ?F9, ?F10, ?F11.
    + exact DS.
    + apply zsorted_put. exact (i_sr s1 K2).
    + exact (i_sm s1 K2).
    + destruct (o_fast (p_opts s)); [apply zsorted_put|]; exact (i_ss s1 K2).
    + destruct (o_cost_own (p_opts s)) eqn:OC; [|exact (i_sc s1 K2)].
      pose proof (i_cr s1 K2) as C. rewrite O1, OC in C. exact (proj1 (refs_increment _ _ c (i_sc s1 K2) C)).
    + destruct (o_loss_own (p_opts s)) eqn:OL; cbn [andb]; [|exact (i_sl s1 K2)].
      destruct (negb (l =? 0)); [|exact (i_sl s1 K2)].
      pose proof (i_lr s1 K2) as C. rewrite O1, OL in C. exact (proj1 (refs_increment _ _ l (i_sl s1 K2) C)).
    + eapply indexed_ext; [|exact (i_pv s1 K2)]. intros q. unfold pidx. rewrite F2, DF'.
      destruct (zfind q (p_pheap s1)) as [b|]; simpl; auto. destruct (GA q b) as [_ [_ [G _]]]. congruence.
    + eapply indexed_ext; [|apply (indexed_push (p_rvec s1) (ridx s1) r (i_rv s1 K2))].
      * intros q. unfold ridx. rewrite F3, zfind_put. destruct (Z.eqb_spec q r); auto.
      * unfold ridx. rewrite RH1. auto.
    + intros v p. rewrite (i_pm s1 K2). rewrite DF'. split.
      * intros [b [B1 B2]]. rewrite B1. exists (g p b). simpl. split; auto. destruct (GA p b) as [G _]. congruence.
      * intros [b [B1 B2]]. destruct (zfind p (p_pheap s1)) as [b0|]; [|discriminate]. inversion B1; subst.
        exists b0. split; auto. destruct (GA p b0) as [G _]. congruence.
    + intros q qb Hq. rewrite zfind_put in Hq. destruct (Z.eqb_spec q r).
      * inversion Hq; subst. simpl. split; auto. split; auto. intros p Hp. apply GN. auto.
      * destruct (i_rp s1 K2 q qb Hq) as [A [B C]]. split; auto. split; auto. intros p Hp. apply GN. auto.
    + intros p b' Hb'. destruct (GI _ _ Hb') as [b [B1 ->]]. pose proof (i_dep s1 K2 p b B1) as D. rewrite O1 in D.
      unfold g. destruct (o_fast (p_opts s)) eqn:OF; auto. destruct D as [d [D1 [D2 D3]]].
      unfold adddep. rewrite D1. destruct (existsb (Z.eqb p) ps) eqn:EP.
      * simpl. exists (zsadd r d). split; auto. split; [apply zsorted_put; auto|].
        intros q. rewrite zkeys_sadd, D3, zfind_put. apply existsb_eqb in EP.
        destruct (Z.eqb_spec q r).
        -- subst q. split; [|auto]. intros _. exists rb. auto.
        -- split; [intros [?|?]; [contradiction|auto]|auto].
      * exists d. split; auto. split; auto. intros q. rewrite D3, zfind_put. apply existsb_eqb_false in EP.
        destruct (Z.eqb_spec q r); [|tauto]. subst q. split.
        -- intros [x [X1 X2]]. congruence.
        -- intros [x [X1 X2]]. inversion X1; subst. contradiction.
    + pose proof (i_rs s1 K2) as D. rewrite O1 in D. destruct (o_fast (p_opts s)); auto.
      intros q. rewrite zkeys_sadd, D, zfind_put. destruct (Z.eqb_spec q r); [subst; split; [discriminate|auto]|].
      split; [intros [?|?]; [contradiction|auto]|auto].
    + pose proof (i_cr s1 K2) as C. rewrite O1 in C. destruct (o_cost_own (p_opts s)) eqn:OC; auto.
      eapply refs_ext; [|exact (proj2 (refs_increment _ _ c (i_sc s1 K2) C))].
      intros k. cbv beta. unfold ncost. rewrite F3. rewrite zcount_put_new by auto. simpl r_cost.
      destruct (Z.eqb_spec k c).
      * subst. rewrite Z.eqb_refl. lia.
      * destruct (Z.eqb_spec c k); [congruence|]. lia.
    + pose proof (i_lr s1 K2) as C. rewrite O1 in C. destruct (o_loss_own (p_opts s)) eqn:OL; auto. cbn [andb].
      destruct (Z.eqb_spec l 0) as [L0|L0]; cbn [negb].
      * eapply refs_ext; [|exact C]. intros k. cbv beta. unfold nloss. rewrite F3. rewrite zcount_put_new by auto. simpl r_loss.
        subst l. destruct (Z.eqb_spec 0 k); [subst; simpl; lia|simpl; lia].
      * eapply refs_ext; [|exact (proj2 (refs_increment _ _ l (i_sl s1 K2) C))].
        intros k. cbv beta. unfold nloss. rewrite F3. rewrite zcount_put_new by auto. simpl r_loss.
        destruct (Z.eqb_spec k l).
        -- subst. rewrite Z.eqb_refl. destruct (Z.eqb_spec l 0); [contradiction|]. simpl. lia.
        -- destruct (Z.eqb_spec l k); [congruence|]. simpl. lia.
    + intros p b' q c' Hb Hc. destruct (GI _ _ Hb) as [b [B1 ->]]. destruct (GI _ _ Hc) as [b2 [B2 ->]].
      destruct (GA p b) as [G1 [G2 _]]. destruct (GA q b2) as [G3 _]. rewrite G1, G2, G3.
      apply (i_ch s1 K2 p b q b2); auto.
    + intros p Hp. apply (i_nx s1 K2). apply GN. auto.
    + intros p b' Hb. destruct (GI _ _ Hb) as [b [B1 ->]].
      destruct (GA p b) as [G1 [G2 [_ [G4 [G5 [G6 _]]]]]]. rewrite G1, G2, G5, G6. exact (i_bl s1 K2 p b B1).
  - (* relation *)
    destruct K3 as [R1 R2].
    assert (AD : forall q, addr_of s3 q = addr_of s1 q).
    { intros q. unfold addr_of. rewrite F2, DF'. destruct (zfind q (p_pheap s1)) as [b|]; simpl; auto. apply GA. }
    split.
    + intros v. specialize (R1 v). unfold view in *. rewrite F6, F2. simpl a_par.
      destruct (zfind v (p_pmap s1)) as [p|]; auto. rewrite DF'.
      destruct (zfind p (p_pheap s1)) as [b|]; auto. simpl option_map. unfold prel in *.
      destruct (a_par (add_many vs (cf_sizes c) a) v) as [i|]; auto.
      destruct (GA p b) as [G1 [G2 [_ [_ [G5 [G6 [G7 G8]]]]]]]. unfold lo_at, hi_at in *. rewrite G2, G5, G6, G7, G8. auto.
    + intros q. unfold rview. rewrite F3. simpl a_res. unfold fupd. rewrite zfind_put.
      destruct (Z.eqb_spec q r).
      * simpl. f_equal. f_equal. rewrite <- K6. apply map_ext. auto.
      * rewrite <- R2. unfold rview. destruct (zfind q (p_rheap s1)); auto. f_equal. f_equal. apply map_ext. auto.
Qed.
End A.
