(** Gradient checking: the copy of the problem, continued. *)
Require Import ZArith List Lia Bool Permutation.
From Verif Require Import ZMap Dbl ProblemModel ProblemSpec ProblemProofs1 ProblemProofs2 ProblemProofs3 ProblemProofs6 ProblemProofs8 GckModel GckSpec GckProofs2.
Import ListNotations.
Open Scope Z_scope.

Section Copy.
Variables (W : Z -> list Z) (mf_amb mf_tan : Z -> Z) (hash_order : list Z -> list Z) (plus_ok : Z -> bool).
Hypothesis Hperm : forall l, Permutation (hash_order l) l.
Notation effects := (effects W).
Notation effect := (effect W).
Notation goods := (goods W mf_amb mf_tan).
Notation like := (like mf_tan).
Variable s : problem.
Hypothesis HI : Inv s.
(* every block has a manifold that fits it and can be differentiated *)
Hypothesis HM : forall p b, zfind p (p_pheap s) = Some b ->
  (b_man b = 0 \/ mf_amb (b_man b) = b_size b /\ 0 <= mf_tan (b_man b)) /\ (b_man b <> 0 -> plus_ok (b_addr b) = true).

Lemma blocks_ops_good : forall ps, NoDup ps -> (forall p, In p ps -> zfind p (p_pheap s) <> None) ->
  forall a, (forall p, In p ps -> a_par a (addr_of s p) = None) ->
  (forall v i, a_par a v = Some i -> exists p b, zfind p (p_pheap s) = Some b /\ b_addr b = v /\ i_size i = b_size b) ->
  exists os, blocks_ops mf_tan plus_ok ps s = Ok os /\ goods os a /\
    flat_map new_par os = map (addr_of s) ps /\ flat_map new_res os = [] /\ a_res (effects os a) = a_res a /\
    (forall v, (forall p, In p ps -> addr_of s p <> v) -> a_par (effects os a) v = a_par a v) /\
    (forall p b, In p ps -> zfind p (p_pheap s) = Some b -> exists i, a_par (effects os a) (b_addr b) = Some i /\ like b i).
Proof.
  induction ps as [|p ps IH]; intros ND HP a HN HS; cbn [blocks_ops].
  - exists []. split; [auto|]. split; [exact I|]. split; [auto|]. split; [auto|]. split; [auto|]. split; [auto|]. intros p b [].
  - destruct (zfind p (p_pheap s)) as [b|] eqn:E; [|destruct (HP p (or_introl eq_refl) E)]. cbn [deref bind].
    assert (AB : addr_of s p = b_addr b) by (unfold addr_of; rewrite E; auto).
    destruct (HM p b E) as [M1 M2].
    destruct (block_ops_good W mf_amb mf_tan plus_ok b a (bounds_there s p b HI E) M1 M2) as [os [R1 [R2 [R3 [R4 [R5 [R6 [i [R7 R8]]]]]]]]].
    { apply (i_bl s HI p b E). }
    { rewrite <- AB. apply HN. left. auto. }
    { intros v i Hi. destruct (HS v i Hi) as [q [c [Q1 [Q2 Q3]]]]. rewrite <- Q2, Q3. split; intros L.
      - apply (i_ch s HI q c p b Q1 E L).
      - assert (NE : b_addr b <> b_addr c).
        { intros EQ. assert (a_par a (b_addr b) = None) by (rewrite <- AB; apply HN; left; auto). congruence. }
        apply (i_ch s HI p b q c E Q1). lia. }
    rewrite R1. cbn [bind].
    inversion ND as [|? ? N1 N2]; subst.
    assert (OTH : forall q, In q ps -> addr_of s q <> b_addr b).
    { intros q Hq EQ. unfold addr_of in EQ. destruct (zfind q (p_pheap s)) as [c|] eqn:C; [|destruct (HP q (or_intror Hq) C)].
      destruct (addr_unique s q c p b HI C E EQ) as [-> _]. auto. }
    destruct (IH N2 ltac:(intros; apply HP; right; auto) (effects os a)) as [os' [T1 [T2 [T3 [T4 [T5 [T6 T7]]]]]]].
    { intros q Hq. rewrite R5 by (apply OTH; auto). apply HN. right. auto. }
    { intros v j Hj. destruct (Z.eq_dec v (b_addr b)) as [->|NE].
      - exists p, b. split; auto. split; auto. rewrite R7 in Hj. inversion Hj; subst. apply R8.
      - rewrite R5 in Hj by auto. apply HS in Hj. auto. }
    rewrite T1. cbn [bind]. exists (os ++ os'). split; [auto|]. split; [apply goods_app; auto|].
    rewrite !flat_map_app, R3, T3, R4, T4. cbn [map]. rewrite AB. split; [auto|]. split; [auto|].
    rewrite !effects_app'. split; [congruence|]. split.
    + intros v Hv. rewrite T6 by (intros; apply Hv; right; auto). apply R5. intros ->. apply (Hv p (or_introl eq_refl)). auto.
    + intros q c [->|Hq] C.
      * assert (c = b) by congruence. subst c. exists i. split; [|auto]. rewrite T6; auto.
      * apply (T7 q c Hq C).
Qed.

(** ** Residual blocks *)
Lemma manifolds_ok : forall vs, (forall v, In v vs -> exists p b, zfind p (p_pheap s) = Some b /\ b_addr b = v) ->
  exists ms, manifolds_of vs s = Ok ms /\ Forall2 (fun v m => get_manifold v s = Ok m) vs ms.
Proof.
  induction vs as [|v vs IH]; intros H; cbn [manifolds_of].
  - exists []. split; auto.
  - destruct IH as [ms [E F]]; [intros; apply H; right; auto|]. destruct (H v (or_introl eq_refl)) as [p [b [B1 B2]]].
    assert (G : get_manifold v s = Ok (b_man b)).
    { unfold get_manifold, find_block. assert (Q : zfind v (p_pmap s) = Some p) by (apply (i_pm s HI); eauto).
      rewrite Q, B1. reflexivity. }
    rewrite G, E. cbn [bind]. exists (b_man b :: ms). split; auto.
Qed.

Lemma add_many_present : forall vs szs a, (forall v, In v vs -> a_par a v <> None) -> add_many vs szs a = a.
Proof.
  induction vs as [|v vs IH]; intros szs a H; destruct szs as [|z szs]; cbn [add_many]; auto.
  assert (E : add1 v z a = a).
  { unfold add1. destruct (a_par a v) eqn:E; auto. destruct (H v (or_introl eq_refl) E). }
  rewrite E. apply IH. intros; apply H; right; auto.
Qed.
Lemma all_fit_present : forall vs szs a, Forall2 (has_size a) vs szs -> (forall v, In v vs -> v <> 0) -> all_fit vs szs a.
Proof.
  intros vs szs a F. induction F as [|v z vs szs [i [H1 H2]] F IH]; intros NZ; cbn [all_fit]; auto. split.
  - split; [apply NZ; left; auto|]. rewrite H1. auto.
  - assert (E : add1 v z a = a) by (unfold add1; rewrite H1; auto). rewrite E. apply IH. intros; apply NZ; right; auto.
Qed.

(* the cost functions of [s] and their wrappers *)
Variable cf_sizes : Z -> list Z.
Hypothesis HR : forall r rb, zfind r (p_rheap s) = Some rb ->
  r_cost rb <> 0 /\ Forall2 (fun p z => exists b, zfind p (p_pheap s) = Some b /\ b_size b = z) (r_params rb) (cf_sizes (r_cost rb)).

Lemma nodup_map_addr : forall ps, NoDup ps -> (forall p, In p ps -> zfind p (p_pheap s) <> None) -> NoDup (map (addr_of s) ps).
Proof.
  induction ps as [|p ps IH]; intros ND H; cbn [map]; constructor; inversion ND as [|? ? N1 N2]; subst.
  - intros G. apply in_map_iff in G. destruct G as [q [E Hq]]. unfold addr_of in E.
    destruct (zfind q (p_pheap s)) as [c|] eqn:C; [|destruct (H q (or_intror Hq) C)].
    destruct (zfind p (p_pheap s)) as [b|] eqn:B; [|destruct (H p (or_introl eq_refl) B)].
    destruct (addr_unique s q c p b HI C B E) as [-> _]. auto.
  - apply IH; auto. intros; apply H; right; auto.
Qed.

Definition full (a : pspec) : Prop :=
  forall p b, zfind p (p_pheap s) = Some b -> exists i, a_par a (b_addr b) = Some i /\ i_size i = b_size b.

Lemma residual_ops_good : forall rs fresh, length fresh = length rs -> (forall r, In r rs -> zfind r (p_rheap s) <> None) ->
  NoDup (map fst fresh) -> (forall e, In e fresh -> fst e <> 0 /\ snd e <> 0) ->
  exists os ws, residual_ops rs fresh s = Ok (os, ws) /\ map (fun e => fst (fst e)) ws = map snd fresh /\
    (forall i r w c ms, nth_error rs i = Some r -> nth_error ws i = Some (w, c, ms) ->
        exists rb, zfind r (p_rheap s) = Some rb /\ c = r_cost rb /\
           Forall2 (fun v m => get_manifold v s = Ok m) (map (addr_of s) (r_params rb)) ms) /\
    ((forall e, In e ws -> W (fst (fst e)) = cf_sizes (snd (fst e))) -> forall a, full a -> (forall r, In r (map fst fresh) -> a_res a r = None) ->
      goods os a /\ flat_map new_par os = [] /\ flat_map new_res os = map fst fresh /\ a_par (effects os a) = a_par a /\
      (forall r, ~ In r (map fst fresh) -> a_res (effects os a) r = a_res a r) /\
      (forall i r id w, nth_error rs i = Some r -> nth_error fresh i = Some (id, w) ->
          exists rb, zfind r (p_rheap s) = Some rb /\
            a_res (effects os a) id = Some (w, r_loss rb, map (addr_of s) (r_params rb)))).
Proof.
  induction rs as [|r rs IH]; intros fresh HL HP ND NZ; cbn [residual_ops].
  - destruct fresh; [|discriminate]. exists [], []. split; [auto|]. split; [auto|]. split; [intros [|i] r w c ms H; discriminate|].
    intros _ a HF _. split; [exact I|]. split; [auto|]. split; [auto|]. split; [auto|]. split; [auto|]. intros [|i] r id w H; discriminate.
  - destruct fresh as [|[id w] fresh]; [discriminate|].
    destruct (zfind r (p_rheap s)) as [rb|] eqn:E; [|destruct (HP r (or_introl eq_refl) E)]. cbn [deref bind].
    destruct (i_rp s HI r rb E) as [P1 [P2 P3]]. rewrite (states_some (r_params rb) s P3). cbn [deref bind].
    assert (PA : forall v, In v (map (addr_of s) (r_params rb)) -> exists p b, zfind p (p_pheap s) = Some b /\ b_addr b = v).
    { intros v Hv. apply in_map_iff in Hv. destruct Hv as [p [Q1 Q2]]. unfold addr_of in Q1.
      destruct (zfind p (p_pheap s)) as [b|] eqn:B; [|destruct (P3 p Q2 B)]. eauto. }
    destruct (manifolds_ok _ PA) as [ms [M1 M2]]. rewrite M1. cbn [bind].
    cbn [map fst] in ND. inversion ND as [|? ? N1 N2]; subst.
    destruct (IH fresh ltac:(simpl in HL; lia) ltac:(intros; apply HP; right; auto) N2 ltac:(intros; apply NZ; right; auto))
      as [os [ws [T1 [T2 [T3 T4]]]]].
    rewrite T1. cbn [bind]. do 2 eexists. split; [reflexivity|]. split; [cbn [map fst snd]; f_equal; exact T2|]. split.
    { intros [|i] r' w' c' ms' H1 H2; cbn [nth_error] in *.
      - inversion H1; inversion H2; subst. exists rb. auto.
      - apply (T3 i r' w' c' ms' H1 H2). }
    intros HW a HF HA. destruct (HR r rb E) as [C1 C2].
    assert (PR : forall v, In v (map (addr_of s) (r_params rb)) -> a_par a v <> None).
    { intros v Hv. destruct (PA v Hv) as [p [b [B1 B2]]]. destruct (HF p b B1) as [i [I1 I2]]. congruence. }
    set (o := OAddResidual id w (r_loss rb) (map (addr_of s) (r_params rb))).
    assert (EF : a_par (effect o a) = a_par a /\ a_res (effect o a) = fupd id (Some (w, r_loss rb, map (addr_of s) (r_params rb))) (a_res a)).
    { unfold o. cbn [ProblemSpec.effect]. rewrite add_many_present by auto. auto. }
    destruct EF as [EF1 EF2].
    destruct (NZ (id, w) (or_introl eq_refl)) as [NZ1 NZ2]. cbn [fst snd] in NZ1, NZ2.
    destruct (T4 ltac:(intros e He; apply HW; right; auto) (effect o a)) as [G1 [G2 [G3 [G4 [G5 G6]]]]].
    { intros p b B. destruct (HF p b B) as [i [I1 I2]]. exists i. rewrite EF1. auto. }
    { intros r' Hr'. rewrite EF2. unfold fupd. destruct (Z.eqb_spec r' id); [subst; contradiction|]. apply HA. right. auto. }
    split.
    { cbn [GckProofs2.goods]. split; [split; auto; apply HA; left; auto|]. split; [|split; [exact PR|exact G1]].
      assert (SZ : Forall2 (has_size a) (map (addr_of s) (r_params rb)) (W w)).
      { pose proof (HW (w, r_cost rb, ms) (or_introl eq_refl)) as WE. cbn [fst snd] in WE. rewrite WE.
        clear - C2 HF. induction C2 as [|p z ps zs [b [B1 B2]] F IHF]; cbn [map]; constructor; auto.
        destruct (HF p b B1) as [i [I1 I2]]. unfold addr_of. rewrite B1. exists i. split; congruence. }
      split; [auto|]. split; [|split].
      - clear - SZ. induction SZ; cbn [length]; auto.
      - apply nodup_map_addr; auto.
      - apply all_fit_present; auto. intros v Hv. destruct (PA v Hv) as [p [b [B1 B2]]]. subst. apply (i_bl s HI p b B1). }
    split; [cbn [flat_map new_par app]; auto|]. split; [cbn [flat_map map fst]; rewrite G3; reflexivity|].
    cbn [ProblemSpec.effects]. fold o. split; [congruence|]. split.
    { intros r' Hr'. rewrite G5 by (intros Q; apply Hr'; right; auto). rewrite EF2. unfold fupd.
      destruct (Z.eqb_spec r' id); auto. subst. exfalso. apply Hr'. left. auto. }
    intros [|i] r' id' w' H1 H2; cbn [nth_error] in *.
    + inversion H1; inversion H2; subst. exists rb. split; auto. rewrite G5 by auto. rewrite EF2. unfold fupd. rewrite Z.eqb_refl. auto.
    + apply (G6 i r' id' w' H1 H2).
Qed.
End Copy.

(** ** Order of the blocks *)
Section Order.
Variables (W : Z -> list Z) (mf_amb mf_tan : Z -> Z) (hash_order : list Z -> list Z).
Hypothesis Hperm : forall l, Permutation (hash_order l) l.
Notation step := (step W mf_amb mf_tan hash_order).
Notation run := (run W mf_amb mf_tan hash_order).

Definition order (s : problem) : list Z := map (addr_of s) (p_pvec s).

Lemma order_update : forall s p b b', zfind p (p_pheap s) = Some b -> b_addr b' = b_addr b ->
  order (set_pheap s (zput p b' (p_pheap s))) = order s /\ p_rvec (set_pheap s (zput p b' (p_pheap s))) = p_rvec s /\
  p_log (set_pheap s (zput p b' (p_pheap s))) = p_log s /\ p_mdel (set_pheap s (zput p b' (p_pheap s))) = p_mdel s.
Proof.
  intros s p b b' E A. split; auto. unfold order. simpl p_pvec. apply map_ext. intros q. eapply addr_of_update; eauto.
Qed.

Lemma add_all_present : forall vs szs s a s' ps, Inv s -> Rel s a -> o_nochecks (p_opts s) = false -> (forall v, In v vs -> a_par a v <> None) ->
  add_all vs szs s = Ok (s', ps) -> s' = s.
Proof.
  induction vs as [|v vs IH]; intros szs s a s' ps I R NC HP E.
  - destruct szs; cbn [add_all] in E; inversion E; auto.
  - destruct szs as [|z szs]; cbn [add_all] in E; [inversion E; auto|].
    pose proof (internal_add_ok s a v z I R NC) as K. destruct (internal_add v z s) as [[s1 p]| | |]; cbn [bind] in E; try discriminate.
    destruct K as [_ [_ [_ [_ [_ [K _]]]]]].
    assert (s1 = s).
    { apply K. intros N. apply (HP v (or_introl eq_refl)). apply (rel_par_none s a v R). apply view_none; auto. }
    subst s1. destruct (add_all vs szs s) as [[s2 qs]| | |] eqn:A; cbn [bind] in E; try discriminate. inversion E; subst.
    eapply IH; eauto. intros; apply HP; right; auto.
Qed.

Lemma step_order : forall o s a s', Inv s -> Rel s a -> p_opts s = checking_options -> copying o a -> step o s = Ok s' ->
  order s' = order s ++ new_par o /\ p_rvec s' = p_rvec s ++ new_res o /\ p_log s' = p_log s /\ p_mdel s' = p_mdel s.
Proof.
  intros o s a s' I R O C E.
  assert (NC : o_nochecks (p_opts s) = false) by (rewrite O; auto).
  destruct o; cbn [copying] in C; try contradiction; cbn [ProblemModel.step new_par new_res] in *; rewrite ?app_nil_r.
  - (* AddParameterBlock *)
    unfold add_parameter_manifold in E. pose proof (internal_add_ok s a v size I R NC) as K.
    destruct (internal_add v size s) as [[s1 p]| | |]; cbn [bind] in E; try discriminate.
    destruct K as [_ [I1 [_ [X [K1 [_ [K2 [b [B1 [B2 B3]]]]]]]]]].
    assert (s1 = added s v size). { apply K1. apply view_none; auto. apply (rel_par_none s a v R); auto. }
    assert (OR : order s1 = order s ++ [v] /\ p_rvec s1 = p_rvec s /\ p_log s1 = p_log s /\ p_mdel s1 = p_mdel s).
    { subst s1. split; auto. unfold order. cbn [added set_pvec set_pmap set_pheap set_next p_pvec]. rewrite map_app. cbn [map]. f_equal.
      - apply map_ext_in. intros q Hq. unfold addr_of. simpl. rewrite zfind_put. destruct (Z.eqb_spec q (p_next s)); auto. subst.
        exfalso. apply (indexed_in (p_pvec s) (pidx s) (p_next s) (i_pv s I)) in Hq. unfold pidx in Hq.
        destruct (zfind (p_next s) (p_pheap s)) eqn:Z; [|apply Hq; reflexivity].
        assert (p_next s < p_next s) by (apply (i_nx s I); congruence). lia.
      - f_equal. unfold addr_of. simpl. rewrite zfind_put, Z.eqb_refl. auto. }
    unfold internal_set_manifold in E.
    assert (O1 : p_opts s1 = p_opts s) by (apply (proj1 X)).
    replace (negb (m =? 0) && o_man_own (p_opts s1)) with false in E
      by (rewrite O1, O; cbn [checking_options o_man_own]; rewrite andb_false_r; auto).
    rewrite B1 in E. cbn [deref bind] in E.
    destruct (pb_set_manifold mf_amb mf_tan m ok b) as [b'| | |] eqn:PS; cbn [bind] in E; try discriminate. inversion E; subst s'.
    assert (BA : b_addr b' = b_addr b).
    { unfold pb_set_manifold in PS. destruct (m =? b_man b); [inversion PS; auto|]. destruct (m =? 0); [inversion PS; auto|].
      destruct (mf_amb m =? b_size b); cbn [check bind] in PS; [|discriminate].
      destruct (mf_tan m >=? 0); cbn [check bind] in PS; [|discriminate].
      destruct ok; cbn [check bind] in PS; [|discriminate]. inversion PS; auto. }
    destruct (order_update s1 p b b' B1 BA) as [Q1 [Q2 [Q3 Q4]]]. rewrite Q1, Q2, Q3, Q4. apply OR.
  - (* AddResidualBlock *)
    unfold add_residual in E. destruct ((r =? 0) || zmem r (p_rheap s)); [discriminate|].
    destruct (check (negb (c =? 0))); cbn [bind] in E; try discriminate.
    destruct (check (Z.of_nat (length vs) =? Z.of_nat (length (W c)))); cbn [bind] in E; try discriminate.
    rewrite NC in E. destruct (check (nodupb vs)); cbn [bind] in E; try discriminate.
    destruct (add_all vs (W c) s) as [[s1 ps]| | |] eqn:A; cbn [bind] in E; try discriminate.
    assert (s1 = s) by (eapply add_all_present; eauto). subst s1. rewrite NC in E.
    destruct (check_sizes ps (W c) s); cbn [bind] in E; try discriminate.
    clear A I R. destruct s as [so sh srh spv srv spm srs scr slr smd snx slg]. cbn [p_opts] in O. subst so.
    cbn in E. inversion E; subst s'. repeat split.
  - unfold set_constant in E. pose proof (find_block_ok s a v I R) as F. destruct (find_block v s) as [[p b]| | |]; cbn [bind] in E; try discriminate.
    inversion E; subst s'. apply order_update with b; auto. apply F.
  - unfold set_lower in E. pose proof (find_block_ok s a v I R) as F. destruct (find_block v s) as [[p b]| | |]; cbn [bind] in E; try discriminate.
    destruct (pb_set_lower i x b) as [b'| | |] eqn:PS; cbn [bind] in E; try discriminate. inversion E; subst s'.
    apply order_update with b; [apply F|]. unfold pb_set_lower in PS. destruct (check (i <? b_size b)); cbn [bind] in PS; try discriminate.
    destruct (b_lo b) as [l|].
    + destruct (i <? 0); [discriminate|]. destruct (write_dbl (Z.to_nat i) x l); cbn [deref bind] in PS; inversion PS; auto.
    + destruct (dle x DBL_LOWEST); [inversion PS; auto|]. destruct (i <? 0); [discriminate|].
      destruct (write_dbl (Z.to_nat i) x (repeat DBL_LOWEST (Z.to_nat (b_size b)))); cbn [deref bind] in PS; inversion PS; auto.
  - unfold set_upper in E. pose proof (find_block_ok s a v I R) as F. destruct (find_block v s) as [[p b]| | |]; cbn [bind] in E; try discriminate.
    destruct (pb_set_upper i x b) as [b'| | |] eqn:PS; cbn [bind] in E; try discriminate. inversion E; subst s'.
    apply order_update with b; [apply F|]. unfold pb_set_upper in PS. destruct (check (i <? b_size b)); cbn [bind] in PS; try discriminate.
    destruct (b_hi b) as [l|].
    + destruct (i <? 0); [discriminate|]. destruct (write_dbl (Z.to_nat i) x l); cbn [deref bind] in PS; inversion PS; auto.
    + destruct (dle DBL_MAX x); [inversion PS; auto|]. destruct (i <? 0); [discriminate|].
      destruct (write_dbl (Z.to_nat i) x (repeat DBL_MAX (Z.to_nat (b_size b)))); cbn [deref bind] in PS; inversion PS; auto.
Qed.

Lemma run_order : forall os s a, Inv s -> Rel s a -> p_opts s = checking_options -> goods W mf_amb mf_tan os a ->
  exists s', run os s = Ok s' /\ Inv s' /\ Rel s' (effects W os a) /\ p_opts s' = checking_options /\
    order s' = order s ++ flat_map new_par os /\ p_rvec s' = p_rvec s ++ flat_map new_res os /\
    p_log s' = p_log s /\ p_mdel s' = p_mdel s.
Proof.
  induction os as [|o os IH]; intros s a I R O G; cbn [ProblemModel.run ProblemSpec.effects flat_map].
  - exists s. rewrite !app_nil_r. auto 10.
  - destruct G as [G1 [G2 [G3 G4]]].
    assert (NC : o_nochecks (p_opts s) = false) by (rewrite O; auto).
    pose proof (step_ok W mf_amb mf_tan hash_order Hperm o s a I R NC G1) as K.
    destruct (step o s) as [s1| | |] eqn:E; try contradiction. destruct K as [_ [K2 [K3 [K4 _]]]]. cbn [bind].
    destruct (step_order o s a s1 I R O G3 E) as [Q1 [Q2 [Q3 Q4]]].
    destruct (IH s1 (effect W o a) K2 K3 ltac:(congruence) G4) as [s2 [B1 [B2 [B3 [B4 [B5 [B6 [B7 B8]]]]]]]].
    exists s2. split; [auto|]. split; [auto|]. split; [auto|]. split; [auto|]. rewrite B5, B6, B7, B8, Q1, Q2, Q3, Q4, !app_assoc. auto.
Qed.
End Order.
