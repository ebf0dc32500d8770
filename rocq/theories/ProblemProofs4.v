(** Removing blocks. *)
Require Import ZArith List Lia Bool Permutation.
From Verif Require Import ZMap Dbl ProblemModel ProblemSpec ProblemProofs1 ProblemProofs2 ProblemProofs3.
Import ListNotations.
Open Scope Z_scope.

Definition freed_dec : forall x y : freed, {x = y} + {x <> y}.
Proof. decide equality; apply Z.eq_dec. Defined.
#[global] Opaque freed_dec.

Definition nfreed (x : freed) (l : list freed) : nat := count_occ freed_dec l x.

(** ** Dependency sets *)
Definition dropdep (r : Z) (ps : list Z) (q : Z) (b : pblock) : pblock :=
  if existsb (Z.eqb q) ps
  then match b_deps b with Some d => with_deps b (Some (zsrem r d)) | None => b end else b.

Lemma drop_deps_ok : forall r ps s, zsorted (p_pheap s) ->
  (forall p, In p ps -> exists b d, zfind p (p_pheap s) = Some b /\ b_deps b = Some d /\ In r (zkeys d)) -> NoDup ps ->
  exists h, foreach (pb_remove_residual r) ps s = Ok (set_pheap s h) /\ zsorted h /\
    forall q, zfind q h = option_map (dropdep r ps q) (zfind q (p_pheap s)).
Proof.
  intros r; induction ps as [|p ps IH]; intros s Hs H ND.
  - exists (p_pheap s). split; [destruct s; reflexivity|]. split; auto.
    intros q. destruct (zfind q (p_pheap s)); reflexivity.
  - cbn [foreach]. destruct (H p (or_introl eq_refl)) as [b [d [B [D M]]]].
    unfold pb_remove_residual at 1. rewrite B. cbn [deref bind]. rewrite D.
    assert (MM : zsmem r d = true) by (apply zsmem_true; auto). rewrite MM. cbn [check bind].
    set (s1 := set_pheap s (zput p (with_deps b (Some (zsrem r d))) (p_pheap s))).
    assert (Hs1 : zsorted (p_pheap s1)) by (simpl; apply zsorted_put; auto).
    inversion ND as [|? ? NI ND']; subst.
    destruct (IH s1 Hs1) as [h [A1 [A2 A3]]]; auto.
    { intros q Hq. destruct (H q (or_intror Hq)) as [b' [d' [B' D']]]. exists b', d'. split; auto.
      simpl. rewrite zfind_put. destruct (Z.eqb_spec q p); [subst; contradiction|auto]. }
    exists h. split; [rewrite A1; reflexivity|]. split; auto.
    intros q. rewrite A3. simpl. rewrite zfind_put. unfold dropdep. cbn [existsb].
    destruct (Z.eqb_spec q p).
    + subst q. rewrite B. simpl. assert (E : existsb (Z.eqb p) ps = false) by (apply existsb_eqb_false; auto).
      rewrite E. rewrite D. auto.
    + simpl. auto.
Qed.

Lemma zkeys_srem : forall r d x, zsorted d -> (In x (zkeys (zsrem r d)) <-> x <> r /\ In x (zkeys d)).
Proof.
  intros r d x Hs. unfold zsrem. split.
  - intros H. apply zfind_some_keys in H. destruct H as [v H]. rewrite zfind_erase in H by auto.
    destruct (Z.eqb_spec x r); [discriminate|]. split; auto. eapply zfind_in_keys; eauto.
  - intros [N H]. apply zfind_some_keys in H. destruct H as [v H].
    assert (zfind x (zerase r d) = Some v). { rewrite zfind_erase by auto. destruct (Z.eqb_spec x r); [contradiction|auto]. }
    eapply zfind_in_keys; eauto.
Qed.

Lemma refs_decrement : forall m n c, zsorted m -> refs_ok m n -> (0 < n c)%nat ->
  exists m', decrement c m = Ok (m', Nat.eqb (n c) 1) /\ zsorted m' /\
    refs_ok m' (fun k => if k =? c then (n c - 1)%nat else n k).
Proof.
  intros m n c Hs H Hp. unfold decrement. rewrite (H c).
  destruct (Nat.eqb_spec (n c) 0); [lia|]. cbn [deref bind].
  destruct (Z.eqb_spec (Z.of_nat (n c)) 1) as [E|E]; destruct (Nat.eqb_spec (n c) 1) as [F|F]; try lia.
  - exists (zerase c m). split; auto. split; [apply zsorted_erase; auto|].
    intros k. rewrite zfind_erase by auto. destruct (Z.eqb_spec k c).
    + subst. rewrite F. auto.
    + apply H.
  - exists (zput c (Z.of_nat (n c) - 1) m). split; auto. split; [apply zsorted_put; auto|].
    intros k. rewrite zfind_put. destruct (Z.eqb_spec k c).
    + destruct (Nat.eqb_spec (n c - 1) 0); [lia|]. f_equal. lia.
    + apply H.
Qed.

(** Parameter block maps that differ in the dependency sets only. *)
Definition same_but_deps (h h' : zmap pblock) : Prop :=
  exists g : Z -> pblock -> pblock,
    (forall q, zfind q h' = option_map (g q) (zfind q h)) /\
    (forall q b, b_addr (g q b) = b_addr b /\ b_size (g q b) = b_size b /\ b_index (g q b) = b_index b /\
       b_user (g q b) = b_user b /\ b_lo (g q b) = b_lo b /\ b_hi (g q b) = b_hi b /\
       b_const (g q b) = b_const b /\ b_man (g q b) = b_man b).

Lemma same_but_deps_refl : forall h, same_but_deps h h.
Proof.
  intros h. exists (fun _ b => b). split; [intros q; destruct (zfind q h); auto|auto 10].
Qed.

Lemma same_but_deps_trans : forall h1 h2 h3, same_but_deps h1 h2 -> same_but_deps h2 h3 -> same_but_deps h1 h3.
Proof.
  intros h1 h2 h3 [f [F1 F2]] [g [G1 G2]]. exists (fun q b => g q (f q b)). split.
  - intros q. rewrite G1, F1. destruct (zfind q h1); auto.
  - intros q b. destruct (F2 q b) as [A1 [A2 [A3 [A4 [A5 [A6 [A7 A8]]]]]]].
    destruct (G2 q (f q b)) as [B1 [B2 [B3 [B4 [B5 [B6 [B7 B8]]]]]]].
    rewrite B1, B2, B3, B4, B5, B6, B7, B8. auto 10.
Qed.

(** What removing one residual block changes. *)
Record removed (r : Z) (s s' : problem) : Prop := mkRem {
  rm_opts : p_opts s' = p_opts s;
  rm_pmap : p_pmap s' = p_pmap s;
  rm_pvec : p_pvec s' = p_pvec s;
  rm_mdel : p_mdel s' = p_mdel s;
  rm_next : p_next s' = p_next s;
  rm_heap : same_but_deps (p_pheap s) (p_pheap s');
  rm_rheap : forall q, option_map rcore (zfind q (p_rheap s')) =
                       if q =? r then None else option_map rcore (zfind q (p_rheap s));
  rm_rvec : exists rb tmp, zfind r (p_rheap s) = Some rb /\ hd_error (rev (p_rvec s)) = Some tmp /\
                       p_rvec s' = vremove (Z.to_nat (r_index rb)) tmp (p_rvec s);
  rm_log : exists l, p_log s' = p_log s ++ l /\
     (forall c, nfreed (FCost c) l = if o_cost_own (p_opts s) && Nat.ltb 0 (ncost c s) && Nat.eqb (ncost c s') 0 then 1%nat else 0%nat) /\
     (forall c, nfreed (FLoss c) l = if o_loss_own (p_opts s) && Nat.ltb 0 (nloss c s) && Nat.eqb (nloss c s') 0 then 1%nat else 0%nat) /\
     (forall m, nfreed (FManifold m) l = 0%nat);
  rm_nc : forall c, (ncost c s' <= ncost c s)%nat;
  rm_nl : forall c, (nloss c s' <= nloss c s)%nat }.

Lemma zsorted_find_none_erase : forall A (m : zmap A) k, zsorted m -> zfind k (zerase k m) = None.
Proof. intros. rewrite zfind_erase by auto. rewrite Z.eqb_refl. auto. Qed.

Lemma internal_remove_ok : forall s r, Inv s -> zfind r (p_rheap s) <> None ->
  exists s', internal_remove_residual r s = Ok s' /\ Inv s' /\ removed r s s'.
Proof.
  intros s r I HR. destruct (zfind r (p_rheap s)) as [rb|] eqn:ER; [clear HR|congruence].
  destruct (i_rp s I r rb ER) as [NDP [RNZ LIVE]].
  (* dependency sets and residual set *)
  assert (D : exists h rs, (if o_fast (p_opts s) then
             do rb <- deref (zfind r (p_rheap s));
             do s <- foreach (pb_remove_residual r) (r_params rb) s;
             if zsmem r (p_rset s) then Ok (set_rset s (zsrem r (p_rset s))) else Crash
           else Ok s) = Ok (set_rset (set_pheap s h) rs) /\ zsorted h /\ zsorted rs /\
           (forall q, zfind q h = option_map (if o_fast (p_opts s) then dropdep r (r_params rb) q else (fun b => b)) (zfind q (p_pheap s))) /\
           rs = if o_fast (p_opts s) then zsrem r (p_rset s) else p_rset s).
  { destruct (o_fast (p_opts s)) eqn:OF.
    - rewrite ER. cbn [deref bind].
      destruct (drop_deps_ok r (r_params rb) s (i_sp s I)) as [h [A1 [A2 A3]]]; auto.
      + intros p Hp. specialize (LIVE p Hp). destruct (zfind p (p_pheap s)) as [b|] eqn:E; [|congruence].
        pose proof (i_dep s I p b E) as X. rewrite OF in X. destruct X as [d [X1 [X2 X3]]].
        exists b, d. split; auto. split; auto. apply X3. eauto.
      + rewrite A1. cbn [bind]. simpl p_rset.
        assert (M : zsmem r (p_rset s) = true).
        { apply zsmem_true. pose proof (i_rs s I) as X. rewrite OF in X. apply X. congruence. }
        rewrite M. exists h, (zsrem r (p_rset s)). split; auto. split; auto.
        split; [apply zsorted_erase; exact (i_ss s I)|]. auto.
    - exists (p_pheap s), (p_rset s). split; [destruct s; reflexivity|]. split; [exact (i_sp s I)|].
      split; [exact (i_ss s I)|]. split; auto. intros q. destruct (zfind q (p_pheap s)); auto. }
  destruct D as [h [rs [DE [DS [DS2 [DF ERS]]]]]].
  unfold internal_remove_residual. rewrite DE. cbn [bind].
  set (g := fun q => if o_fast (p_opts s) then dropdep r (r_params rb) q else (fun b : pblock => b)).
  assert (DF' : forall q, zfind q h = option_map (g q) (zfind q (p_pheap s))).
  { intros q. rewrite DF. unfold g. destruct (o_fast (p_opts s)); auto. }
  assert (GA : forall q b, b_addr (g q b) = b_addr b /\ b_size (g q b) = b_size b /\ b_index (g q b) = b_index b /\
     b_user (g q b) = b_user b /\ b_lo (g q b) = b_lo b /\ b_hi (g q b) = b_hi b /\ b_const (g q b) = b_const b /\ b_man (g q b) = b_man b).
  { intros q b. unfold g, dropdep. destruct (o_fast (p_opts s)); [|auto 10].
    destruct (existsb (Z.eqb q) (r_params rb)); [|auto 10]. destruct (b_deps b); simpl; auto 10. }
  assert (GI : forall q b', zfind q h = Some b' -> exists b, zfind q (p_pheap s) = Some b /\ b' = g q b).
  { intros q b' H. rewrite DF' in H. destruct (zfind q (p_pheap s)) as [b|]; [|discriminate].
    inversion H; subst. eauto. }
  assert (GN : forall q, zfind q h <> None <-> zfind q (p_pheap s) <> None).
  { intros q. rewrite DF'. destruct (zfind q (p_pheap s)); simpl; split; congruence. }
  (* the vector *)
  assert (RI : ridx s r = Some (r_index rb)) by (unfold ridx; rewrite ER; auto).
  destruct (indexed_remove (p_rvec s) (ridx s) r (r_index rb) (i_rv s I) RI) as [tmp [zt [V1 [V2 [V3 [V4 V5]]]]]].
  unfold delete_residual_in_vector. simpl p_rheap. simpl p_rvec. rewrite ER. cbn [deref bind].
  rewrite V1. cbn [deref bind]. rewrite Z.eqb_refl. cbn [check bind]. rewrite V2. cbn [deref bind].
  unfold ridx in V3. destruct (zfind tmp (p_rheap s)) as [tb|] eqn:ET; [|discriminate]. cbn [deref bind].
  set (h2 := zput tmp (mkRB (r_cost tb) (r_loss tb) (r_params tb) (r_index rb)) (p_rheap s)).
  assert (SH2 : zsorted h2) by (apply zsorted_put; exact (i_sr s I)).
  assert (R2 : exists rb2, zfind r h2 = Some rb2 /\ r_cost rb2 = r_cost rb /\ r_loss rb2 = r_loss rb).
  { unfold h2. rewrite zfind_put. destruct (Z.eqb_spec r tmp).
    - subst. eexists. split; [reflexivity|]. simpl. split; congruence.
    - eauto. }
  destruct R2 as [rb2 [R2 [R2c R2l]]].
  (* counts *)
  assert (CNT : forall f : rblock -> bool, (forall x i, f (mkRB (r_cost x) (r_loss x) (r_params x) i) = f x) ->
     (zcount f (zerase r h2) + (if f rb then 1 else 0) = zcount f (p_rheap s))%nat).
  { intros f Hf. assert (zcount f h2 = zcount f (p_rheap s)).
    { unfold h2. pose proof (zcount_put_old _ f tmp (mkRB (r_cost tb) (r_loss tb) (r_params tb) (r_index rb)) tb (p_rheap s) (i_sr s I) ET) as Q.
      rewrite Hf in Q. lia. }
    pose proof (zcount_erase _ f r rb2 h2 R2) as Q.
    assert (f rb2 = f rb).
    { unfold h2 in R2. rewrite zfind_put in R2. destruct (Z.eqb_spec r tmp); [|congruence].
      subst. inversion R2; subst rb2. rewrite Hf. congruence. }
    rewrite H0 in Q. lia. }
  (* reference counts *)
  unfold delete_residual. simpl p_rheap. rewrite R2. cbn [deref bind]. simpl p_opts. rewrite R2c, R2l.
  assert (NC : (0 < ncost (r_cost rb) s)%nat).
  { apply (zcount_pos _ _ _ (i_sr s I)). exists r, rb. split; auto. apply Z.eqb_refl. }
  assert (CR : exists m b, (if o_cost_own (p_opts s) then decrement (r_cost rb) (p_cref s) else Ok (p_cref s, false)) = Ok (m, b) /\
      zsorted m /\ b = (o_cost_own (p_opts s) && Nat.eqb (ncost (r_cost rb) s) 1) /\
      if o_cost_own (p_opts s) then refs_ok m (fun k => if k =? r_cost rb then (ncost (r_cost rb) s - 1)%nat else ncost k s) else m = []).
  { pose proof (i_cr s I) as X. destruct (o_cost_own (p_opts s)) eqn:OC.
    - destruct (refs_decrement _ _ (r_cost rb) (i_sc s I) X NC) as [m [M1 [M2 M3]]]. exists m. eexists. split; [exact M1|]. auto.
    - exists (p_cref s), false. split; auto. split; [exact (i_sc s I)|]. auto. }
  destruct CR as [mc [dc [CR1 [CR2 [CR3 CR4]]]]].
  assert (LR : exists m b, (if o_loss_own (p_opts s) && negb (r_loss rb =? 0) then decrement (r_loss rb) (p_lref s) else Ok (p_lref s, false)) = Ok (m, b) /\
      zsorted m /\ b = (o_loss_own (p_opts s) && Nat.eqb (nloss (r_loss rb) s) 1 && negb (r_loss rb =? 0)) /\
      if o_loss_own (p_opts s) then refs_ok m (fun k => if (k =? r_loss rb) && negb (r_loss rb =? 0) then (nloss (r_loss rb) s - 1)%nat else nloss k s) else m = []).
  { pose proof (i_lr s I) as X. destruct (o_loss_own (p_opts s)) eqn:OC; cbn [andb].
    - destruct (Z.eqb_spec (r_loss rb) 0) as [L0|L0]; cbn [negb].
      + exists (p_lref s), false. split; auto. split; [exact (i_sl s I)|]. split; [rewrite andb_false_r; auto|].
        eapply refs_ext; [|exact X]. intros k. cbv beta. rewrite andb_false_r. auto.
      + assert (NL : (0 < nloss (r_loss rb) s)%nat).
        { apply (zcount_pos _ _ _ (i_sr s I)). exists r, rb. split; auto. rewrite Z.eqb_refl.
          destruct (Z.eqb_spec (r_loss rb) 0); [contradiction|auto]. }
        destruct (refs_decrement _ _ (r_loss rb) (i_sl s I) X NL) as [m [M1 [M2 M3]]]. exists m. eexists. split; [exact M1|].
        split; auto. split; [rewrite andb_true_r; auto|].
        eapply refs_ext; [|exact M3]. intros k. cbv beta. rewrite andb_true_r. auto.
    - exists (p_lref s), false. split; auto. split; [exact (i_sl s I)|]. auto. }
  destruct LR as [ml [dl [LR1 [LR2 [LR3 LR4]]]]].
  set (lg := (if dc then [FCost (r_cost rb)] else []) ++ (if dl then [FLoss (r_loss rb)] else [])).
  set (s3 := mkP (p_opts s) h (zerase r h2) (p_pvec s) (vremove (Z.to_nat (r_index rb)) tmp (p_rvec s))
                 (p_pmap s) rs mc ml (p_mdel s) (p_next s) (p_log s ++ lg)).
  assert (FIN : forall X, X = s3 -> exists s', Ok X = Ok s' /\ Inv s' /\ removed r s s').
  { intros X ->. exists s3. split; auto.
    assert (NC3 : forall c, ncost c s3 = (ncost c s - if (r_cost rb =? c)%Z then 1 else 0)%nat).
    { intros c. unfold ncost, s3. simpl p_rheap. pose proof (CNT (fun x => r_cost x =? c) ltac:(reflexivity)) as Q. cbv beta in Q.
      destruct (r_cost rb =? c); lia. }
    assert (NL3 : forall c, nloss c s3 = (nloss c s - if ((r_loss rb =? c) && negb (c =? 0))%Z then 1 else 0)%nat).
    { intros c. unfold nloss, s3. simpl p_rheap. pose proof (CNT (fun x => (r_loss x =? c) && negb (c =? 0)) ltac:(reflexivity)) as Q. cbv beta in Q.
      destruct ((r_loss rb =? c) && negb (c =? 0)); lia. }
    assert (RH3 : forall q, option_map rcore (zfind q (zerase r h2)) = if q =? r then None else option_map rcore (zfind q (p_rheap s))).
    { intros q. rewrite zfind_erase by auto. destruct (Z.eqb_spec q r); auto. unfold h2. rewrite zfind_put.
      destruct (Z.eqb_spec q tmp); auto. subst. rewrite ET. reflexivity. }
    assert (RF : forall q qb, zfind q (zerase r h2) = Some qb -> q <> r /\ exists qb0, zfind q (p_rheap s) = Some qb0 /\ r_params qb = r_params qb0).
    { intros q qb Hq. pose proof (RH3 q) as E. rewrite Hq in E. simpl in E. destruct (Z.eqb_spec q r); [discriminate|].
      split; auto. destruct (zfind q (p_rheap s)) as [qb0|]; [|discriminate]. exists qb0. split; auto.
      simpl in E. unfold rcore in E. congruence. }
    assert (RB : forall q qb, q <> r -> zfind q (p_rheap s) = Some qb -> exists qb', zfind q (zerase r h2) = Some qb' /\ r_params qb' = r_params qb).
    { intros q qb Nq Hq. pose proof (RH3 q) as E. rewrite Hq in E. destruct (Z.eqb_spec q r); [contradiction|].
      destruct (zfind q (zerase r h2)) as [qb'|]; [|discriminate]. exists qb'. split; auto. simpl in E. unfold rcore in E. congruence. }
    split.
    - constructor; simpl.
      + exact DS.
      + apply zsorted_erase; auto.
      + exact (i_sm s I).
      + exact DS2.
      + exact CR2.
      + exact LR2.
      + eapply indexed_ext; [|exact (i_pv s I)]. intros q. unfold pidx. simpl. rewrite DF'.
        destruct (zfind q (p_pheap s)) as [b|]; simpl; auto. destruct (GA q b) as [_ [_ [G _]]]. congruence.
      + eapply indexed_ext; [|exact V5]. intros q. cbv beta. unfold ridx at 2. simpl. rewrite zfind_erase by auto.
        destruct (Z.eqb_spec q r); auto. unfold h2. rewrite zfind_put. destruct (Z.eqb_spec q tmp); auto.
      + intros v p. rewrite (i_pm s I). rewrite DF'. split.
        * intros [b [B1 B2]]. rewrite B1. exists (g p b). simpl. split; auto. destruct (GA p b) as [G _]. congruence.
        * intros [b [B1 B2]]. destruct (zfind p (p_pheap s)) as [b0|]; [|discriminate]. inversion B1; subst.
          exists b0. split; auto. destruct (GA p b0) as [G _]. congruence.
      + intros q qb Hq. destruct (RF q qb Hq) as [N [qb0 [Q1 Q2]]]. destruct (i_rp s I q qb0 Q1) as [A [B C]].
        rewrite Q2. split; auto. split; auto. intros p Hp. apply GN. auto.
      + intros p b' Hb'. destruct (GI _ _ Hb') as [b [B1 ->]]. pose proof (i_dep s I p b B1) as D.
        unfold g. destruct (o_fast (p_opts s)) eqn:OF; auto. destruct D as [d [D1 [D2 D3]]].
        assert (KEY : forall q, q <> r -> ((exists x, zfind q (p_rheap s) = Some x /\ In p (r_params x)) <-> (exists x, zfind q (zerase r h2) = Some x /\ In p (r_params x)))).
        { intros q Nq. split.
          - intros [x [X1 X2]]. destruct (RB q x Nq X1) as [y [Y1 Y2]]. exists y. split; auto. rewrite Y2; auto.
          - intros [x [X1 X2]]. destruct (RF q x X1) as [_ [y [Y1 Y2]]]. exists y. split; auto. rewrite <- Y2; auto. }
        assert (NR : ~ exists x, zfind r (zerase r h2) = Some x /\ In p (r_params x)).
        { intros [x [X1 _]]. rewrite zsorted_find_none_erase in X1 by auto. discriminate. }
        unfold dropdep. rewrite D1. destruct (existsb (Z.eqb p) (r_params rb)) eqn:EP.
        * simpl. exists (zsrem r d). split; auto. split; [apply zsorted_erase; auto|].
          intros q. rewrite zkeys_srem by auto. rewrite D3. destruct (Z.eq_dec q r) as [->|Nq].
          -- split; [intros [? _]; contradiction|]. intros X. contradiction.
          -- rewrite (KEY q Nq). tauto.
        * exists d. split; auto. split; auto. intros q. rewrite D3. apply existsb_eqb_false in EP.
          destruct (Z.eq_dec q r) as [->|Nq]; [|apply KEY; auto]. split.
          -- intros [x [X1 X2]]. rewrite ER in X1. inversion X1; subst. contradiction.
          -- intros X. contradiction.
      + pose proof (i_rs s I) as D. rewrite ERS. destruct (o_fast (p_opts s)); auto.
        intros q. rewrite zkeys_srem by exact (i_ss s I). rewrite D. rewrite zfind_erase by auto.
        destruct (Z.eqb_spec q r); [intuition|]. unfold h2. rewrite zfind_put. destruct (Z.eqb_spec q tmp).
        * subst. rewrite ET. split; [discriminate|]. intros _. split; auto. discriminate.
        * tauto.
      + destruct (o_cost_own (p_opts s)) eqn:OC; auto.
        eapply refs_ext; [|exact CR4]. intros k. cbv beta. rewrite NC3. rewrite (Z.eqb_sym (r_cost rb) k).
        destruct (Z.eqb_spec k (r_cost rb)); [subst; auto|lia].
      + destruct (o_loss_own (p_opts s)) eqn:OC; auto.
        eapply refs_ext; [|exact LR4]. intros k. cbv beta. rewrite NL3. rewrite (Z.eqb_sym (r_loss rb) k).
        destruct (Z.eqb_spec k (r_loss rb)); [subst; destruct (negb (r_loss rb =? 0)); simpl; lia|simpl; lia].
      + intros p b' q c' Hb Hc. destruct (GI _ _ Hb) as [b [B1 ->]]. destruct (GI _ _ Hc) as [b2 [B2 ->]].
        destruct (GA p b) as [G1 [G2 _]]. destruct (GA q b2) as [G3 _]. rewrite G1, G2, G3.
        apply (i_ch s I p b q b2); auto.
      + intros p Hp. apply (i_nx s I). apply GN. auto.
      + intros p b' Hb. destruct (GI _ _ Hb) as [b [B1 ->]].
        destruct (GA p b) as [G1 [G2 [_ [G4 [G5 [G6 _]]]]]]. rewrite G1, G2, G5, G6. exact (i_bl s I p b B1).
    - constructor; simpl; auto.
      + exists g. auto.
      + exists rb, tmp. auto.
      + exists lg. split; auto. split; [|split].
        * intros c. unfold nfreed, lg. rewrite count_occ_app.
          replace (count_occ freed_dec (if dl then [FLoss (r_loss rb)] else []) (FCost c)) with 0%nat by (destruct dl; reflexivity).
          rewrite NC3, CR3. destruct (o_cost_own (p_opts s)); [|reflexivity]. cbn [andb].
          destruct (Z.eqb_spec (r_cost rb) c).
          -- subst c. destruct (Nat.eqb_spec (ncost (r_cost rb) s) 1) as [E|E].
             ++ rewrite E. simpl. destruct (freed_dec (FCost (r_cost rb)) (FCost (r_cost rb))); [auto|congruence].
             ++ destruct (Nat.ltb_spec 0 (ncost (r_cost rb) s)); [|lia].
                destruct (Nat.eqb_spec (ncost (r_cost rb) s - 1) 0); [lia|]. reflexivity.
          -- replace (ncost c s - 0)%nat with (ncost c s) by lia.
             destruct (Nat.ltb_spec 0 (ncost c s)); destruct (Nat.eqb_spec (ncost c s) 0); try lia; cbn [andb];
             destruct (Nat.eqb (ncost (r_cost rb) s) 1); simpl; auto; (destruct (freed_dec (FCost (r_cost rb)) (FCost c)) as [Q|Q]; [inversion Q; congruence|auto]).
        * intros c. unfold nfreed, lg. rewrite count_occ_app.
          replace (count_occ freed_dec (if dc then [FCost (r_cost rb)] else []) (FLoss c)) with 0%nat by (destruct dc; reflexivity).
          rewrite NL3, LR3. destruct (o_loss_own (p_opts s)); [|reflexivity]. cbn [andb].
          destruct (Z.eqb_spec (r_loss rb) c).
          -- subst c. destruct (Z.eqb_spec (r_loss rb) 0) as [L0|L0]; cbn [negb andb].
             ++ rewrite andb_false_r.
                assert (N0 : nloss (r_loss rb) s = 0%nat).
                { unfold nloss. destruct (zcount _ _) eqn:Z0; auto. exfalso.
                  assert (ZP : (0 < zcount (fun x => ((r_loss x =? r_loss rb) && negb (r_loss rb =? 0))%Z) (p_rheap s))%nat) by lia.
                  apply (zcount_pos _ _ _ (i_sr s I)) in ZP. destruct ZP as [k [x [_ ZP]]]. rewrite L0, andb_false_r in ZP. discriminate. }
                rewrite N0. reflexivity.
             ++ rewrite andb_true_r.
                assert (NL : (0 < nloss (r_loss rb) s)%nat).
                { apply (zcount_pos _ _ _ (i_sr s I)). exists r, rb. split; auto. rewrite Z.eqb_refl.
                  destruct (Z.eqb_spec (r_loss rb) 0); [contradiction|auto]. }
                destruct (Nat.eqb_spec (nloss (r_loss rb) s) 1) as [E|E].
                ** rewrite E. simpl. destruct (freed_dec (FLoss (r_loss rb)) (FLoss (r_loss rb))); [auto|congruence].
                ** destruct (Nat.ltb_spec 0 (nloss (r_loss rb) s)); [|lia].
                   destruct (Nat.eqb_spec (nloss (r_loss rb) s - 1) 0); [lia|]. reflexivity.
          -- cbn [andb]. replace (nloss c s - 0)%nat with (nloss c s) by lia.
             destruct (Nat.ltb_spec 0 (nloss c s)); destruct (Nat.eqb_spec (nloss c s) 0); try lia; cbn [andb];
             destruct (Nat.eqb (nloss (r_loss rb) s) 1 && negb (r_loss rb =? 0)); simpl; auto; (destruct (freed_dec (FLoss (r_loss rb)) (FLoss c)) as [Q|Q]; [inversion Q; congruence|auto]).
        * intros m. unfold nfreed, lg. rewrite count_occ_app. destruct dc, dl; reflexivity.
      + intros c. rewrite NC3. lia.
      + intros c. rewrite NL3. lia. }
  clear CR3 LR3 CR4 LR4.
  destruct (o_cost_own (p_opts s)) eqn:OC.
  - simpl p_cref. rewrite CR1. cbn [bind]. destruct dc; simpl p_opts; simpl p_lref;
      (destruct (o_loss_own (p_opts s) && negb (r_loss rb =? 0)) eqn:OL;
        [rewrite LR1; cbn [bind]; destruct dl; apply FIN; unfold s3, lg; simpl; rewrite ?app_nil_r, <- ?app_assoc; reflexivity
        |inversion LR1; subst ml dl; cbn [bind]; apply FIN; unfold s3, lg; simpl; rewrite ?app_nil_r, <- ?app_assoc; try reflexivity]).
  - inversion CR1; subst mc dc. cbn [bind]. simpl p_opts; simpl p_lref.
      (destruct (o_loss_own (p_opts s) && negb (r_loss rb =? 0)) eqn:OL;
        [rewrite LR1; cbn [bind]; destruct dl; apply FIN; unfold s3, lg; simpl; rewrite ?app_nil_r, <- ?app_assoc; reflexivity
        |inversion LR1; subst ml dl; cbn [bind]; apply FIN; unfold s3, lg; simpl; rewrite ?app_nil_r, <- ?app_assoc; try reflexivity]).
Qed.
