(** Gradient checking: the copy of the problem. *)
Require Import ZArith List Lia Bool Permutation.
From Verif Require Import ZMap Dbl ProblemModel ProblemSpec ProblemProofs1 ProblemProofs2 ProblemProofs3 ProblemProofs6 ProblemProofs8 GckModel GckSpec.
Import ListNotations.
Open Scope Z_scope.

(** ** What holds of the picture after any accepted history *)
Section Picture.
Variables (cf_sizes : Z -> list Z) (mf_amb mf_tan : Z -> Z).
Notation allows := (allows cf_sizes mf_amb mf_tan).
Notation effect := (effect cf_sizes).
Notation effects := (effects cf_sizes).
Notation accepted := (accepted cf_sizes mf_amb mf_tan).

Definition man_fits (i : pinfo) : Prop := i_man i = 0 \/ (mf_amb (i_man i) = i_size i /\ 0 <= mf_tan (i_man i)).
Definition has_size (a : pspec) (v z : Z) : Prop := exists i, a_par a v = Some i /\ i_size i = z.
Definition res_fits (a : pspec) (e : Z * Z * list Z) : Prop :=
  let '(c, l, vs) := e in c <> 0 /\ NoDup vs /\ Forall2 (has_size a) vs (cf_sizes c).
Definition wf (a : pspec) : Prop :=
  (forall v i, a_par a v = Some i -> v <> 0 /\ man_fits i) /\ (forall r e, a_res a r = Some e -> res_fits a e).

Definition grows (a a' : pspec) : Prop := forall v z, has_size a v z -> has_size a' v z.
Lemma res_grows : forall a a' e, grows a a' -> res_fits a e -> res_fits a' e.
Proof.
  intros a a' [[c l] vs] G [H1 [H2 H3]]. split; auto. split; auto. clear H2. induction H3; constructor; auto.
Qed.

Lemma add1_wf : forall a v z, wf a -> v <> 0 -> wf (add1 v z a) /\ grows a (add1 v z a) /\ a_res (add1 v z a) = a_res a.
Proof.
  intros a v z [W1 W2] NZ. unfold add1. destruct (a_par a v) as [i|] eqn:E.
  - split; [split; auto|]. split; [intros u y H; auto|]. auto.
  - assert (G : grows a (set_par v (Some (fresh_info z)) a)).
    { intros u y [i [H1 H2]]. exists i. split; auto. simpl. unfold fupd. destruct (Z.eqb_spec u v); [congruence|auto]. }
    split; [|split; auto]. split.
    + intros u i. simpl. unfold fupd. destruct (Z.eqb_spec u v) as [->|]; [|apply W1].
      intros H. inversion H; subst. split; auto. left. reflexivity.
    + intros r e H. apply res_grows with a; auto. apply W2 with r. auto.
Qed.

Lemma add_many_wf : forall vs szs a, wf a -> all_fit vs szs a ->
  wf (add_many vs szs a) /\ grows a (add_many vs szs a) /\ a_res (add_many vs szs a) = a_res a /\
  (length vs = length szs -> Forall2 (has_size (add_many vs szs a)) vs szs).
Proof.
  induction vs as [|v vs IH]; intros szs a W F; cbn [add_many].
  - split; auto. split; [intros u y H; auto|]. split; auto. destruct szs; [constructor|discriminate].
  - destruct szs as [|z szs]; [split; auto; split; [intros u y H; auto|]; split; auto; discriminate|].
    destruct F as [F1 F2]. destruct (add1_wf a v z W (proj1 F1)) as [A1 [A2 A3]].
    destruct (IH szs (add1 v z a) A1 F2) as [B1 [B2 [B3 B4]]]. split; auto. split; [intros u y H; apply B2, A2; auto|].
    split; [congruence|]. intros L. constructor; [|apply B4; simpl in L; lia].
    apply B2. unfold add1. destruct (a_par a v) as [i|] eqn:E.
    + exists i. split; auto. destruct F1 as [_ F1]. rewrite E in F1. auto.
    + exists (fresh_info z). split; auto. simpl. unfold fupd. rewrite Z.eqb_refl. auto.
Qed.

Lemma upd_wf : forall a v f, wf a -> (forall i, a_par a v = Some i -> i_size (f i) = i_size i /\ (man_fits (f i))) ->
  wf (upd_par v f a).
Proof.
  intros a v f [W1 W2] H. unfold upd_par. destruct (a_par a v) as [i|] eqn:E; [|split; auto].
  assert (G : grows a (set_par v (Some (f i)) a)).
  { intros u y [j [H1 H2]]. unfold has_size. simpl. unfold fupd. destruct (Z.eqb_spec u v) as [->|]; [|eauto].
    exists (f i). split; auto. rewrite (proj1 (H i eq_refl)). congruence. }
  split.
  - intros u j. simpl. unfold fupd. destruct (Z.eqb_spec u v) as [->|]; [|apply W1].
    intros Q. inversion Q; subst. split; [apply (W1 v i E)|apply (H i eq_refl)].
  - intros r e Q. apply res_grows with a; auto. apply W2 with r. auto.
Qed.

Lemma man_allowed : forall i m ok, man_fits i -> manifold_allowed mf_amb mf_tan i m ok -> man_fits (with_manifold m i).
Proof.
  intros i m ok H [->|[->|[A [B _]]]]; unfold man_fits, with_manifold; simpl; auto.
Qed.

Lemma effect_wf : forall o a, wf a -> sane o a -> allows o a -> wf (effect o a).
Proof.
  intros o a W SN AL. destruct o; cbn [ProblemSpec.effect ProblemSpec.allows] in *.
  - apply add1_wf; auto. apply AL.
  - destruct AL as [F [i [E M]]]. destruct (add1_wf a v size W (proj1 F)) as [A1 _].
    apply upd_wf; auto. intros j Ej. assert (j = i) by congruence. subst j. split; auto.
    apply man_allowed with ok; auto. apply (proj1 A1 v i E).
  - destruct AL as [C1 [C2 [C3 C4]]]. destruct (add_many_wf vs (cf_sizes c) a W C4) as [[A1 A1'] [A2 [A3 A4]]]. split.
    + simpl. apply A1.
    + intros r0 e. simpl. unfold fupd. destruct (Z.eqb_spec r0 r) as [->|].
      * intros H. inversion H; subst. split; auto.
      * intros H. apply A1' in H. auto.
  - destruct W as [W1 W2]. split; [exact W1|]. intros r0 e. simpl. unfold fupd. destruct (Z.eqb_spec r0 r); [discriminate|]. apply W2.
  - destruct W as [W1 W2]. split.
    + intros u i. simpl. unfold fupd. destruct (Z.eqb_spec u v); [discriminate|]. apply W1.
    + intros r0 e. simpl. destruct (a_res a r0) as [[[c l] vs]|] eqn:E; [|discriminate].
      destruct (in_dec Z.eq_dec v vs) as [|N]; [discriminate|]. intros H. inversion H; subst. destruct (W2 r0 _ E) as [H1 [H2 H3]].
      split; auto. split; auto. revert H3. clear - N. intros H3. induction H3 as [|u z vs zs Hu F IH]; constructor.
      * destruct Hu as [i [Q1 Q2]]. exists i. split; auto. simpl. unfold fupd. destruct (Z.eqb_spec u v); auto. subst. exfalso. apply N. left. auto.
      * apply IH. intros Q. apply N. right. auto.
  - apply upd_wf; auto. intros i E. split; auto. apply (proj1 W v i E).
  - apply upd_wf; auto. intros i E. split; auto. apply (proj1 W v i E).
  - apply upd_wf; auto. intros i E. split; auto. destruct AL as [i0 [E0 M]]. assert (i = i0) by congruence. subst.
    apply man_allowed with ok; auto. apply (proj1 W v i0 E).
  - apply upd_wf; auto. intros i0 E. split; auto. apply (proj1 W v i0 E).
  - apply upd_wf; auto. intros i0 E. split; auto. apply (proj1 W v i0 E).
  - exact W.
Qed.

Lemma accepted_wf : forall os a, wf a -> accepted os a -> wf (effects os a).
Proof.
  induction os as [|o os IH]; intros a W AC; cbn [ProblemSpec.effects]; auto.
  destruct AC as [A1 [A2 A3]]. apply IH; auto. apply effect_wf; auto.
Qed.
Lemma empty_wf : wf empty_spec.
Proof. split; intros; discriminate. Qed.
End Picture.

(** ** Calls made while copying *)
Section Calls.
Variables (W : Z -> list Z) (mf_amb mf_tan : Z -> Z).
Notation allows := (allows W mf_amb mf_tan).
Notation effect := (effect W).
Notation effects := (effects W).

Definition copying (o : op) (a : pspec) : Prop :=
  match o with
  | OAddParameterManifold v _ _ _ => a_par a v = None
  | OAddResidual _ _ _ vs => forall v, In v vs -> a_par a v <> None
  | OSetConstant _ | OSetLower _ _ _ | OSetUpper _ _ _ => True
  | _ => False
  end.
Fixpoint goods (os : list op) (a : pspec) : Prop :=
  match os with
  | [] => True
  | o :: os' => sane o a /\ allows o a /\ copying o a /\ goods os' (effect o a)
  end.
Lemma goods_app : forall os os' a, goods os a -> goods os' (effects os a) -> goods (os ++ os') a.
Proof.
  induction os as [|o os IH]; intros os' a H1 H2; cbn [app goods] in *; auto.
  destruct H1 as [A [B [C D]]]. auto.
Qed.
Lemma effects_app' : forall os os' a, effects (os ++ os') a = effects os' (effects os a).
Proof. induction os as [|o os IH]; intros; cbn [app ProblemSpec.effects]; auto. Qed.
Lemma goods_accepted : forall os a, goods os a -> accepted W mf_amb mf_tan os a.
Proof. induction os as [|o os IH]; intros a H; cbn [goods accepted] in *; auto. destruct H as [A [B [C D]]]. auto. Qed.

Definition new_par (o : op) : list Z := match o with OAddParameterManifold v _ _ _ => [v] | _ => [] end.
Definition new_res (o : op) : list Z := match o with OAddResidual r _ _ _ => [r] | _ => [] end.

Definition bounded_like (b : pblock) (i : pinfo) (lo hi : nat) : Prop :=
  forall k, (lo <= k < hi)%nat -> pb_upper b k = Some (i_hi i (Z.of_nat k)) /\ pb_lower b k = Some (i_lo i (Z.of_nat k)).

Lemma upd_at : forall a v f i, a_par a v = Some i -> a_par (upd_par v f a) v = Some (f i) /\
  (forall u, u <> v -> a_par (upd_par v f a) u = a_par a u) /\ a_res (upd_par v f a) = a_res a.
Proof.
  intros a v f i E. unfold upd_par. rewrite E. simpl. unfold fupd. rewrite Z.eqb_refl. split; auto. split; auto.
  intros u H. destruct (Z.eqb_spec u v); congruence.
Qed.

Lemma bound_ops_good : forall n i b, (forall k, (k < i + n)%nat -> pb_upper b k <> None /\ pb_lower b k <> None) ->
  forall a inf, a_par a (b_addr b) = Some inf -> Z.of_nat (i + n) <= i_size inf ->
  exists os, bound_ops n i b = Ok os /\ goods os a /\ flat_map new_par os = [] /\ flat_map new_res os = [] /\
    (forall v, v <> b_addr b -> a_par (effects os a) v = a_par a v) /\ a_res (effects os a) = a_res a /\
    exists inf', a_par (effects os a) (b_addr b) = Some inf' /\
      i_size inf' = i_size inf /\ i_const inf' = i_const inf /\ i_man inf' = i_man inf /\
      bounded_like b inf' i (i + n) /\
      (forall k, (k < i)%nat -> i_hi inf' (Z.of_nat k) = i_hi inf (Z.of_nat k) /\ i_lo inf' (Z.of_nat k) = i_lo inf (Z.of_nat k)).
Proof.
  induction n as [|n IH]; intros i b HB a inf E HS; cbn [bound_ops].
  - exists []. cbn [goods flat_map ProblemSpec.effects]. do 4 (split; [auto|]). split; [auto|]. split; [auto|].
    exists inf. do 4 (split; [auto|]). split; [|auto]. intros k H. lia.
  - destruct (HB i ltac:(lia)) as [HU HL]. destruct (pb_upper b i) as [u|] eqn:EU; [|congruence].
    destruct (pb_lower b i) as [l|] eqn:EL; [|congruence]. cbn [deref bind].
    set (o1 := OSetUpper (b_addr b) (Z.of_nat i) u). set (o2 := OSetLower (b_addr b) (Z.of_nat i) l).
    set (i1 := mkI (i_size inf) (i_const inf) (i_man inf) (i_lo inf) (fupd (Z.of_nat i) u (i_hi inf))).
    set (i2 := mkI (i_size inf) (i_const inf) (i_man inf) (fupd (Z.of_nat i) l (i_lo inf)) (fupd (Z.of_nat i) u (i_hi inf))).
    assert (A1 : a_par (effect o1 a) (b_addr b) = Some i1 /\ (forall v, v <> b_addr b -> a_par (effect o1 a) v = a_par a v) /\ a_res (effect o1 a) = a_res a).
    { exact (upd_at a (b_addr b) _ inf E). }
    destruct A1 as [A1 [A2 A3]].
    assert (B1 : a_par (effect o2 (effect o1 a)) (b_addr b) = Some i2 /\
       (forall v, v <> b_addr b -> a_par (effect o2 (effect o1 a)) v = a_par (effect o1 a) v) /\ a_res (effect o2 (effect o1 a)) = a_res (effect o1 a)).
    { exact (upd_at (effect o1 a) (b_addr b) _ i1 A1). }
    destruct B1 as [B1 [B2 B3]].
    destruct (IH (S i) b ltac:(intros; apply HB; lia) (effect o2 (effect o1 a)) i2 B1 ltac:(unfold i2; simpl i_size; lia))
      as [os [R1 [R2 [R3 [R4 [R5 [R6 [inf' [Q1 [Q2 [Q3 [Q4 [Q5 Q6]]]]]]]]]]]]].
    rewrite R1. cbn [bind]. exists (o1 :: o2 :: os). split; auto. split.
    { cbn [goods]. split; [simpl; lia|]. split; [exists inf; split; auto; lia|]. split; [exact I|].
      split; [simpl; lia|]. split; [exists i1; split; auto; simpl; lia|]. split; [exact I|]. exact R2. }
    split; [cbn [flat_map new_par app]; exact R3|]. split; [cbn [flat_map new_res app]; exact R4|].
    cbn [ProblemSpec.effects]. split; [intros v Hv; rewrite R5, B2, A2; auto|]. split; [congruence|].
    exists inf'. split; auto. split; [rewrite Q2; reflexivity|]. split; [rewrite Q3; reflexivity|]. split; [rewrite Q4; reflexivity|].
    assert (SAME : i_hi inf' (Z.of_nat i) = u /\ i_lo inf' (Z.of_nat i) = l).
    { destruct (Q6 i ltac:(lia)) as [H1 H2]. rewrite H1, H2. unfold i2; simpl. unfold fupd. rewrite Z.eqb_refl. auto. }
    split.
    + intros k Hk. destruct (Nat.eq_dec k i) as [->|]; [|apply Q5; lia]. rewrite EU, EL. destruct SAME as [-> ->]. auto.
    + intros k Hk. destruct (Q6 k ltac:(lia)) as [H1 H2]. rewrite H1, H2. unfold i2; simpl. unfold fupd.
      destruct (Z.eqb_spec (Z.of_nat k) (Z.of_nat i)); [lia|]. auto.
Qed.

Definition like (b : pblock) (i : pinfo) : Prop :=
  i_size i = b_size b /\ i_const i = is_constant mf_tan b /\ i_man i = b_man b /\ bounded_like b i 0 (Z.to_nat (b_size b)).

Variable plus_ok : Z -> bool.

Lemma block_ops_good : forall b a,
  (forall k, (k < Z.to_nat (b_size b))%nat -> pb_upper b k <> None /\ pb_lower b k <> None) ->
  (b_man b = 0 \/ mf_amb (b_man b) = b_size b /\ 0 <= mf_tan (b_man b)) -> (b_man b <> 0 -> plus_ok (b_addr b) = true) ->
  b_addr b <> 0 -> a_par a (b_addr b) = None ->
  (forall v i, a_par a v = Some i -> apart v (i_size i) (b_addr b) (b_size b)) ->
  exists os, block_ops mf_tan plus_ok b = Ok os /\ goods os a /\ flat_map new_par os = [b_addr b] /\ flat_map new_res os = [] /\
    (forall v, v <> b_addr b -> a_par (effects os a) v = a_par a v) /\ a_res (effects os a) = a_res a /\
    exists i, a_par (effects os a) (b_addr b) = Some i /\ like b i.
Proof.
  intros b a HB HM HP NZ EN AP. unfold block_ops.
  set (v := b_addr b) in *. set (o1 := OAddParameterManifold v (b_size b) (b_man b) (plus_ok v)).
  assert (F : a_par (add1 v (b_size b) a) v = Some (fresh_info (b_size b)) /\ (forall u, u <> v -> a_par (add1 v (b_size b) a) u = a_par a u) /\
              a_res (add1 v (b_size b) a) = a_res a).
  { unfold add1. rewrite EN. simpl. unfold fupd. rewrite Z.eqb_refl. split; auto. split; auto. intros u H. destruct (Z.eqb_spec u v); congruence. }
  destruct F as [F1 [F2 F3]].
  set (i1 := with_manifold (b_man b) (fresh_info (b_size b))).
  assert (A : a_par (effect o1 a) v = Some i1 /\ (forall u, u <> v -> a_par (effect o1 a) u = a_par a u) /\ a_res (effect o1 a) = a_res a).
  { destruct (upd_at (add1 v (b_size b) a) v (with_manifold (b_man b)) _ F1) as [G1 [G2 G3]]. split; [exact G1|]. split; [|cbn; congruence].
    intros u Hu. change (effect o1 a) with (upd_par v (with_manifold (b_man b)) (add1 v (b_size b) a)). rewrite G2, F2; auto. }
  destruct A as [A1 [A2 A3]].
  assert (G1 : sane o1 a /\ allows o1 a /\ copying o1 a).
  { split; [exact I|]. split; [|exact EN]. split.
    - split; auto. rewrite EN. intros u i Hu. apply AP; auto.
    - exists (fresh_info (b_size b)). split; auto. destruct HM as [->|[M1 M2]]; [right; left; auto|].
      destruct (Z.eq_dec (b_man b) 0) as [->|NM]; [right; left; auto|]. right. right. split; auto. }
  set (cs := if is_constant mf_tan b then [OSetConstant v] else []).
  set (i2 := mkI (b_size b) (is_constant mf_tan b) (b_man b) (i_lo i1) (i_hi i1)).
  assert (B : a_par (effects cs (effect o1 a)) v = Some i2 /\ (forall u, u <> v -> a_par (effects cs (effect o1 a)) u = a_par a u) /\
     a_res (effects cs (effect o1 a)) = a_res a /\ goods cs (effect o1 a) /\ flat_map new_par cs = [] /\ flat_map new_res cs = []).
  { unfold cs, i2. destruct (is_constant mf_tan b) eqn:C.
    - destruct (upd_at (effect o1 a) v (fun i => mkI (i_size i) true (i_man i) (i_lo i) (i_hi i)) i1 A1) as [H1 [H2 H3]].
      cbn [ProblemSpec.effects]. split; [exact H1|]. split; [|split; [|split; [|split; reflexivity]]].
      + intros u Hu. etransitivity; [apply H2; auto|auto].
      + etransitivity; [exact H3|auto].
      + cbn [goods]. split; [exact I|]. split; [|split; exact I]. change (a_par (effect o1 a) v <> None). rewrite A1. discriminate.
    - cbn [ProblemSpec.effects]. split; [exact A1|]. split; auto. split; auto. split; [exact I|]. split; reflexivity. }
  destruct B as [B1 [B2 [B3 [B4 [B5 B6]]]]].
  destruct (Z.le_gt_cases 0 (b_size b)) as [SZ|SZ].
  - destruct (bound_ops_good (Z.to_nat (b_size b)) 0 b HB (effects cs (effect o1 a)) i2 B1 ltac:(unfold i2; simpl i_size; lia))
      as [os [R1 [R2 [R3 [R4 [R5 [R6 [inf [Q1 [Q2 [Q3 [Q4 [Q5 _]]]]]]]]]]]]].
    rewrite R1. cbn [bind]. exists (o1 :: cs ++ os). split; auto. split.
    { cbn [goods]. destruct G1 as [Ga [Gb Gc]]. split; auto. split; auto. split; auto. apply goods_app; auto. }
    split; [cbn [flat_map new_par app]; rewrite flat_map_app, B5, R3; reflexivity|].
    split; [cbn [flat_map new_res app]; rewrite flat_map_app, B6, R4; reflexivity|].
    cbn [ProblemSpec.effects]. rewrite effects_app'. split; [intros u Hu; rewrite R5; auto|]. split; [congruence|].
    exists inf. split; [exact Q1|]. split; [exact Q2|]. split; [exact Q3|]. split; [exact Q4|]. exact Q5.
  - replace (Z.to_nat (b_size b)) with 0%nat by lia. cbn [bound_ops bind]. exists (o1 :: cs ++ []). split; auto.
    rewrite app_nil_r. split.
    { cbn [goods]. destruct G1 as [Ga [Gb Gc]]. split; auto. }
    split; [cbn [flat_map new_par app]; rewrite B5; reflexivity|].
    split; [cbn [flat_map new_res app]; rewrite B6; reflexivity|].
    cbn [ProblemSpec.effects]. split; auto. split; auto. exists i2. split; auto.
    split; auto. split; auto. split; auto. intros k Hk. lia.
Qed.
End Calls.

Lemma bounds_there : forall s p b, Inv s -> zfind p (p_pheap s) = Some b ->
  forall k, (k < Z.to_nat (b_size b))%nat -> pb_upper b k <> None /\ pb_lower b k <> None.
Proof.
  intros s p b I E k H. destruct (i_bl s I p b E) as [_ [L1 L2]]. unfold pb_upper, pb_lower. split.
  - destruct (b_hi b) as [l|]; [|discriminate]. apply nth_error_Some. rewrite (L2 l eq_refl). auto.
  - destruct (b_lo b) as [l|]; [|discriminate]. apply nth_error_Some. rewrite (L1 l eq_refl). auto.
Qed.

Lemma states_some : forall ps s, (forall p, In p ps -> zfind p (p_pheap s) <> None) ->
  user_states ps s = Some (map (addr_of s) ps).
Proof.
  induction ps as [|p ps IH]; intros s H; cbn [user_states fold_right map]; auto.
  fold (user_states ps s). rewrite IH by (intros; apply H; right; auto). unfold addr_of at 2.
  destruct (zfind p (p_pheap s)) as [b|] eqn:E; auto. destruct (H p (or_introl eq_refl) E).
Qed.
